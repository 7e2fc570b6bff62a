(** Property C61: copies of NLMPC controllers, and the life of the optimizer objects. *)
From Coq Require Import Bool Arith ZArith Lia String Reals List.
From Verif Require Import Scalar Mat Slice Builder LMPC NLFun NLMPC Logger Profiler World SpecWorld PropWorld.
Import ListNotations.
Local Open Scope nat_scope.

Section W.
  Context {F : Type} {SO : ScalarOps F}.
  Variables big low : R.
  Notation step := (w_step big low). Notation run := (w_run big low).
  Notation world := (world F). Notation wop := (wop F).

  (** *** a copy is a second name *)
  Section Alias.
    Variables i j : nat.
    Hypothesis Hij : i < j.
    Notation f := (second_name i j).
    Definition alias (w w' : world) : Prop :=
      w_cells w = w_cells w' /\ w_log w = w_log w' /\ w_out w = w_out w' /\ length (w_ctrls w) = S (length (w_ctrls w')) /\ j < length (w_ctrls w) /\
      forall v, match nth_error (w_ctrls w) v, nth_error (w_ctrls w') (f v) with
                | Some (Some k), Some (Some k') => k_cell k = k_cell k' /\ (v <> i -> v <> j -> k_prof k = k_prof k')
                | Some None, Some None => True | None, None => True | _, _ => False end.
    Lemma alias_ctl w w' v : alias w w' -> match ctl w v, ctl w' (f v) with
      | Some (k, c), Some (k', c') => c = c' /\ k_cell k = k_cell k' /\ (v <> i -> v <> j -> k_prof k = k_prof k') | None, None => True | _, _ => False end.
    Proof.
      intros (A & _ & _ & _ & _ & H). unfold ctl. specialize (H v). destruct (nth_error (w_ctrls w) v) as [[k|]|], (nth_error (w_ctrls w') (f v)) as [[k'|]|]; try contradiction; try exact I.
      destruct H as [H1 H2]. rewrite <- H1, A. destruct (nth_error (w_cells w') (k_cell k)); auto.
    Qed.
    Lemma f_inj v u : v <> u -> f v = f u -> (v = i /\ u = j) \/ (v = j /\ u = i).
    Proof.
      unfold second_name. destruct (Nat.ltb_spec v j), (Nat.ltb_spec u j); try lia.
      - destruct (Nat.eqb_spec u j); lia.
      - destruct (Nat.eqb_spec v j); lia.
      - destruct (Nat.eqb_spec v j), (Nat.eqb_spec u j); lia.
    Qed.
    Lemma alias_vars w w' v k c k' c' : alias w w' -> ctl w v = Some (k, c) -> ctl w' (f v) = Some (k', c') ->
      nth_error (w_ctrls w) v = Some (Some k) /\ nth_error (w_ctrls w') (f v) = Some (Some k') /\ nth_error (w_cells w) (k_cell k) = Some c.
    Proof.
      intros _. unfold ctl. destruct (nth_error (w_ctrls w) v) as [[k1|]|]; try discriminate. destruct (nth_error (w_cells w) (k_cell k1)) eqn:E; try discriminate. intros E1. injection E1 as <- <-.
      destruct (nth_error (w_ctrls w') (f v)) as [[k2|]|]; try discriminate. destruct (nth_error (w_cells w') (k_cell k2)); try discriminate. intros E2. injection E2 as <- <-. auto.
    Qed.
    (** replacing the value of one variable *)
    Lemma alias_ctrl w w' v k0 k0' ko ko' cs g o : alias w w' -> nth_error (w_ctrls w) v = Some (Some k0) -> nth_error (w_ctrls w') (f v) = Some (Some k0') ->
      match ko, ko' with
      | Some k, Some k' => k_cell k = k_cell k0 /\ k_cell k' = k_cell k0' /\ (v <> i -> v <> j -> k_prof k = k_prof k')
      | None, None => v <> i /\ v <> j
      | _, _ => False end ->
      alias (mkW cs (upd (w_ctrls w) v ko) g o) (mkW cs (upd (w_ctrls w') (f v) ko') g o).
    Proof.
      intros (A & B & C & D & D2 & H) Ev Ev' K. unfold alias. cbn [w_cells w_ctrls w_log w_out]. rewrite !upd_len. refine (conj eq_refl (conj eq_refl (conj eq_refl (conj D (conj D2 _))))).
      assert (L : v < length (w_ctrls w)) by (apply nth_error_Some; congruence). assert (L' : f v < length (w_ctrls w')) by (apply nth_error_Some; congruence).
      intros u. destruct (Nat.eq_dec u v) as [->|N].
      - rewrite !upd_same by assumption. pose proof (H v) as Hv. rewrite Ev, Ev' in Hv. destruct ko as [k|], ko' as [k'|]; try contradiction; try exact I. destruct K as (K1 & K2 & K3). split; [|exact K3]. rewrite K1, K2. exact (proj1 Hv).
      - rewrite (upd_other _ v u) by congruence. specialize (H u). destruct (Nat.eq_dec (f v) (f u)) as [E|E]; [|now rewrite (upd_other _ (f v) (f u)) by exact E].
        rewrite <- E, upd_same by exact L'. rewrite <- E, Ev' in H. assert (Hu : (v = i /\ u = j) \/ (v = j /\ u = i)) by (apply f_inj; congruence).
        destruct (nth_error (w_ctrls w) u) as [[ku|]|]; try contradiction. destruct H as [H1 H2].
        destruct ko as [k|], ko' as [k'|]; try contradiction; [|exfalso; destruct K as [K1 K2]; destruct Hu as [[? ?]|[? ?]]; congruence].
        destruct K as (K1 & K2 & K3). split; [congruence|]. intros N1 N2. exfalso. destruct Hu as [[? ?]|[? ?]]; congruence.
    Qed.
    Lemma alias_log w w' g o : alias w w' -> alias (mkW (w_cells w) (w_ctrls w) g o) (mkW (w_cells w') (w_ctrls w') g o).
    Proof. intros (A & B & C & D & D2 & H). exact (conj A (conj eq_refl (conj eq_refl (conj D (conj D2 H))))). Qed.
    Lemma alias_speak ms w w' v : alias w w' -> exists w1 w1', speak ms w v = WOk w1 v /\ speak ms w' v = WOk w1' v /\ alias w1 w1'.
    Proof.
      intros A. unfold speak. pose proof A as (_ & B & C & _). rewrite <- B, <- C. destruct (say_ok ms (w_log w)) as (g & o & E). rewrite E. eexists _, _. refine (conj eq_refl (conj eq_refl _)). now apply alias_log.
    Qed.
    Lemma alias_grown w w' c g o : alias w w' -> alias (grown big low w c g o) (grown big low w' c g o).
    Proof.
      intros (A & B & C & D & D2 & H). unfold alias, grown. cbn [w_cells w_ctrls w_log w_out]. rewrite !app_length, A. refine (conj eq_refl (conj eq_refl (conj eq_refl (conj _ (conj _ _))))); [cbn; lia|cbn; lia|].
      intros v. rewrite !nth_last. specialize (H v). replace (f v =? length (w_ctrls w')) with (v =? length (w_ctrls w)).
      - destruct (v =? length (w_ctrls w)); [split; reflexivity|exact H].
      - unfold second_name. destruct (Nat.ltb_spec v j), (Nat.eqb_spec v j); destruct (Nat.eqb_spec v (length (w_ctrls w))); symmetry; (apply Nat.eqb_eq; lia) || (apply Nat.eqb_neq; lia).
    Qed.
    Lemma alias_step w w' op : alias w w' -> plain_use i op -> plain_use j op ->
      match step w op, step w' (rename f op) with WBad, WBad => True | WUB, WUB => True | WOk w1 v, WOk w1' v' => v = v' /\ alias w1 w1' | _, _ => False end.
    Proof.
      intros A (P1 & P2 & P3) (_ & Q2 & Q3). destruct op; try discriminate P1; cbn [rename w_step].
      - destruct ((d_ph d =? 0) || (d_ch d =? 0)); [exact I|]. split; [reflexivity|]. pose proof A as (B1 & B2 & B3 & _).
        pose proof (alias_grown w w' (mkCell (CL d junk ejunk (l_init junk ejunk d)) true) (w_log w) (w_out w) A) as G. unfold grown in G. rewrite <- B2, <- B3. exact G.
      - destruct ((d_ph d =? 0) || (d_ch d =? 0)); [exact I|]. destruct (n_new d) as [s|]; [|exact I]. pose proof A as (B1 & B2 & B3 & _).
        pose proof (alias_grown w w' (mkCell (CN d ni ne dyn junk s) true) (w_log w) (w_out w) A) as G. unfold grown in G. rewrite <- B2, <- B3.
        match goal with |- match speak ?ms ?a ?v with _ => _ end => destruct (alias_speak ms _ _ v G) as (w1 & w1' & E1 & E2 & A2) end. rewrite E1, E2. auto.
      - pose proof (alias_ctl w w' i0 A) as K. destruct (ctl w i0) as [[k c]|] eqn:Ek, (ctl w' (f i0)) as [[k' c']|] eqn:Ek'; try contradiction; try exact I.
        destruct K as (<- & K1 & K2). destruct (alias_vars _ _ _ _ _ _ _ A Ek Ek') as (E1 & E2 & E3). assert (N : i0 <> i /\ i0 <> j) by (split; congruence). pose proof A as (B1 & B2 & B3 & _).
        destruct c as [[d junk ejunk s|d ni ne dyn junk s] alive].
        + split; [reflexivity|]. unfold set_ctrl. rewrite B1, B2, B3. exact (alias_ctrl w w' i0 k k' None None _ _ _ A E1 E2 N).
        + destruct alive; [|exact I]. split; [reflexivity|]. unfold set_ctrl, set_core_as. cbn [w_cells w_ctrls w_log w_out]. rewrite B1, B2, B3, K1. exact (alias_ctrl w w' i0 k k' None None _ _ _ A E1 E2 N).
      - pose proof (alias_ctl w w' i0 A) as K. destruct (ctl w i0) as [[k c]|] eqn:Ek, (ctl w' (f i0)) as [[k' c']|] eqn:Ek'; try contradiction; try exact I.
        destruct K as (<- & K1 & K2). destruct (alias_vars _ _ _ _ _ _ _ A Ek Ek') as (E1 & E2 & E3). pose proof A as (B1 & B2 & B3 & _).
        destruct c as [[d junk ejunk s|d ni ne dyn junk s] alive]; [|exact I]. destruct (l_step junk ejunk d s op) as [[s' r]|]; [|exact I].
        match goal with |- match speak ?ms ?a ?v with _ => _ end => assert (G : alias a (set_ctrl (f i0) (Some (profiled big low r (le_t0 e) (le_t1 e) k')) (set_core_as (k_cell k') (CL d junk ejunk s') alive w'))) end.
        { unfold set_ctrl, set_core_as. cbn [w_cells w_ctrls w_log w_out]. rewrite B1, B2, B3, K1. apply (alias_ctrl w w' i0 k k'); try assumption. rewrite !profiled_cell. refine (conj eq_refl (conj eq_refl _)). intros N1 N2. apply profiled_prof. auto. }
        match goal with |- match speak ?ms ?a ?v with _ => _ end => destruct (alias_speak ms _ _ v G) as (w1 & w1' & F1 & F2 & A2) end. rewrite F1, F2. auto.
      - pose proof (alias_ctl w w' i0 A) as K. destruct (ctl w i0) as [[k c]|] eqn:Ek, (ctl w' (f i0)) as [[k' c']|] eqn:Ek'; try contradiction; try exact I.
        destruct K as (<- & K1 & K2). destruct (alias_vars _ _ _ _ _ _ _ A Ek Ek') as (E1 & E2 & E3). pose proof A as (B1 & B2 & B3 & _).
        destruct c as [[d junk ejunk s|d ni ne dyn junk s] alive]; [exact I|]. destruct (negb alive && negb (optimizer_free d op)); [exact I|]. destruct (n_step junk d ni ne dyn s op) as [[s' r]|]; [|exact I].
        match goal with |- match speak ?ms ?a ?v with _ => _ end => assert (G : alias a (set_ctrl (f i0) (Some (profiled big low r (ne_t0 e) (ne_t1 e) k')) (set_core_as (k_cell k') (CN d ni ne dyn junk s') alive w'))) end.
        { unfold set_ctrl, set_core_as. cbn [w_cells w_ctrls w_log w_out]. rewrite B1, B2, B3, K1. apply (alias_ctrl w w' i0 k k'); try assumption. rewrite !profiled_cell. refine (conj eq_refl (conj eq_refl _)). intros N1 N2. apply profiled_prof. auto. }
        match goal with |- match speak ?ms ?a ?v with _ => _ end => destruct (alias_speak ms _ _ v G) as (w1 & w1' & F1 & F2 & A2) end. rewrite F1, F2. auto.
      - pose proof (alias_ctl w w' i0 A) as K. destruct (ctl w i0) as [[k c]|] eqn:Ek, (ctl w' (f i0)) as [[k' c']|] eqn:Ek'; try contradiction; try exact I. destruct K as (<- & K1 & K2). destruct (c_alive c); [auto|exact I].
      - pose proof (alias_ctl w w' i0 A) as K. destruct (ctl w i0) as [[k c]|] eqn:Ek, (ctl w' (f i0)) as [[k' c']|] eqn:Ek'; try contradiction; try exact I. destruct K as (<- & K1 & K2). destruct (c_alive c); [auto|exact I].
      - pose proof (alias_ctl w w' i0 A) as K. destruct (ctl w i0) as [[k c]|] eqn:Ek, (ctl w' (f i0)) as [[k' c']|] eqn:Ek'; try contradiction; try exact I. destruct K as (<- & K1 & K2). rewrite K2 by congruence. auto.
      - pose proof (alias_ctl w w' i0 A) as K. destruct (ctl w i0) as [[k c]|] eqn:Ek, (ctl w' (f i0)) as [[k' c']|] eqn:Ek'; try contradiction; try exact I. destruct K as (<- & K1 & K2).
        destruct (alias_vars _ _ _ _ _ _ _ A Ek Ek') as (E1 & E2 & E3). pose proof A as (B1 & B2 & B3 & _). split; [reflexivity|]. unfold set_ctrl. rewrite B1, B2, B3. apply (alias_ctrl w w' i0 k k'); try assumption.
        refine (conj eq_refl (conj eq_refl _)). intros N1 N2. cbn [k_prof]. rewrite K2 by assumption. reflexivity.
      - pose proof (alias_ctl w w' i0 A) as K. destruct (ctl w i0) as [[k c]|] eqn:Ek, (ctl w' (f i0)) as [[k' c']|] eqn:Ek'; try contradiction; try exact I. cbn [g_step]. split; [reflexivity|]. pose proof A as (B1 & B2 & B3 & _). rewrite B2, B3. now apply alias_log.
      - pose proof (alias_ctl w w' i0 A) as K. destruct (ctl w i0) as [[k c]|] eqn:Ek, (ctl w' (f i0)) as [[k' c']|] eqn:Ek'; try contradiction; try exact I. cbn [g_step]. split; [reflexivity|]. pose proof A as (B1 & B2 & B3 & _). rewrite B2, B3. now apply alias_log.
      - pose proof A as (B1 & B2 & B3 & _). rewrite <- B2, <- B3. destruct (g_step (w_log w) o) as [[g x]|]; [|exact I]. split; [reflexivity|]. now apply alias_log.
    Qed.
    Lemma alias_run ops : forall w w', alias w w' -> Forall (plain_use i) ops -> Forall (plain_use j) ops ->
      match run w ops, run w' (map (rename f) ops) with FBad, FBad => True | FUB, FUB => True | FOk w1 vs, FOk w1' vs' => vs = vs' /\ alias w1 w1' | _, _ => False end.
    Proof.
      induction ops as [|op ops IH]; intros w w' A P Q; [exact (conj eq_refl A)|]. inversion P as [|? ? P1 P2]; subst. inversion Q as [|? ? Q1 Q2]; subst. cbn [map w_run].
      pose proof (alias_step w w' op A P1 Q1) as S1. destruct (step w op) as [| |w1 v], (step w' (rename f op)) as [| |w1' v']; try contradiction; try exact I. destruct S1 as [<- A1].
      specialize (IH w1 w1' A1 P2 Q2). destruct (run w1 ops), (run w1' (map (rename f) ops)); try contradiction; try exact I. destruct IH as [<- IH]. auto.
    Qed.
  End Alias.

  (** the copy is not a second controller but a second name of the first: whatever calls follow (none destroying either, none reading their statistics),
      the answers and everything written are those of the program without the copy, in which the calls on the copy are made on the original *)
  Theorem C61_copy_is_second_name (w w1 : world) i v : step w (WCopy i) = WOk w1 v -> let j := length (w_ctrls w) in
    forall cont, Forall (plain_use i) cont -> Forall (plain_use j) cont ->
      match run w1 cont, run w (map (rename (second_name i j)) cont) with
      | FOk w2 vs, FOk w2' vs' => vs = vs' /\ w_out w2 = w_out w2'
      | FUB, FUB => True | FBad, FBad => True | _, _ => False end.
  Proof.
    intros E j cont P Q. cbn [w_step] in E. destruct (ctl w i) as [[k c]|] eqn:Ek; [|discriminate E]. destruct c as [[d junk ejunk s|d ni ne dyn junk s] alive]; [discriminate E|]. injection E as <- <-.
    unfold ctl in Ek. destruct (nth_error (w_ctrls w) i) as [[k1|]|] eqn:Ei; try discriminate Ek. destruct (nth_error (w_cells w) (k_cell k1)); [|discriminate Ek]. injection Ek as <- _.
    assert (L : i < j) by (apply nth_error_Some; congruence).
    assert (A : alias i j (mkW (w_cells w) (w_ctrls w ++ [Some k1]) (w_log w) (w_out w)) w).
    { refine (conj eq_refl (conj eq_refl (conj eq_refl _))). cbn [w_ctrls]. rewrite app_length. cbn [length]. split; [lia|]. split; [fold j; lia|]. intros u. rewrite nth_last. fold j. unfold second_name.
      destruct (Nat.ltb_spec u j).
      - destruct (Nat.eqb_spec u j); [lia|]. destruct (nth_error (w_ctrls w) u) as [[k2|]|]; auto.
      - destruct (Nat.eqb_spec u j) as [->|]; [rewrite Ei; auto|]. rewrite (proj2 (nth_error_None (w_ctrls w) u)) by (fold j; lia). rewrite (proj2 (nth_error_None (w_ctrls w) (u - 1))) by (fold j; lia). exact I. }
    pose proof (alias_run i j L cont _ _ A P Q) as R1. destruct (run _ cont), (run w _); try contradiction; try exact I. destruct R1 as [-> (_ & _ & O & _)]. auto.
  Qed.

  (** *** the optimizer is deleted once *)
  Definition holds (w : world) (v m : nat) : Prop := exists k, nth_error (w_ctrls w) v = Some (Some k) /\ k_cell k = m.
  Definition is_N (w : world) (m : nat) (alive : option bool) : Prop :=
    exists d ni ne dyn junk s b, nth_error (w_cells w) m = Some (mkCell (CN d ni ne dyn junk s) b) /\ match alive with Some a => b = a | None => True end.
  Lemma nth_upd {A} (l : list A) a b x : nth_error (upd l a x) b = if a =? b then match nth_error l b with Some _ => Some x | None => None end else nth_error l b.
  Proof.
    destruct (Nat.eqb_spec a b) as [->|N]; [|now apply upd_other]. destruct (nth_error l b) eqn:E; [apply upd_same, nth_error_Some; congruence|]. rewrite upd_out; [exact E|]. now apply nth_error_None.
  Qed.
  Lemma nth_more {A} (l : list A) x b y : nth_error l b = Some y -> nth_error (l ++ [x]) b = Some y.
  Proof. intros E. rewrite nth_error_app1; [exact E|]. apply nth_error_Some. congruence. Qed.
  Lemma ctl_nth (w : world) u k c : ctl w u = Some (k, c) -> nth_error (w_ctrls w) u = Some (Some k) /\ nth_error (w_cells w) (k_cell k) = Some c.
  Proof. unfold ctl. destruct (nth_error (w_ctrls w) u) as [[k'|]|]; try discriminate. destruct (nth_error (w_cells w) (k_cell k')) eqn:E; try discriminate. intros X. injection X as <- <-. auto. Qed.
  Lemma speak_inv ms (w : world) v w1 v1 : speak ms w v = WOk w1 v1 -> w_cells w1 = w_cells w /\ w_ctrls w1 = w_ctrls w /\ v1 = v.
  Proof. intros E. destruct (speak_ok ms w v) as (g & o & E'). rewrite E' in E. injection E as <- <-. auto. Qed.
  Lemma holds_upd (w : world) u m a k ko : holds w u m -> nth_error (w_ctrls w) a = Some (Some k) -> (forall k', ko = Some k' -> k_cell k' = k_cell k) -> (ko = None -> a <> u) ->
    exists k', nth_error (upd (w_ctrls w) a ko) u = Some (Some k') /\ k_cell k' = m.
  Proof.
    intros (k0 & E0 & M) E H N. rewrite nth_upd. destruct (Nat.eqb_spec a u) as [->|]; [|eauto]. rewrite E0. rewrite E0 in E. injection E as <-. destruct ko as [k'|]; [|exfalso; now apply N].
    exists k'. split; [reflexivity|]. rewrite (H k' eq_refl). exact M.
  Qed.
  Lemma step_holds (w : world) op w1 v u m : step w op = WOk w1 v -> holds w u m -> op <> WDelete u -> assigned u op = false -> holds w1 u m.
  Proof.
    intros E H N Na. pose proof H as (k0 & E0 & M). destruct op; cbn [w_step] in E.
    - destruct (_ || _); [discriminate E|]. injection E as <- <-. exists k0. cbn [w_ctrls]. split; [now apply nth_more|exact M].
    - destruct (_ || _); [discriminate E|]. destruct (n_new d); [|discriminate E]. apply speak_inv in E. destruct E as (_ & E & _). exists k0. rewrite E. cbn [w_ctrls]. split; [now apply nth_more|exact M].
    - destruct (ctl w i) as [[k c]|] eqn:Ek; [|discriminate E]. destruct c as [[|] alive]; [discriminate E|]. injection E as <- <-. exists k0. cbn [w_ctrls]. split; [now apply nth_more|exact M].
    - destruct (ctl w i) as [[k c]|] eqn:Ek; [|discriminate E]. destruct c as [[|] alive]; [discriminate E|]. destruct (ctl w j) as [[k2 [[|] alive2]]|] eqn:Ek2; try discriminate E. injection E as <- <-.
      cbn [assigned] in Na. apply Nat.eqb_neq in Na. exists k0. cbn [set_ctrl w_ctrls]. rewrite upd_other by exact Na. auto.
    - destruct (ctl w i) as [[k c]|] eqn:Ek; [|discriminate E]. apply ctl_nth in Ek. destruct Ek as [Ek1 Ek2]. destruct c as [[|] alive]; [|destruct alive; [|discriminate E]]; injection E as <- <-; unfold holds; cbn [set_ctrl set_core_as w_ctrls];
        (apply (holds_upd w u m i k None H Ek1); [intros k' X; discriminate X|intros _; congruence]).
    - destruct (ctl w i) as [[k c]|] eqn:Ek; [|discriminate E]. apply ctl_nth in Ek. destruct Ek as [Ek1 Ek2]. destruct c as [[|] alive]; [|discriminate E]. destruct (l_step _ _ _ _ _) as [[s' r]|]; [|discriminate E].
      apply speak_inv in E. destruct E as (_ & E & _). unfold holds. rewrite E. cbn [set_ctrl set_core_as w_ctrls]. apply (holds_upd w u m i k _ H Ek1); [|intros X; discriminate X]. intros k' X. injection X as <-. apply profiled_cell.
    - destruct (ctl w i) as [[k c]|] eqn:Ek; [|discriminate E]. apply ctl_nth in Ek. destruct Ek as [Ek1 Ek2]. destruct c as [[|] alive]; [discriminate E|]. destruct (_ && _); [discriminate E|]. destruct (n_step _ _ _ _ _ _ _) as [[s' r]|]; [|discriminate E].
      apply speak_inv in E. destruct E as (_ & E & _). unfold holds. rewrite E. cbn [set_ctrl set_core_as w_ctrls]. apply (holds_upd w u m i k _ H Ek1); [|intros X; discriminate X]. intros k' X. injection X as <-. apply profiled_cell.
    - destruct (ctl w i) as [[k c]|]; [|discriminate E]. destruct (c_alive c); [|discriminate E]. injection E as <- <-. exact H.
    - destruct (ctl w i) as [[k c]|]; [|discriminate E]. destruct (c_alive c); [|discriminate E]. injection E as <- <-. exact H.
    - destruct (ctl w i) as [[k c]|]; [|discriminate E]. injection E as <- <-. exact H.
    - destruct (ctl w i) as [[k c]|] eqn:Ek; [|discriminate E]. apply ctl_nth in Ek. destruct Ek as [Ek1 Ek2]. injection E as <- <-. unfold holds. cbn [set_ctrl w_ctrls]. apply (holds_upd w u m i k _ H Ek1); [|intros X; discriminate X]. intros k' X. injection X as <-. reflexivity.
    - destruct (ctl w i) as [[k c]|]; [|discriminate E]. injection E as <- <-. exact H.
    - destruct (ctl w i) as [[k c]|]; [|discriminate E]. injection E as <- <-. exact H.
    - destruct (g_step (w_log w) o) as [[g x]|]; [|discriminate E]. injection E as <- <-. exact H.
  Qed.
  (** how one object can change in a step *)
  Definition grows (c c1 : cell F) : Prop :=
    match c, c1 with
    | mkCell (CL _ _ _ _) _, mkCell (CL _ _ _ _) _ => True
    | mkCell (CN _ _ _ _ _ _) b, mkCell (CN _ _ _ _ _ _) b1 => b1 = true -> b = true
    | _, _ => False end.
  Lemma grows_refl c : grows c c. Proof. destruct c as [[|] []]; cbn; auto. Qed.
  Lemma step_cell (w : world) op w1 v m c : step w op = WOk w1 v -> nth_error (w_cells w) m = Some c ->
    exists c1, nth_error (w_cells w1) m = Some c1 /\ grows c c1 /\
      (c_alive c1 = c_alive c \/ exists u k, op = WDelete u /\ nth_error (w_ctrls w) u = Some (Some k) /\ k_cell k = m /\ c_alive c = true /\ c_alive c1 = false).
  Proof.
    intros E H. assert (Same : forall w2, w_cells w2 = w_cells w -> exists c1, nth_error (w_cells w2) m = Some c1 /\ grows c c1 /\
      (c_alive c1 = c_alive c \/ exists u k, op = WDelete u /\ nth_error (w_ctrls w) u = Some (Some k) /\ k_cell k = m /\ c_alive c = true /\ c_alive c1 = false))
      by (intros w2 Ec; exists c; rewrite Ec; split; [exact H|]; split; [apply grows_refl|]; now left).
    destruct op; cbn [w_step] in E.
    - destruct (_ || _); [discriminate E|]. injection E as <- <-. exists c. cbn [w_cells]. split; [now apply nth_more|]. split; [apply grows_refl|]. now left.
    - destruct (_ || _); [discriminate E|]. destruct (n_new d); [|discriminate E]. apply speak_inv in E. destruct E as (E & _ & _). exists c. rewrite E. cbn [w_cells]. split; [now apply nth_more|]. split; [apply grows_refl|]. now left.
    - destruct (ctl w i) as [[k c0]|] eqn:Ek; [|discriminate E]. destruct c0 as [[|] alive]; [discriminate E|]. injection E as <- <-. now apply Same.
    - destruct (ctl w i) as [[k c0]|] eqn:Ek; [|discriminate E]. destruct c0 as [[|] alive]; [discriminate E|]. destruct (ctl w j) as [[k2 [[|] alive2]]|] eqn:Ek2; try discriminate E. injection E as <- <-. now apply Same.
    - destruct (ctl w i) as [[k c0]|] eqn:Ek; [|discriminate E]. apply ctl_nth in Ek. destruct Ek as [Ek1 Ek2]. destruct c0 as [[|] alive]; [injection E as <- <-; now apply Same|]. destruct alive; [|discriminate E]. injection E as <- <-.
      cbn [set_ctrl set_core_as w_cells]. rewrite nth_upd. destruct (Nat.eqb_spec (k_cell k) m) as [Em|Nm].
      + rewrite H. rewrite Em, H in Ek2. injection Ek2 as ->. eexists. split; [reflexivity|]. split; [cbn; discriminate|]. right. exists i, k. auto.
      + exists c. split; [exact H|]. split; [apply grows_refl|]. now left.
    - destruct (ctl w i) as [[k c0]|] eqn:Ek; [|discriminate E]. apply ctl_nth in Ek. destruct Ek as [Ek1 Ek2]. destruct c0 as [[|] alive]; [|discriminate E]. destruct (l_step _ _ _ _ _) as [[s' r]|]; [|discriminate E].
      apply speak_inv in E. destruct E as (E & _ & _). rewrite E. cbn [set_ctrl set_core_as w_cells]. rewrite nth_upd. destruct (Nat.eqb_spec (k_cell k) m) as [Em|Nm].
      + rewrite H. rewrite Em, H in Ek2. injection Ek2 as ->. eexists. split; [reflexivity|]. split; [exact I|]. now left.
      + exists c. split; [exact H|]. split; [apply grows_refl|]. now left.
    - destruct (ctl w i) as [[k c0]|] eqn:Ek; [|discriminate E]. apply ctl_nth in Ek. destruct Ek as [Ek1 Ek2]. destruct c0 as [[|] alive]; [discriminate E|]. destruct (_ && _); [discriminate E|]. destruct (n_step _ _ _ _ _ _ _) as [[s' r]|]; [|discriminate E].
      apply speak_inv in E. destruct E as (E & _ & _). rewrite E. cbn [set_ctrl set_core_as w_cells]. rewrite nth_upd. destruct (Nat.eqb_spec (k_cell k) m) as [Em|Nm].
      + rewrite H. rewrite Em, H in Ek2. injection Ek2 as ->. eexists. split; [reflexivity|]. split; [cbn; auto|]. now left.
      + exists c. split; [exact H|]. split; [apply grows_refl|]. now left.
    - destruct (ctl w i) as [[k c0]|]; [|discriminate E]. destruct (c_alive c0); [|discriminate E]. injection E as <- <-. now apply Same.
    - destruct (ctl w i) as [[k c0]|]; [|discriminate E]. destruct (c_alive c0); [|discriminate E]. injection E as <- <-. now apply Same.
    - destruct (ctl w i) as [[k c0]|]; [|discriminate E]. injection E as <- <-. now apply Same.
    - destruct (ctl w i) as [[k c0]|] eqn:Ek; [|discriminate E]. injection E as <- <-. now apply Same.
    - destruct (ctl w i) as [[k c0]|]; [|discriminate E]. injection E as <- <-. now apply Same.
    - destruct (ctl w i) as [[k c0]|]; [|discriminate E]. injection E as <- <-. now apply Same.
    - destruct (g_step (w_log w) o) as [[g x]|]; [|discriminate E]. injection E as <- <-. now apply Same.
  Qed.
  Definition isN (c : cell F) : Prop := match c_core c with CN _ _ _ _ _ _ => True | _ => False end.
  Definition dead (w : world) (m : nat) : Prop := exists c, nth_error (w_cells w) m = Some c /\ isN c /\ c_alive c = false.
  Definition nlmpc (w : world) (m : nat) : Prop := exists c, nth_error (w_cells w) m = Some c /\ isN c.
  Lemma step_dead (w : world) op w1 v m : step w op = WOk w1 v -> dead w m -> dead w1 m.
  Proof.
    intros E (c & H & N & A). destruct (step_cell w op w1 v m c E H) as (c1 & H1 & G & [A1|(u & k & _ & _ & _ & A2 & _)]); [|congruence]. exists c1. split; [exact H1|]. split; [|congruence].
    destruct c as [[|] b], c1 as [[|] b1]; try contradiction; exact I.
  Qed.
  Lemma step_nlmpc (w : world) op w1 v m : step w op = WOk w1 v -> nlmpc w m -> nlmpc w1 m.
  Proof.
    intros E (c & H & N). destruct (step_cell w op w1 v m c E H) as (c1 & H1 & G & _). exists c1. split; [exact H1|]. destruct c as [[|] b], c1 as [[|] b1]; try contradiction; exact I.
  Qed.
  Lemma dead_step (w : world) u m op : holds w u m -> dead w m -> needs_optimizer u op = true -> step w op = WUB \/ step w op = WBad.
  Proof.
    intros (k & Ek & M) (c & Ec & N & A) U. assert (K : ctl w u = Some (k, c)) by (unfold ctl; rewrite Ek, M, Ec; reflexivity). destruct c as [[|d ni ne dyn junk s] b]; [contradiction|]. cbn [c_alive] in A. subst b.
    destruct op; try discriminate U; cbn [needs_optimizer] in U.
    - apply Nat.eqb_eq in U. subst. cbn [w_step]. rewrite K. auto.
    - assert (Ui : i = u) by (destruct op; try discriminate U; now apply Nat.eqb_eq). subst i. cbn [w_step]. rewrite K. destruct op; try discriminate U; cbn; auto.
    - apply Nat.eqb_eq in U. subst. cbn [w_step]. rewrite K. auto.
    - apply Nat.eqb_eq in U. subst. cbn [w_step]. rewrite K. auto.
  Qed.
  Lemma delete_step (w : world) u m w1 v : step w (WDelete u) = WOk w1 v -> holds w u m -> nlmpc w m -> dead w1 m.
  Proof.
    intros E (k & Ek & M) (c & Ec & N). assert (K : ctl w u = Some (k, c)) by (unfold ctl; rewrite Ek, M, Ec; reflexivity). cbn [w_step] in E. rewrite K in E. destruct c as [[|d ni ne dyn junk s] b]; [contradiction|]. destruct b; [|discriminate E].
    injection E as <- <-. unfold dead. cbn [set_ctrl set_core_as w_cells]. rewrite M, nth_upd, Nat.eqb_refl, Ec. eexists. split; [reflexivity|]. split; [exact I|reflexivity].
  Qed.
  Lemma run_dead_use cont : forall (w : world) u m w2 vs, run w cont = FOk w2 vs -> holds w u m -> dead w m -> Forall (fun op => assigned u op = false) cont -> Exists (fun op => needs_optimizer u op = true) cont -> False.
  Proof.
    induction cont as [|op cont IH]; intros w u m w2 vs E H D A X; [inversion X|]. inversion A as [|? ? A1 A2]; subst. cbn [w_run] in E. destruct (step w op) as [| |w1 v] eqn:E1; try discriminate E.
    destruct (run w1 cont) as [| |w3 vs'] eqn:E2; try discriminate E. destruct (needs_optimizer u op) eqn:U.
    - destruct (dead_step w u m op H D U); congruence.
    - inversion X as [? ? X1|? ? X1]; subst; [congruence|]. apply (IH w1 u m w3 vs' E2); try assumption; [|exact (step_dead _ _ _ _ _ E1 D)].
      apply (step_holds w op w1 v u m E1 H); [|exact A1]. intros ->. cbn [needs_optimizer] in U. rewrite Nat.eqb_refl in U. discriminate U.
  Qed.
  Lemma copy_shares (w w1 : world) op v i j : step w op = WOk w1 v -> duplicate (length (w_ctrls w)) op = Some (i, j) -> exists m, holds w1 i m /\ holds w1 j m /\ nlmpc w1 m.
  Proof.
    intros E D. destruct op as [| |i0|i0 j0| | | | | | | | | |]; try discriminate D; injection D as <- <-; cbn [w_step] in E.
    - destruct (ctl w i0) as [[k c]|] eqn:Ek; [|discriminate E]. destruct c as [[|d ni ne dyn junk s] b]; [discriminate E|]. injection E as <- <-. apply ctl_nth in Ek. destruct Ek as [Ek1 Ek2].
      exists (k_cell k). refine (conj _ (conj _ _)).
      + exists k. split; [now apply nth_more|reflexivity].
      + exists k. split; [cbn [w_ctrls]; rewrite nth_last, Nat.eqb_refl; reflexivity|reflexivity].
      + eexists. split; [exact Ek2|exact I].
    - destruct (ctl w i0) as [[k0 c0]|] eqn:Ek0; [|discriminate E]. destruct c0 as [[|] alive]; [discriminate E|]. destruct (ctl w j0) as [[k c]|] eqn:Ek; [|discriminate E]. destruct c as [[|d' ni' ne' dyn' junk' s'] b]; [discriminate E|]. injection E as <- <-.
      apply ctl_nth in Ek. destruct Ek as [Ek1 Ek2]. apply ctl_nth in Ek0. destruct Ek0 as [Ek3 Ek4]. exists (k_cell k). refine (conj _ (conj _ _)).
      + exists k. cbn [set_ctrl w_ctrls]. rewrite nth_upd, Ek1. destruct (i0 =? j0); auto.
      + exists k. cbn [set_ctrl w_ctrls]. rewrite nth_upd, Nat.eqb_refl, Ek3. auto.
      + eexists. split; [exact Ek2|exact I].
  Qed.
  Lemma shared_use cont : forall (w : world) a b m w2 vs, run w cont = FOk w2 vs -> holds w a m -> holds w b m -> nlmpc w m -> a <> b -> Forall (fun op => assigned a op = false) cont -> Forall (fun op => assigned b op = false) cont ->
    forall pre op post, cont = pre ++ WDelete a :: post -> Forall (fun op => op <> WDelete b) pre -> needs_optimizer b op = true -> In op post -> False.
  Proof.
    induction cont as [|o cont IH]; intros w a b m w2 vs E Ha Hb Hn Nab Aa Ab pre op post Ec Np U X; [destruct pre; discriminate Ec|].
    inversion Aa as [|? ? Aa1 Aa2]; subst. inversion Ab as [|? ? Ab1 Ab2]; subst. cbn [w_run] in E. destruct (step w o) as [| |w1 v] eqn:E1; try discriminate E. destruct (run w1 cont) as [| |w3 vs'] eqn:E2; try discriminate E.
    destruct pre as [|p pre]; injection Ec as -> ->.
    - apply (run_dead_use post w1 b m w3 vs' E2); try assumption.
      + apply (step_holds w (WDelete a) w1 v b m E1 Hb); [congruence|exact Ab1].
      + exact (delete_step w a m w1 v E1 Ha Hn).
      + apply Exists_exists. eauto.
    - inversion Np as [|? ? Np1 Np2]; subst. assert (Hb1 : holds w1 b m) by exact (step_holds w p w1 v b m E1 Hb Np1 Ab1).
      assert (Dec : p = WDelete a \/ p <> WDelete a) by (destruct p; try (right; congruence); destruct (Nat.eq_dec i a); [left; congruence|right; congruence]). destruct Dec as [->|Na].
      + apply (run_dead_use _ w1 b m w3 vs' E2); try assumption; [exact (delete_step w a m w1 v E1 Ha Hn)|]. apply Exists_exists. exists op. split; [|exact U]. apply in_or_app. right. now right.
      + apply (IH w1 a b m w3 vs' E2) with (pre := pre) (op := op) (post := post); try assumption; try reflexivity; [exact (step_holds w p w1 v a m E1 Ha Na Aa1)|exact (step_nlmpc _ _ _ _ _ E1 Hn)].
  Qed.
  (** destroying one of them destroys the optimizer of the other: no execution in which neither is assigned to again survives a later call on the survivor that
      needs the optimizer *)
  Theorem C61_use_after_delete (w w1 : world) dup v i j : step w dup = WOk w1 v -> duplicate (length (w_ctrls w)) dup = Some (i, j) -> i <> j ->
    forall cont, Forall (fun op => assigned i op = false) cont -> Forall (fun op => assigned j op = false) cont ->
    forall a b, (a = i /\ b = j) \/ (a = j /\ b = i) ->
    forall pre op post, cont = pre ++ WDelete a :: post -> Forall (fun op => op <> WDelete b) pre -> needs_optimizer b op = true -> In op post ->
    forall w2 vs, run w1 cont <> FOk w2 vs.
  Proof.
    intros E D Nij cont Ai Aj a b Hab pre op post Ec Np U X w2 vs R1. destruct (copy_shares w w1 dup v i j E D) as (m & Hi & Hj & Hn).
    destruct Hab as [[-> ->]|[-> ->]].
    - exact (shared_use cont w1 i j m w2 vs R1 Hi Hj Hn Nij Ai Aj pre op post Ec Np U X).
    - exact (shared_use cont w1 j i m w2 vs R1 Hj Hi Hn (not_eq_sym Nij) Aj Ai pre op post Ec Np U X).
  Qed.
  Lemma first_delete (a b : nat) (cont : list wop) : In (WDelete a) cont -> In (WDelete b) cont -> a <> b ->
    exists x y pre post, ((x = a /\ y = b) \/ (x = b /\ y = a)) /\ cont = pre ++ WDelete x :: post /\ Forall (fun op => op <> WDelete y) pre /\ In (WDelete y) post.
  Proof.
    intros Ha Hb N. induction cont as [|op cont IH]; [contradiction|].
    assert (Da : op = WDelete a \/ op <> WDelete a) by (destruct op; try (right; congruence); destruct (Nat.eq_dec i a); [left; congruence|right; congruence]).
    assert (Db : op = WDelete b \/ op <> WDelete b) by (destruct op; try (right; congruence); destruct (Nat.eq_dec i b); [left; congruence|right; congruence]).
    destruct Da as [->|Da].
    - exists a, b, [], cont. split; [auto|]. split; [reflexivity|]. split; [constructor|]. destruct Hb as [Hb|Hb]; [congruence|exact Hb].
    - destruct Db as [->|Db].
      + exists b, a, [], cont. split; [auto|]. split; [reflexivity|]. split; [constructor|]. destruct Ha as [Ha|Ha]; [congruence|exact Ha].
      + destruct Ha as [Ha|Ha]; [congruence|]. destruct Hb as [Hb|Hb]; [congruence|]. destruct (IH Ha Hb) as (x & y & pre & post & P1 & -> & P3 & P4). exists x, y, (op :: pre), post.
        split; [exact P1|]. split; [reflexivity|]. split; [|exact P4]. constructor; [|exact P3]. destruct P1 as [[-> ->]|[-> ->]]; assumption.
  Qed.
  (** in particular no execution destroys both *)
  Theorem C61_both_destroyed (w w1 : world) dup v i j : step w dup = WOk w1 v -> duplicate (length (w_ctrls w)) dup = Some (i, j) -> i <> j ->
    forall cont, Forall (fun op => assigned i op = false) cont -> Forall (fun op => assigned j op = false) cont -> In (WDelete i) cont -> In (WDelete j) cont ->
    forall w2 vs, run w1 cont <> FOk w2 vs.
  Proof.
    intros E D Nij cont Ai Aj Hi Hj. destruct (first_delete i j cont Hi Hj Nij) as (a & b & pre & post & Hab & Ec & Np & X).
    apply (C61_use_after_delete w w1 dup v i j E D Nij cont Ai Aj a b Hab pre (WDelete b) post Ec Np); [cbn; apply Nat.eqb_refl|exact X].
  Qed.

  (** *** without copies every optimizer of an NLMPC lives exactly as long as its controller *)
  Definition inv (w : world) : Prop := own w /\ forall i c, nth_error (w_cells w) i = Some c -> if (match c_core c with CN _ _ _ _ _ _ => true | _ => false end) then (c_alive c = true <-> exists k, nth_error (w_ctrls w) i = Some (Some k)) else c_alive c = true.
  Lemma inv_init : inv (@w_init F).
  Proof. split; [split; [reflexivity|]; intros j k E; destruct j; discriminate E|]. intros i c E. destruct i; discriminate E. Qed.
  Lemma inv_step (w : world) op w1 v : inv w -> is_copy op = false -> step w op = WOk w1 v -> inv w1.
  Proof.
    intros [O I1] C E. destruct (constructs op) eqn:C3.
    - destruct (step_grown _ _ _ _ _ _ C C3 E) as (c & g & o & Ew). split; [subst w1; now apply grown_own|]. intros i c1 E1. pose proof O as [L _].
      assert (Al : c_alive c = true).
      { destruct op; try discriminate C; try discriminate C3; cbn [w_step] in E; (destruct (_ || _); [discriminate E|]).
        - injection E as <- _. unfold grown in Ew. injection Ew as Ew. apply app_inj_tail in Ew. destruct Ew as [_ <-]. reflexivity.
        - destruct (n_new d); [|discriminate E]. apply speak_inv in E. destruct E as (E & _). rewrite Ew in E. cbn [grown w_cells] in E. apply app_inj_tail in E. destruct E as [_ ->]. reflexivity. }
      subst w1. unfold grown in E1 |- *. cbn [w_cells w_ctrls] in E1 |- *. rewrite nth_last in E1. rewrite nth_last. rewrite <- L. destruct (i =? length (w_cells w)).
      + injection E1 as <-. rewrite Al. destruct (c_core c); [reflexivity|]. split; eauto.
      + exact (I1 i c1 E1).
    - destruct (subject (length (w_ctrls w)) op) as [j|] eqn:Ej.
      + assert (Cj : concerns j (length (w_ctrls w)) op = true) by (unfold concerns; now rewrite Ej, Nat.eqb_refl).
        pose proof (step_near _ _ j w op w1 v O C Cj C3 E) as N. pose proof (near_own j w w1 O N) as O1. split; [exact O1|]. intros i c1 E1. destruct (Nat.eq_dec i j) as [->|Nij].
        * destruct (self_exists _ _ w op w1 v j C3 C Cj E) as (k & c & Ek). destruct (ctl_in _ _ _ _ O Ek) as (K1 & K2 & K3 & K4 & K5). pose proof (I1 j c K4) as Ic.
          destruct (step_cell w op w1 v j c E K4) as (c1' & H1 & G & A). rewrite H1 in E1. injection E1 as ->.
          assert (Dec : op = WDelete j \/ op <> WDelete j) by (destruct op; try (right; congruence); destruct (Nat.eq_dec i j); [left; congruence|right; congruence]). destruct Dec as [->|Nd].
          -- cbn [w_step] in E. rewrite Ek in E. destruct c as [[|d ni ne dyn junk s] b].
             ++ destruct c1 as [[|] b1]; [|contradiction]. cbn [c_core c_alive] in *. destruct A as [A|(u & k' & _ & _ & _ & _ & A)]; [congruence|]. injection E as <- <-. cbn [set_ctrl w_cells] in H1. rewrite K4 in H1. congruence.
             ++ destruct b; [|discriminate E]. injection E as <- <-. cbn [set_ctrl set_core_as w_cells w_ctrls] in H1 |- *. rewrite K1, nth_upd, Nat.eqb_refl, K4 in H1. injection H1 as <-. cbn [c_core c_alive]. rewrite upd_same by exact K3. split; [discriminate|]. intros [k' X]. discriminate X.
          -- destruct A as [A|(u & k' & -> & X1 & X2 & _)].
             ++ assert (Hh : holds w j j) by (exists k; auto). assert (Na : assigned j op = false) by (destruct op; try reflexivity; discriminate C).
                destruct (step_holds w op w1 v j j E Hh Nd Na) as (k1 & Y1 & _). rewrite A. destruct c as [[|] b], c1 as [[|] b1]; try contradiction; cbn [c_core c_alive] in *; [exact Ic|]. split; [eauto|]. intros _. apply Ic. eauto.
             ++ exfalso. destruct O as [_ O]. apply O in X1. congruence.
        * destruct N as (_ & _ & N & _). destruct (N i Nij) as [N1 N2]. rewrite N1 in E1. rewrite N2. exact (I1 i c1 E1).
      + destruct op; try discriminate Ej. destruct (step_logger _ _ w o w1 v O E) as (g & x & ->). exact (conj O I1).
  Qed.
  Lemma inv_run ops : forall w vs, copy_free ops -> run w_init ops = FOk w vs -> inv w.
  Proof.
    induction ops as [|op ops IH] using rev_ind; intros w vs C E; [injection E as <- <-; exact inv_init|]. apply Forall_app in C. destruct C as [C1 C2]. inversion C2 as [|? ? C3 _]; subst.
    rewrite run_snoc in E. destruct (run w_init ops) as [| |w1 vs1] eqn:E1; try discriminate E. destruct (step w1 op) as [| |w2 v] eqn:E2; try discriminate E. injection E as <- <-. exact (inv_step _ _ _ _ (IH _ _ C1 eq_refl) C3 E2).
  Qed.
  Theorem C61_without_copies ops (w : world) vs : copy_free ops -> run w_init ops = FOk w vs ->
    (forall m d ni ne dyn junk s b, nth_error (w_cells w) m = Some (mkCell (CN d ni ne dyn junk s) b) -> (n_allocated w m <-> referred w m)) /\
    (forall i, step w (WDelete i) <> WUB /\ step w (WGetResult i) <> WUB /\ step w (WGetSequence i) <> WUB).
  Proof.
    intros C E. destruct (inv_run ops w vs C E) as [O I1]. split.
    - intros m d ni ne dyn junk s b Em. pose proof (I1 m _ Em) as Im. cbn [c_core c_alive] in Im. split.
      + intros (d' & ni' & ne' & dyn' & junk' & s' & Em'). rewrite Em in Em'. injection Em' as _ _ _ _ _ _ ->. destruct (proj1 Im eq_refl) as [k Ek]. exists m, k. split; [exact Ek|]. destruct O as [_ O]. exact (O m k Ek).
      + intros (u & k & Ek & Ek2). destruct O as [_ O]. assert (u = m) by (rewrite <- Ek2; symmetry; exact (O u k Ek)). subst u. rewrite (proj2 Im (ex_intro _ k Ek)) in Em. do 6 eexists. exact Em.
    - intros i. cbn [w_step]. destruct (ctl w i) as [[k c]|] eqn:Ek; [|refine (conj _ (conj _ _)); discriminate]. destruct (ctl_in _ _ _ _ O Ek) as (K1 & K2 & K3 & K4 & K5). pose proof (I1 i c K4) as Ic.
      assert (A : c_alive c = true) by (destruct (c_core c); [exact Ic|apply Ic; eauto]). rewrite A. destruct c as [[|] b]; cbn [c_alive] in A; [|subst b]; refine (conj _ (conj _ _)); discriminate.
  Qed.

  (** *** what is leaked *)
  Lemma step_unreferred (w : world) op w1 v m : step w op = WOk w1 v -> m < length (w_cells w) -> ~ referred w m -> ~ referred w1 m.
  Proof.
    intros E L N (u & k1 & E1 & M). 
    assert (Upd : forall a ko, nth_error (upd (w_ctrls w) a ko) u = Some (Some k1) -> (forall k', ko = Some k' -> exists b k, nth_error (w_ctrls w) b = Some (Some k) /\ k_cell k' = k_cell k) -> False).
    { intros a ko X H. rewrite nth_upd in X. destruct (a =? u); [|apply N; exists u, k1; auto]. destruct (nth_error (w_ctrls w) u); [|discriminate X]. injection X as ->. destruct (H k1 eq_refl) as (b & k & B1 & B2). apply N. exists b, k. split; [exact B1|congruence]. }
    assert (More : forall k, nth_error (w_ctrls w ++ [Some k]) u = Some (Some k1) -> k_cell k <> m -> False).
    { intros k X H. rewrite nth_last in X. destruct (u =? length (w_ctrls w)); [injection X as <-; contradiction|]. apply N. exists u, k1. auto. }
    destruct op; cbn [w_step] in E.
    - destruct (_ || _); [discriminate E|]. injection E as <- <-. apply (More _ E1). cbn. lia.
    - destruct (_ || _); [discriminate E|]. destruct (n_new d); [|discriminate E]. apply speak_inv in E. destruct E as (_ & E & _). rewrite E in E1. apply (More _ E1). cbn. lia.
    - destruct (ctl w i) as [[k c]|] eqn:Ek; [|discriminate E]. apply ctl_nth in Ek. destruct c as [[|] alive]; [discriminate E|]. injection E as <- <-. apply (More _ E1). intros X. apply N. exists i, k. tauto.
    - destruct (ctl w i) as [[k c]|] eqn:Ek; [|discriminate E]. destruct c as [[|] alive]; [discriminate E|]. destruct (ctl w j) as [[k2 [[|] alive2]]|] eqn:Ek2; try discriminate E. injection E as <- <-.
      apply ctl_nth in Ek2. apply (Upd _ _ E1). intros k' X. injection X as <-. exists j, k2. tauto.
    - destruct (ctl w i) as [[k c]|] eqn:Ek; [|discriminate E]. destruct c as [[|] alive]; [|destruct alive; [|discriminate E]]; injection E as <- <-; apply (Upd _ _ E1); intros k' X; discriminate X.
    - destruct (ctl w i) as [[k c]|] eqn:Ek; [|discriminate E]. apply ctl_nth in Ek. destruct c as [[|] alive]; [|discriminate E]. destruct (l_step _ _ _ _ _) as [[s' r]|]; [|discriminate E].
      apply speak_inv in E. destruct E as (_ & E & _). rewrite E in E1. apply (Upd _ _ E1). intros k' X. injection X as <-. exists i, k. rewrite profiled_cell. tauto.
    - destruct (ctl w i) as [[k c]|] eqn:Ek; [|discriminate E]. apply ctl_nth in Ek. destruct c as [[|] alive]; [discriminate E|]. destruct (_ && _); [discriminate E|]. destruct (n_step _ _ _ _ _ _ _) as [[s' r]|]; [|discriminate E].
      apply speak_inv in E. destruct E as (_ & E & _). rewrite E in E1. apply (Upd _ _ E1). intros k' X. injection X as <-. exists i, k. rewrite profiled_cell. tauto.
    - destruct (ctl w i) as [[k c]|]; [|discriminate E]. destruct (c_alive c); [|discriminate E]. injection E as <- <-. apply N. exists u, k1. auto.
    - destruct (ctl w i) as [[k c]|]; [|discriminate E]. destruct (c_alive c); [|discriminate E]. injection E as <- <-. apply N. exists u, k1. auto.
    - destruct (ctl w i) as [[k c]|]; [|discriminate E]. injection E as <- <-. apply N. exists u, k1. auto.
    - destruct (ctl w i) as [[k c]|] eqn:Ek; [|discriminate E]. apply ctl_nth in Ek. injection E as <- <-. apply (Upd _ _ E1). intros k' X. injection X as <-. exists i, k. tauto.
    - destruct (ctl w i) as [[k c]|]; [|discriminate E]. injection E as <- <-. apply N. exists u, k1. auto.
    - destruct (ctl w i) as [[k c]|]; [|discriminate E]. injection E as <- <-. apply N. exists u, k1. auto.
    - destruct (g_step (w_log w) o) as [[g x]|]; [|discriminate E]. injection E as <- <-. apply N. exists u, k1. auto.
  Qed.
  (** an allocated object that no controller refers to is never released *)
  Lemma leaked_forever cont : forall (w : world) m w2 vs, run w cont = FOk w2 vs -> ~ referred w m -> (n_allocated w m -> n_allocated w2 m) /\ (l_allocated w m -> l_allocated w2 m).
  Proof.
    induction cont as [|op cont IH]; intros w m w2 vs E N; [injection E as <- <-; auto|]. cbn [w_run] in E. destruct (step w op) as [| |w1 v] eqn:E1; try discriminate E. destruct (run w1 cont) as [| |w3 vs'] eqn:E2; try discriminate E. injection E as <- <-.
    assert (K : forall c, nth_error (w_cells w) m = Some c -> c_alive c = true -> exists c1, nth_error (w_cells w1) m = Some c1 /\ grows c c1 /\ c_alive c1 = true /\ ~ referred w1 m).
    { intros c Ec A. assert (L : m < length (w_cells w)) by (apply nth_error_Some; congruence). destruct (step_cell w op w1 v m c E1 Ec) as (c1 & H1 & G & [A1|(u & k & _ & X1 & X2 & _)]); [|exfalso; apply N; exists u, k; auto].
      exists c1. split; [exact H1|]. split; [exact G|]. split; [congruence|]. exact (step_unreferred _ _ _ _ _ E1 L N). }
    split.
    - intros (d & ni & ne & dyn & junk & s & Ec). destruct (K _ Ec eq_refl) as ([[|d1 ni1 ne1 dyn1 junk1 s1] b1] & H1 & G & A & N1); [contradiction|]. cbn in A. subst b1. apply (IH w1 m w3 vs' E2 N1). do 6 eexists. exact H1.
    - intros (d & junk & ejunk & s & Ec). destruct (K _ Ec eq_refl) as ([[d1 junk1 ejunk1 s1|] b1] & H1 & G & A & N1); [|contradiction]. cbn in A. subst b1. apply (IH w1 m w3 vs' E2 N1). do 4 eexists. exact H1.
  Qed.
  (** assigning to an NLMPC that is not shared leaks its optimizer *)
  Theorem C61_assignment_leaks ops (w : world) vs i j w1 v : copy_free ops -> run w_init ops = FOk w vs -> i <> j -> step w (WAssign i j) = WOk w1 v ->
    exists m, n_allocated w m /\ referred w m /\ n_allocated w1 m /\ ~ referred w1 m /\ forall cont w2 vs2, run w1 cont = FOk w2 vs2 -> n_allocated w2 m.
  Proof.
    intros C E Nij E1. destruct (inv_run ops w vs C E) as [O I1]. cbn [w_step] in E1. destruct (ctl w i) as [[k c]|] eqn:Ek; [|discriminate E1]. destruct c as [[|d ni ne dyn junk s] b]; [discriminate E1|].
    destruct (ctl w j) as [[k2 [[|] alive2]]|] eqn:Ek2; try discriminate E1. injection E1 as <- <-. destruct (ctl_in _ _ _ _ O Ek) as (K1 & K2 & K3 & K4 & K5). destruct (ctl_in _ _ _ _ O Ek2) as (J1 & J2 & J3 & J4 & J5).
    pose proof (I1 i _ K4) as Ii. cbn [c_core c_alive] in Ii. assert (b = true) by (apply Ii; eauto). subst b. assert (Al : n_allocated w i) by (do 6 eexists; exact K4).
    assert (Nr : ~ referred (set_ctrl i (Some k2) w) i).
    { intros (u & k1 & X1 & X2). cbn [set_ctrl w_ctrls] in X1. rewrite nth_upd in X1. destruct (Nat.eqb_spec i u) as [<-|Nu]; [rewrite K5 in X1; injection X1 as <-; congruence|]. destruct O as [_ O]. apply O in X1. congruence. }
    exists i. refine (conj Al (conj _ (conj Al (conj Nr _)))); [exists i, k; auto|]. intros cont w2 vs2 R1. exact (proj1 (leaked_forever cont _ i w2 vs2 R1 Nr) Al).
  Qed.
  (** destroying an LMPC always leaks its optimizer *)
  Theorem C61_linear_leaks ops (w : world) vs i w1 v d junk ejunk s b k : copy_free ops -> run w_init ops = FOk w vs -> ctl w i = Some (k, mkCell (CL d junk ejunk s) b) -> step w (WDelete i) = WOk w1 v ->
    exists m, l_allocated w m /\ referred w m /\ l_allocated w1 m /\ ~ referred w1 m /\ forall cont w2 vs2, run w1 cont = FOk w2 vs2 -> l_allocated w2 m.
  Proof.
    intros C E Ek E1. destruct (inv_run ops w vs C E) as [O I1]. cbn [w_step] in E1. rewrite Ek in E1. injection E1 as <- <-. destruct (ctl_in _ _ _ _ O Ek) as (K1 & K2 & K3 & K4 & K5).
    pose proof (I1 i _ K4) as Ii. cbn [c_core c_alive] in Ii. subst b. assert (Al : l_allocated w i) by (do 4 eexists; exact K4).
    assert (Nr : ~ referred (set_ctrl i None w) i).
    { intros (u & k1 & X1 & X2). cbn [set_ctrl w_ctrls] in X1. rewrite nth_upd in X1. destruct (Nat.eqb_spec i u) as [<-|Nu]; [rewrite K5 in X1; discriminate X1|]. destruct O as [_ O]. apply O in X1. congruence. }
    exists i. refine (conj Al (conj _ (conj Al (conj Nr _)))); [exists i, k; auto|]. intros cont w2 vs2 R1. exact (proj2 (leaked_forever cont _ i w2 vs2 R1 Nr) Al).
  Qed.
End W.
