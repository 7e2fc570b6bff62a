(** Properties C59-C62: several controllers in one process. *)
From Coq Require Import Bool Arith ZArith Lia String Reals List.
From Verif Require Import Scalar Mat Slice Builder LMPC NLFun NLMPC Logger Profiler World SpecWorld.
Import ListNotations.
Local Open Scope nat_scope.

(** *** the library's messages never make the logger misbehave *)
Lemma play_app a : forall g b, g_play g (a ++ b) = match g_play g a with UB => UB | Ok (g1, w1) => match g_play g1 b with UB => UB | Ok (g2, w2) => Ok (g2, w1 ++ w2) end end.
Proof.
  induction a as [|o a IH]; intros g b; cbn [app g_play].
  - destruct (g_play g b) as [[g2 w2]|]; reflexivity.
  - destruct (g_step g o) as [[g1 w1]|]; [|reflexivity]. rewrite IH. destruct (g_play g1 a) as [[g2 w2]|]; [|reflexivity]. destruct (g_play g2 b) as [[g3 w3]|]; [|reflexivity]. now rewrite app_assoc.
Qed.
Lemma say_ok ms : forall g, exists g' o, g_play g (say ms) = Ok (g', o).
Proof.
  induction ms as [|[t x] ms IH]; intros g; [eexists _, _; reflexivity|].
  change (say ((t, x) :: ms)) with ([GLog t; GWrite x] ++ say ms). rewrite play_app.
  assert (E1 : exists g1 o1, g_play g [GLog t; GWrite x] = Ok (g1, o1)) by (eexists _, _; reflexivity). destruct E1 as (g1 & o1 & E1). rewrite E1.
  destruct (IH g1) as (g' & o & E). rewrite E. eexists _, _. reflexivity.
Qed.

Lemma upd_len {A} (l : list A) : forall i x, length (upd l i x) = length l.
Proof. induction l; intros [|i] x; cbn; auto. Qed.
Lemma upd_same {A} (l : list A) : forall i x, i < length l -> nth_error (upd l i x) i = Some x.
Proof. induction l; intros [|i] x H; cbn in *; try lia; [reflexivity|apply IHl; lia]. Qed.
Lemma upd_other {A} (l : list A) : forall i j x, i <> j -> nth_error (upd l i x) j = nth_error l j.
Proof. induction l; intros [|i] [|j] x H; cbn; try congruence; try reflexivity. apply IHl. congruence. Qed.
Lemma upd_out {A} (l : list A) : forall i x, length l <= i -> upd l i x = l.
Proof. induction l; intros [|i] x H; cbn in *; try lia; try reflexivity. f_equal. apply IHl. lia. Qed.

Section W.
  Context {F : Type} {SO : ScalarOps F}.
  Variables big low : R.
  Notation step := (w_step big low). Notation run := (w_run big low).
  Notation world := (world F). Notation wop := (wop F).

  Lemma speak_ok ms w v : exists g o, speak (F:=F) ms w v = WOk (mkW (w_cells w) (w_ctrls w) g (w_out w ++ o)) v.
  Proof. unfold speak. destruct (say_ok ms (w_log w)) as (g & o & E). rewrite E. eexists _, _. reflexivity. Qed.

  Lemma run_app a : forall w b, run w (a ++ b) = match run w a with FBad => FBad | FUB => FUB | FOk w1 v1 => match run w1 b with FBad => FBad | FUB => FUB | FOk w2 v2 => FOk w2 (v1 ++ v2) end end.
  Proof.
    induction a as [|o a IH]; intros w b; cbn [app w_run].
    - destruct (run w b); reflexivity.
    - destruct (step w o); try reflexivity. rewrite IH. destruct (run w0 a); try reflexivity. destruct (run w1 b); reflexivity.
  Qed.

  (** *** without copies every variable has its own objects *)
  Definition own (w : world) : Prop := length (w_cells w) = length (w_ctrls w) /\ forall i k, nth_error (w_ctrls w) i = Some (Some k) -> k_cell k = i.
  Definition same (i : nat) (w w' : world) : Prop :=
    nth_error (w_cells w) i = nth_error (w_cells w') 0 /\
    match nth_error (w_ctrls w) i, nth_error (w_ctrls w') 0 with
    | None, None => True | Some None, Some None => True | Some (Some k), Some (Some k') => k_prof k = k_prof k' | _, _ => False end.
  Definition sim (i : nat) (w w' : world) : Prop := own w /\ own w' /\ same i w w'.
  Lemma ctl_own w i : own w -> ctl w i = match nth_error (w_ctrls w) i with Some (Some k) => match nth_error (w_cells w) i with Some c => Some (k, c) | None => None end | _ => None end.
  Proof. intros [_ H]. unfold ctl. destruct (nth_error (w_ctrls w) i) as [[k|]|] eqn:E; try reflexivity. now rewrite (H _ _ E). Qed.
  Lemma ctl_in w i k c : own w -> ctl w i = Some (k, c) -> k_cell k = i /\ i < length (w_cells w) /\ i < length (w_ctrls w) /\ nth_error (w_cells w) i = Some c /\ nth_error (w_ctrls w) i = Some (Some k).
  Proof.
    intros O E. rewrite (ctl_own w i O) in E. destruct (nth_error (w_ctrls w) i) as [[k'|]|] eqn:E1; try discriminate E. destruct (nth_error (w_cells w) i) as [c'|] eqn:E2; [|discriminate E].
    injection E as <- <-. destruct O as [L O]. rewrite (O _ _ E1). assert (i < length (w_ctrls w)) by (apply nth_error_Some; congruence). rewrite L. auto.
  Qed.
  Lemma sim_ctl i w w' : sim i w w' -> match ctl w i, ctl w' 0 with Some (k, c), Some (k', c') => k_prof k = k_prof k' /\ c = c' | None, None => True | _, _ => False end.
  Proof.
    intros (O & O' & A & B). rewrite (ctl_own w i O), (ctl_own w' 0 O'). destruct (nth_error (w_ctrls w) i) as [[k|]|], (nth_error (w_ctrls w') 0) as [[k'|]|]; try easy.
    rewrite <- A. destruct (nth_error (w_cells w) i); auto.
  Qed.
  Definition near (i : nat) (w w1 : world) : Prop :=
    length (w_cells w1) = length (w_cells w) /\ length (w_ctrls w1) = length (w_ctrls w) /\
    (forall j, j <> i -> nth_error (w_cells w1) j = nth_error (w_cells w) j /\ nth_error (w_ctrls w1) j = nth_error (w_ctrls w) j) /\
    (forall k, nth_error (w_ctrls w1) i = Some (Some k) -> k_cell k = i).
  Lemma near_own i w w1 : own w -> near i w w1 -> own w1.
  Proof.
    intros [L O] (A & B & C & D). split; [congruence|]. intros j k E. destruct (Nat.eq_dec j i) as [->|N]; [now apply D|]. destruct (C j N) as [_ C2]. rewrite C2 in E. now apply O.
  Qed.
  Lemma sim_near i w w' w1 w1' : sim i w w' -> near i w w1 -> near 0 w' w1' -> same i w1 w1' -> sim i w1 w1'.
  Proof. intros (O & O' & _) N N' S. exact (conj (near_own i w w1 O N) (conj (near_own 0 w' w1' O' N') S)). Qed.
  Lemma near_sim i j w w1 w' : sim i w w' -> j <> i -> near j w w1 -> sim i w1 w'.
  Proof.
    intros (O & O' & A & B) N H. refine (conj (near_own j w w1 O H) (conj O' _)). destruct H as (_ & _ & C & _). destruct (C i (not_eq_sym N)) as [C1 C2]. unfold same. rewrite C1, C2. exact (conj A B).
  Qed.
  (** the ways a call changes the world *)
  Lemma near_both i w c ko g o : (forall k, ko = Some k -> k_cell k = i) -> near i w (mkW (upd (w_cells w) i c) (upd (w_ctrls w) i ko) g o).
  Proof.
    intros H. unfold near. cbn [w_cells w_ctrls]. rewrite !upd_len. refine (conj eq_refl (conj eq_refl (conj _ _))).
    - intros j N. rewrite !upd_other by congruence. auto.
    - intros k E. destruct (Nat.lt_ge_cases i (length (w_ctrls w))) as [L|L]; [rewrite upd_same in E by exact L; apply H; congruence|].
      rewrite upd_out in E by exact L. apply nth_error_None in L. congruence.
  Qed.
  Lemma near_ctrl i w ko g o : (forall k, ko = Some k -> k_cell k = i) -> near i w (mkW (w_cells w) (upd (w_ctrls w) i ko) g o).
  Proof.
    intros H. unfold near. cbn [w_cells w_ctrls]. rewrite !upd_len. refine (conj eq_refl (conj eq_refl (conj _ _))).
    - intros j N. rewrite !upd_other by congruence. auto.
    - intros k E. destruct (Nat.lt_ge_cases i (length (w_ctrls w))) as [L|L]; [rewrite upd_same in E by exact L; apply H; congruence|].
      rewrite upd_out in E by exact L. apply nth_error_None in L. congruence.
  Qed.
  Lemma near_log i w g o : own w -> near i w (mkW (w_cells w) (w_ctrls w) g o).
  Proof. intros [L O]. unfold near. cbn [w_cells w_ctrls]. auto. Qed.
  Lemma profiled_cell (r : ret F) t0 t1 k : k_cell (profiled big low r t0 t1 k) = k_cell k.
  Proof. destruct r; reflexivity. Qed.
  Lemma profiled_prof (r : ret F) t0 t1 k k' : k_prof k = k_prof k' -> k_prof (profiled big low r t0 t1 k) = k_prof (profiled big low r t0 t1 k').
  Proof. intros E. destruct r; cbn; congruence. Qed.
  Lemma nth_last {A} (l : list A) x i : nth_error (l ++ [x]) i = if i =? length l then Some x else nth_error l i.
  Proof.
    destruct (Nat.eqb_spec i (length l)) as [->|N]; [now rewrite nth_error_app2, Nat.sub_diag by lia|].
    destruct (Nat.lt_ge_cases i (length l)) as [L|L]; [now rewrite nth_error_app1|]. rewrite (proj2 (nth_error_None l i) L). apply nth_error_None. rewrite app_length. cbn. lia.
  Qed.
  (** construction *)
  Definition grown (w : world) (c : cell F) g o : world := mkW (w_cells w ++ [c]) (w_ctrls w ++ [Some (mkCtrl (length (w_cells w)) (fresh_prof big low))]) g o.
  Lemma grown_own w c g o : own w -> own (grown w c g o).
  Proof.
    intros [L O]. unfold own, grown. cbn [w_cells w_ctrls]. rewrite !app_length. split; [cbn; lia|]. intros i k. rewrite nth_last. destruct (Nat.eqb_spec i (length (w_ctrls w))) as [->|N]; [|apply O].
    intros E. injection E as <-. exact L.
  Qed.
  Lemma empty_own (w : world) : own w -> nth_error (w_ctrls w) 0 = None -> w_ctrls w = [] /\ w_cells w = [].
  Proof. intros [L _] E. destruct (w_ctrls w); [|discriminate E]. destruct (w_cells w); [auto|discriminate L]. Qed.
  Lemma sim_grown w w' c g o g' o' : sim (length (w_ctrls w)) w w' -> sim (length (w_ctrls w)) (grown w c g o) (grown w' c g' o').
  Proof.
    intros (O & O' & A & B). assert (L : nth_error (w_ctrls w) (length (w_ctrls w)) = None) by (apply nth_error_None; lia). rewrite L in B.
    destruct (nth_error (w_ctrls w') 0) as [x|] eqn:E; [easy|]. destruct (empty_own w' O' E) as [E1 E2]. refine (conj (grown_own _ _ _ _ O) (conj (grown_own _ _ _ _ O') _)).
    unfold same, grown. cbn [w_cells w_ctrls]. rewrite E1, E2. rewrite !nth_last. destruct O as [Lc _]. rewrite Lc, Nat.eqb_refl. split; reflexivity.
  Qed.
  Lemma sim_grown_other i w w' c g o : sim i w w' -> i <> length (w_ctrls w) -> sim i (grown w c g o) w'.
  Proof.
    intros (O & O' & A & B) N. refine (conj (grown_own _ _ _ _ O) (conj O' _)). unfold same, grown. cbn [w_cells w_ctrls]. rewrite !nth_last. destruct O as [Lc _]. rewrite Lc.
    destruct (Nat.eqb_spec i (length (w_ctrls w))); [contradiction|]. exact (conj A B).
  Qed.
  Lemma same_both i w w' c ko ko' g o g' o' : i < length (w_cells w) -> 0 < length (w_cells w') -> i < length (w_ctrls w) -> 0 < length (w_ctrls w') ->
    match ko, ko' with None, None => True | Some k, Some k' => k_prof k = k_prof k' | _, _ => False end ->
    same i (mkW (upd (w_cells w) i c) (upd (w_ctrls w) i ko) g o) (mkW (upd (w_cells w') 0 c) (upd (w_ctrls w') 0 ko') g' o').
  Proof. intros. unfold same. cbn [w_cells w_ctrls]. rewrite !upd_same by assumption. split; [reflexivity|]. destruct ko, ko'; try easy. Qed.
  Lemma same_ctrl i w w' ko ko' g o g' o' : same i w w' -> i < length (w_ctrls w) -> 0 < length (w_ctrls w') ->
    match ko, ko' with None, None => True | Some k, Some k' => k_prof k = k_prof k' | _, _ => False end ->
    same i (mkW (w_cells w) (upd (w_ctrls w) i ko) g o) (mkW (w_cells w') (upd (w_ctrls w') 0 ko') g' o').
  Proof. intros [A _] ? ? ?. unfold same. cbn [w_cells w_ctrls]. rewrite !upd_same by assumption. split; [exact A|]. destruct ko, ko'; try easy. Qed.

  Definition agree (i : nat) (a b : wout F) : Prop :=
    match a, b with WBad, WBad => True | WUB, WUB => True | WOk w1 v, WOk w1' v' => v = v' /\ sim i w1 w1' | _, _ => False end.
  Lemma sim_self i w w' op : sim i w w' -> is_copy op = false -> concerns i (length (w_ctrls w)) op = true -> agree i (step w op) (step w' (on_first op)).
  Proof.
    intros S C1 C2. pose proof (sim_ctl i w w' S) as K. pose proof S as (O & O' & Sa). destruct op; try discriminate C1; unfold concerns in C2; cbn [subject] in C2; try discriminate C2;
      apply Nat.eqb_eq in C2; subst; cbn [on_first w_step].
    - destruct ((d_ph d =? 0) || (d_ch d =? 0)); [exact I|]. split; [reflexivity|]. exact (sim_grown w w' _ _ _ _ _ S).
    - destruct ((d_ph d =? 0) || (d_ch d =? 0)); [exact I|]. destruct (n_new d) as [s|]; [|exact I].
      match goal with |- agree _ (speak ?m ?a ?v) (speak _ ?b _) => destruct (speak_ok m a v) as (g & o & E); destruct (speak_ok m b v) as (g' & o' & E') end.
      rewrite E, E'. split; [reflexivity|]. exact (sim_grown w w' _ _ _ _ _ S).
    - destruct (ctl w i) as [[k c]|] eqn:Ek, (ctl w' 0) as [[k' c']|] eqn:Ek'; try easy. destruct K as [K1 <-].
      destruct (ctl_in _ _ _ _ O Ek) as (A1 & A2 & A3 & A4 & A5), (ctl_in _ _ _ _ O' Ek') as (B1 & B2 & B3 & B4 & B5). destruct c as [[d junk ejunk s|d ni ne dyn junk s] alive].
      + split; [reflexivity|]. apply (sim_near i w w'); [exact S|now apply near_ctrl|now apply near_ctrl|now apply same_ctrl].
      + destruct alive; [|exact I]. split; [reflexivity|]. rewrite A1, B1. unfold set_ctrl, set_core_as. cbn [w_cells w_ctrls w_log w_out].
        apply (sim_near i w w'); [exact S|now apply near_both|now apply near_both|now apply same_both].
    - destruct (ctl w i) as [[k c]|] eqn:Ek, (ctl w' 0) as [[k' c']|] eqn:Ek'; try easy. destruct K as [K1 <-].
      destruct (ctl_in _ _ _ _ O Ek) as (A1 & A2 & A3 & A4 & A5), (ctl_in _ _ _ _ O' Ek') as (B1 & B2 & B3 & B4 & B5). destruct c as [[d junk ejunk s|d ni ne dyn junk s] alive]; [|exact I].
      destruct (l_step junk ejunk d s op) as [[s' r]|]; [|exact I].
      match goal with |- agree _ (speak ?m ?a ?v) (speak _ ?b _) => destruct (speak_ok m a v) as (g & o & E); destruct (speak_ok m b v) as (g' & o' & E') end.
      rewrite E, E'. split; [reflexivity|]. rewrite A1, B1. unfold set_ctrl, set_core_as. cbn [w_cells w_ctrls w_log w_out].
      apply (sim_near i w w'); [exact S|apply near_both|apply near_both|apply same_both; try assumption].
      + intros k0 E0. injection E0 as <-. now rewrite profiled_cell.
      + intros k0 E0. injection E0 as <-. now rewrite profiled_cell.
      + now apply profiled_prof.
    - destruct (ctl w i) as [[k c]|] eqn:Ek, (ctl w' 0) as [[k' c']|] eqn:Ek'; try easy. destruct K as [K1 <-].
      destruct (ctl_in _ _ _ _ O Ek) as (A1 & A2 & A3 & A4 & A5), (ctl_in _ _ _ _ O' Ek') as (B1 & B2 & B3 & B4 & B5). destruct c as [[d junk ejunk s|d ni ne dyn junk s] alive]; [exact I|].
      destruct (negb alive && negb (optimizer_free d op)); [exact I|].
      destruct (n_step junk d ni ne dyn s op) as [[s' r]|]; [|exact I].
      match goal with |- agree _ (speak ?m ?a ?v) (speak _ ?b _) => destruct (speak_ok m a v) as (g & o & E); destruct (speak_ok m b v) as (g' & o' & E') end.
      rewrite E, E'. split; [reflexivity|]. rewrite A1, B1. unfold set_ctrl, set_core_as. cbn [w_cells w_ctrls w_log w_out].
      apply (sim_near i w w'); [exact S|apply near_both|apply near_both|apply same_both; try assumption].
      + intros k0 E0. injection E0 as <-. now rewrite profiled_cell.
      + intros k0 E0. injection E0 as <-. now rewrite profiled_cell.
      + now apply profiled_prof.
    - destruct (ctl w i) as [[k c]|] eqn:Ek, (ctl w' 0) as [[k' c']|] eqn:Ek'; try easy. destruct K as [K1 <-]. destruct (c_alive c); [|exact I]. exact (conj eq_refl S).
    - destruct (ctl w i) as [[k c]|] eqn:Ek, (ctl w' 0) as [[k' c']|] eqn:Ek'; try easy. destruct K as [K1 <-]. destruct (c_alive c); [|exact I]. exact (conj eq_refl S).
    - destruct (ctl w i) as [[k c]|] eqn:Ek, (ctl w' 0) as [[k' c']|] eqn:Ek'; try easy. destruct K as [K1 <-]. rewrite K1. exact (conj eq_refl S).
    - destruct (ctl w i) as [[k c]|] eqn:Ek, (ctl w' 0) as [[k' c']|] eqn:Ek'; try easy. destruct K as [K1 <-].
      destruct (ctl_in _ _ _ _ O Ek) as (A1 & A2 & A3 & A4 & A5), (ctl_in _ _ _ _ O' Ek') as (B1 & B2 & B3 & B4 & B5). split; [reflexivity|]. unfold set_ctrl.
      apply (sim_near i w w'); [exact S|apply near_ctrl|apply near_ctrl|apply same_ctrl; try assumption].
      + intros k0 E0. injection E0 as <-. exact A1.
      + intros k0 E0. injection E0 as <-. exact B1.
      + cbn [k_prof]. now rewrite K1.
    - destruct (ctl w i) as [[k c]|] eqn:Ek, (ctl w' 0) as [[k' c']|] eqn:Ek'; try contradiction; try exact I. cbn [g_step]. split; [reflexivity|].
      apply (sim_near i w w'); [exact S|now apply near_log|now apply near_log|exact Sa].
    - destruct (ctl w i) as [[k c]|] eqn:Ek, (ctl w' 0) as [[k' c']|] eqn:Ek'; try contradiction; try exact I. cbn [g_step]. split; [reflexivity|].
      apply (sim_near i w w'); [exact S|now apply near_log|now apply near_log|exact Sa].
  Qed.
  (** a call on another variable, or on the logger *)
  Lemma step_near j w op w1 v : own w -> is_copy op = false -> concerns j (length (w_ctrls w)) op = true -> constructs op = false -> step w op = WOk w1 v -> near j w w1.
  Proof.
    intros O C1 C2 C3 E. destruct op; try discriminate C1; try discriminate C3; unfold concerns in C2; cbn [subject] in C2; try discriminate C2; apply Nat.eqb_eq in C2; subst; cbn [w_step] in E;
      (destruct (ctl w j) as [[k c]|] eqn:Ek; [|discriminate E]); destruct (ctl_in _ _ _ _ O Ek) as (A1 & A2 & A3 & A4 & A5); subst j.
    - destruct c as [[d junk ejunk s|d ni ne dyn junk s] alive].
      + injection E as <- <-. now apply near_ctrl.
      + destruct alive; [|discriminate E]. injection E as <- <-. unfold set_ctrl, set_core_as. cbn [w_cells w_ctrls w_log w_out]. now apply near_both.
    - destruct c as [[d junk ejunk s|d ni ne dyn junk s] alive]; [|discriminate E]. destruct (l_step junk ejunk d s op) as [[s' r]|]; [|discriminate E].
      match type of E with speak ?m ?a ?v = _ => destruct (speak_ok m a v) as (g & o & E') end. rewrite E' in E. injection E as <- <-. unfold set_ctrl, set_core_as. cbn [w_cells w_ctrls w_log w_out]. apply near_both.
      intros k0 E0. injection E0 as <-. now rewrite profiled_cell.
    - destruct c as [[d junk ejunk s|d ni ne dyn junk s] alive]; [discriminate E|]. destruct (negb alive && negb (optimizer_free d op)); [discriminate E|]. destruct (n_step junk d ni ne dyn s op) as [[s' r]|]; [|discriminate E].
      match type of E with speak ?m ?a ?v = _ => destruct (speak_ok m a v) as (g & o & E') end. rewrite E' in E. injection E as <- <-. unfold set_ctrl, set_core_as. cbn [w_cells w_ctrls w_log w_out]. apply near_both.
      intros k0 E0. injection E0 as <-. now rewrite profiled_cell.
    - destruct (c_alive c); [|discriminate E]. injection E as <- <-. destruct w. now apply near_log.
    - destruct (c_alive c); [|discriminate E]. injection E as <- <-. destruct w. now apply near_log.
    - injection E as <- <-. destruct w. now apply near_log.
    - injection E as <- <-. apply near_ctrl. intros k0 E0. injection E0 as <-. reflexivity.
    - cbn [g_step] in E. injection E as <- <-. now apply near_log.
    - cbn [g_step] in E. injection E as <- <-. now apply near_log.
  Qed.
  Lemma step_grown w op w1 v : is_copy op = false -> constructs op = true -> step w op = WOk w1 v -> exists c g o, w1 = grown w c g o.
  Proof.
    intros C1 C2 E. destruct op; try discriminate C1; try discriminate C2; cbn [w_step] in E; (destruct ((d_ph d =? 0) || (d_ch d =? 0)); [discriminate E|]).
    - injection E as <- <-. eexists _, _, _. reflexivity.
    - destruct (n_new d) as [s|]; [|discriminate E]. match type of E with speak ?m ?a ?v = _ => destruct (speak_ok m a v) as (g & o & E') end. rewrite E' in E. injection E as <- <-. eexists _, _, _. reflexivity.
  Qed.
  Lemma step_logger w o w1 v : own w -> step w (WLogger o) = WOk w1 v -> exists g x, w1 = mkW (w_cells w) (w_ctrls w) g x.
  Proof. intros _ E. cbn [w_step] in E. destruct (g_step (w_log w) o) as [[g x]|]; [|discriminate E]. injection E as <- <-. eexists _, _. reflexivity. Qed.
  Lemma sim_other i w w' op w1 v : sim i w w' -> is_copy op = false -> concerns i (length (w_ctrls w)) op = false -> step w op = WOk w1 v -> sim i w1 w'.
  Proof.
    intros S C1 C2 E. destruct (constructs op) eqn:C3.
    - destruct (step_grown _ _ _ _ C1 C3 E) as (c & g & o & ->). apply sim_grown_other; [exact S|]. intros ->. destruct op; try discriminate C3; unfold concerns in C2; cbn [subject] in C2; now rewrite Nat.eqb_refl in C2.
    - destruct (subject (length (w_ctrls w)) op) as [j|] eqn:Ej.
      + apply (near_sim i j w w1 w' S).
        * intros ->. unfold concerns in C2. rewrite Ej, Nat.eqb_refl in C2. discriminate C2.
        * apply (step_near j w op w1 v); try assumption; [exact (proj1 S)|]. unfold concerns. now rewrite Ej, Nat.eqb_refl.
      + destruct op; try discriminate Ej. destruct (step_logger w o w1 v (proj1 S) E) as (g & x & ->). destruct S as (O & O' & Sa). exact (conj O (conj O' Sa)).
  Qed.
  Lemma step_len w op w1 v : own w -> is_copy op = false -> step w op = WOk w1 v -> length (w_ctrls w1) = if constructs op then S (length (w_ctrls w)) else length (w_ctrls w).
  Proof.
    intros O C1 E. destruct (constructs op) eqn:C3.
    - destruct (step_grown _ _ _ _ C1 C3 E) as (c & g & o & ->). cbn. rewrite app_length. cbn. lia.
    - destruct (subject (length (w_ctrls w)) op) as [j|] eqn:Ej.
      + destruct (step_near j w op w1 v O C1) as (_ & L & _); try assumption. unfold concerns. now rewrite Ej, Nat.eqb_refl.
      + destruct op; try discriminate Ej. destruct (step_logger w o w1 v O E) as (g & x & ->). reflexivity.
  Qed.

  (** *** C59: controllers do not influence each other *)
  Lemma isolation_from i ops : forall w w' w1 vs, sim i w w' -> copy_free ops -> run w ops = FOk w1 vs ->
    exists w1', run w' (alone i (length (w_ctrls w)) ops) = FOk w1' (answers i (length (w_ctrls w)) ops vs) /\ sim i w1 w1'.
  Proof.
    induction ops as [|op ops IH]; intros w w' w1 vs S C E.
    - injection E as <- <-. exists w'. auto.
    - inversion C as [|? ? C1 C2]; subst. cbn [w_run] in E. destruct (step w op) as [| |w2 v] eqn:E1; try discriminate E. destruct (run w2 ops) as [| |w3 vs'] eqn:E2; try discriminate E. injection E as <- <-.
      cbn [alone answers]. rewrite <- (step_len w op w2 v (proj1 S) C1 E1). destruct (concerns i (length (w_ctrls w)) op) eqn:Ci.
      + pose proof (sim_self i w w' op S C1 Ci) as A. rewrite E1 in A. destruct (step w' (on_first op)) as [| |w2' v'] eqn:E1'; try easy. destruct A as [<- S2].
        destruct (IH w2 w2' w3 vs' S2 C2 E2) as (w1' & R1 & S3). exists w1'. cbn [app w_run]. rewrite E1', R1. auto.
      + destruct (IH w2 w' w3 vs' (sim_other i w w' op w2 v S C1 Ci E1) C2 E2) as (w1' & R1 & S3). exists w1'. auto.
  Qed.
  Lemma sim_init i : sim i w_init w_init.
  Proof.
    assert (O : own (@w_init F)). { split; [reflexivity|]. intros j k E. destruct j; discriminate E. }
    refine (conj O (conj O _)). unfold same. cbn. destruct i; cbn; auto.
  Qed.
  Theorem C59_isolation ops w vs i : copy_free ops -> run w_init ops = FOk w vs -> exists w', run w_init (alone i 0 ops) = FOk w' (answers i 0 ops vs).
  Proof. intros C E. destruct (isolation_from i ops w_init w_init w vs (sim_init i) C E) as (w' & R1 & _). exists w'. exact R1. Qed.
  (** an execution goes wrong only where one of the controllers, alone, goes wrong (or where the user writes to the logger without log() before) *)
  Lemma step_wrong w op : step w op = WUB -> writes op = false -> exists i, concerns i (length (w_ctrls w)) op = true.
  Proof.
    intros E Wr. unfold concerns. destruct (subject (length (w_ctrls w)) op) as [j|] eqn:Ej; [exists j; now rewrite Nat.eqb_refl|]. destruct op; try discriminate Ej. destruct o; discriminate E || discriminate Wr.
  Qed.
  Lemma step_bad w op : step w op = WBad -> exists i, concerns i (length (w_ctrls w)) op = true.
  Proof.
    intros E. unfold concerns. destruct (subject (length (w_ctrls w)) op) as [j|] eqn:Ej; [exists j; now rewrite Nat.eqb_refl|]. destruct op; try discriminate Ej. cbn [w_step] in E. destruct (g_step (w_log w) o) as [[]|]; discriminate E.
  Qed.
  Lemma wrong_from ops : forall w (ws : nat -> world), (forall i, sim i w (ws i)) -> copy_free ops -> Forall (fun op => writes op = false) ops ->
    (run w ops = FUB -> exists i, run (ws i) (alone i (length (w_ctrls w)) ops) = FUB) /\ (run w ops = FBad -> exists i, run (ws i) (alone i (length (w_ctrls w)) ops) = FBad).
  Proof.
    induction ops as [|op ops IH]; intros w ws S C Wr; [split; intros E; discriminate E|]. inversion C as [|? ? C1 C2]; subst. inversion Wr as [|? ? W1 W2]; subst. cbn [w_run alone].
    destruct (step w op) as [| |w2 v] eqn:E1.
    - split; intros E; [discriminate E|]. destruct (step_bad w op E1) as [i Ci]. exists i. pose proof (sim_self i w (ws i) op (S i) C1 Ci) as A. rewrite E1 in A. rewrite Ci. cbn [app w_run].
      destruct (step (ws i) (on_first op)); try easy.
    - split; intros E; [|discriminate E]. destruct (step_wrong w op E1 W1) as [i Ci]. exists i. pose proof (sim_self i w (ws i) op (S i) C1 Ci) as A. rewrite E1 in A. rewrite Ci. cbn [app w_run].
      destruct (step (ws i) (on_first op)); try easy.
    - set (ws2 i := if concerns i (length (w_ctrls w)) op then match step (ws i) (on_first op) with WOk w' _ => w' | _ => ws i end else ws i).
      assert (S2 : forall i, sim i w2 (ws2 i)).
      { intros i. unfold ws2. destruct (concerns i (length (w_ctrls w)) op) eqn:Ci; [|exact (sim_other i w (ws i) op w2 v (S i) C1 Ci E1)].
        pose proof (sim_self i w (ws i) op (S i) C1 Ci) as A. rewrite E1 in A. destruct (step (ws i) (on_first op)); try easy. exact (proj2 A). }
      destruct (IH w2 ws2 S2 C2 W2) as [I1 I2].
      assert (K : forall i b, (b = FUB \/ b = FBad) -> run (ws2 i) (alone i (length (w_ctrls w2)) ops) = b ->
                  run (ws i) ((if concerns i (length (w_ctrls w)) op then [on_first op] else []) ++ alone i (if constructs op then Datatypes.S (length (w_ctrls w)) else length (w_ctrls w)) ops) = b).
      { intros i b Hb. rewrite <- (step_len w op w2 v (proj1 (S i)) C1 E1). unfold ws2. destruct (concerns i (length (w_ctrls w)) op) eqn:Ci; [|auto].
        pose proof (sim_self i w (ws i) op (S i) C1 Ci) as A. rewrite E1 in A. cbn [app w_run]. destruct (step (ws i) (on_first op)) as [| |w' v']; try easy. intros ->. destruct Hb as [-> | ->]; reflexivity. }
      split; intros E; (destruct (run w2 ops) as [| |w3 vs] eqn:E2; try discriminate E).
      + destruct (I1 eq_refl) as [i Ei]. exists i. apply K; auto.
      + destruct (I2 eq_refl) as [i Ei]. exists i. apply K; auto.
  Qed.
  Theorem C59_undefined_only_alone ops : copy_free ops -> Forall (fun op => writes op = false) ops ->
    (run w_init ops = FUB -> exists i, run w_init (alone i 0 ops) = FUB) /\
    (forall i, run w_init (alone i 0 ops) = FUB -> run w_init ops = FUB \/ run w_init ops = FBad) /\
    (run w_init ops = FBad -> exists i, run w_init (alone i 0 ops) = FBad).
  Proof.
    intros C Wr. destruct (wrong_from ops w_init (fun _ => w_init) sim_init C Wr) as [A B]. refine (conj A (conj _ B)).
    intros i E. destruct (run w_init ops) as [| |w vs] eqn:E1; auto. destruct (C59_isolation ops w vs i C E1) as (w' & E2). rewrite E2 in E. discriminate E.
  Qed.

  (** *** C60: last result and statistics *)
  Fixpoint count (ops : list wop) : nat := match ops with [] => 0 | op :: ops => (if constructs op then 1 else 0) + count ops end.
  Lemma answers_snoc i ops : forall n vs op v, length ops = length vs -> answers i n (ops ++ [op]) (vs ++ [v]) = answers i n ops vs ++ (if concerns i (n + count ops) op then [v] else []).
  Proof.
    induction ops as [|p ops IH]; intros n vs op v L; destruct vs as [|x vs]; try discriminate L.
    - cbn [app answers count]. rewrite Nat.add_0_r, app_nil_r. reflexivity.
    - cbn [app answers count]. rewrite IH by (cbn in L; lia). rewrite <- app_assoc. do 2 f_equal. replace ((if constructs p then Datatypes.S n else n) + count ops) with (n + ((if constructs p then 1 else 0) + count ops)) by (destruct (constructs p); lia). reflexivity.
  Qed.
  Definition solve_upd (c : bool) (op : wop) (v : wret F) (acc : list (R * rstatus)) :=
    if c then
             match op, v with
             | WL _ _ e, VRet (RResult r) => ((le_t1 e - le_t0 e)%R, r_status r) :: acc
             | WN _ _ e, VRet (RResult r) => ((ne_t1 e - ne_t0 e)%R, r_status r) :: acc
             | WResetStats _, _ => []
             | _, _ => acc end
           else acc.
  Lemma solved_snoc i ops : forall n vs op v acc, length ops = length vs -> solved i n (ops ++ [op]) (vs ++ [v]) acc = solve_upd (concerns i (n + count ops) op) op v (solved i n ops vs acc).
  Proof.
    induction ops as [|p ops IH]; intros n vs op v acc L; destruct vs as [|x vs]; try discriminate L.
    - cbn [app solved count]. rewrite Nat.add_0_r. reflexivity.
    - cbn [app solved count]. rewrite IH by (cbn in L; lia). replace ((if constructs p then Datatypes.S n else n) + count ops) with (n + ((if constructs p then 1 else 0) + count ops)) by (destruct (constructs p); lia). reflexivity.
  Qed.
  Lemma dims_snoc i ops : forall n op, dims_of i n (ops ++ [op]) = match dims_of i n ops with Some d => Some d | None => if concerns i (n + count ops) op then match op with WNewL d _ _ | WNewN d _ _ _ _ => Some d | _ => None end else None end.
  Proof.
    induction ops as [|p ops IH]; intros n op; cbn [app dims_of count].
    - rewrite Nat.add_0_r. destruct (if concerns i n op then _ else None); reflexivity.
    - destruct (if concerns i n p then match p with WNewL d _ _ | WNewN d _ _ _ _ => Some d | _ => None end else None) as [d|]; [reflexivity|]. rewrite IH.
      replace ((if constructs p then Datatypes.S n else n) + count ops) with (n + ((if constructs p then 1 else 0) + count ops)) by (destruct (constructs p); lia). reflexivity.
  Qed.
  (** results of the two controllers *)
  Lemma fold_res (f : nat -> lmpc F -> lmpc F) l : forall s, (forall i s, o_res (l_o (f i s)) = o_res (l_o s)) -> o_res (l_o (fold_left (fun s i => f i s) l s)) = o_res (l_o s).
  Proof. induction l as [|i l IH]; intros s H; [reflexivity|]. cbn [fold_left]. rewrite IH by exact H. apply H. Qed.
  Lemma on_slice_res H sl whole one (s s' : lmpc F) r : (forall s, o_res (l_o (whole s)) = o_res (l_o s)) -> (forall i s, o_res (l_o (one i s)) = o_res (l_o s)) ->
    on_slice H sl whole one s = Ok (s', r) -> o_res (l_o s') = o_res (l_o s) /\ exists b, r = RBool b.
  Proof.
    intros A B. unfold on_slice, finish. destruct (slice_unset sl).
    - destruct (l_ok (whole s)); [|discriminate]. intros E. injection E as <- <-. eauto.
    - destruct (slice_check (Z.of_nat H) sl) as [[|]|]; try discriminate.
      + destruct (slice_steps sl) as [l|]; [|discriminate]. destruct (l_ok _); [|discriminate]. intros E. injection E as <- <-. split; [now apply fold_res|eauto].
      + intros E. injection E as <- <-. eauto.
  Qed.
  Definition res_spec (r : ret F) (new old : lresult F) : Prop := match r with RResult x => new = x | _ => new = old end.
  Lemma l_res junk ejunk d s op s' r : l_step junk ejunk d s op = Ok (s', r) -> res_spec r (o_res (l_o s')) (o_res (l_o s)).
  Proof.
    intros E. destruct op; cbn [l_step] in E;
      try (unfold finish in E; match type of E with (if ?b then _ else _) = _ => destruct b end; [|discriminate E]; injection E as <- <-; reflexivity);
      try (apply on_slice_res in E; [destruct E as [E1 [b ->]]; exact E1|intros; reflexivity|intros; reflexivity]);
      try (injection E as <- <-; reflexivity).
    - destruct (N.of_nat (d_ph d) <=? index)%N; [injection E as <- <-; reflexivity|]. unfold finish in E. match type of E with (if ?b then _ else _) = _ => destruct b end; [|discriminate E]. injection E as <- <-. reflexivity.
    - destruct p; [|discriminate E]. injection E as <- <-. reflexivity.
    - destruct (l_run d s x0 u0 a) as [s1|]; [|discriminate E]. destruct (l_ok s1); [|discriminate E]. injection E as <- <-. reflexivity.
  Qed.
  Lemma n_bounds_res off w H lo hi sl (s s' : nmpc F) : n_bounds off w H lo hi sl s = Ok s' -> n_res s' = n_res s.
  Proof.
    unfold n_bounds. destruct (nl_steps H sl) as [[|x l]|]; try discriminate.
    - intros E. injection E as <-. reflexivity.
    - destruct (_ && _ && _ && _); [|discriminate]. intros E. injection E as <-. reflexivity.
  Qed.
  Lemma n_bounds_mat_res off w H lo hi (s s' : nmpc F) : n_bounds_mat off w H lo hi s = Ok s' -> n_res s' = n_res s.
  Proof.
    unfold n_bounds_mat. generalize H at 1. intros H'. revert s'. induction H' as [|H' IH]; intros s' E; cbn [loop] in E; [injection E as <-; reflexivity|].
    match type of E with match ?o with _ => _ end = _ => destruct o as [s1|] eqn:E1; [|discriminate E] end. rewrite (n_bounds_res _ _ _ _ _ _ _ _ E). now apply IH.
  Qed.
  Lemma bool_of_res (o : outcome (nmpc F)) s s' r : (forall s1, o = Ok s1 -> n_res s1 = n_res s) -> bool_of o = Ok (s', r) -> res_spec r (n_res s') (n_res s).
  Proof. intros A E. destruct o as [s1|]; [|discriminate E]. injection E as <- <-. now apply A. Qed.
  Lemma n_slice_res off w H lo hi sl (s s' : nmpc F) r : n_slice off w H lo hi sl s = Ok (s', r) -> res_spec r (n_res s') (n_res s).
  Proof.
    unfold n_slice. destruct (slice_unset sl); [apply bool_of_res, n_bounds_res|]. destruct (slice_check (Z.of_nat H) sl) as [[|]|]; try discriminate.
    - apply bool_of_res, n_bounds_res.
    - intros E. injection E as <- <-. reflexivity.
  Qed.
  Lemma n_res_ok junk d ni ne dyn s op s' r : n_step junk d ni ne dyn s op = Ok (s', r) -> res_spec r (n_res s') (n_res s).
  Proof.
    intros E. destruct op; cbn [n_step] in E; try (injection E as <- <-; reflexivity);
      try (match type of E with (if ?b then _ else _) = _ => destruct b end; try discriminate E; injection E as <- <-; reflexivity).
    - destruct p; [|discriminate E]. injection E as <- <-. unfold set_params. cbn zeta. destruct (np_hard p); reflexivity.
    - revert E. apply bool_of_res, n_bounds_mat_res.
    - revert E. apply bool_of_res, n_bounds_mat_res.
    - revert E. apply n_slice_res.
    - revert E. apply n_slice_res.
    - destruct (n_run junk d ni ne s x0 u0 a) as [s1|]; [|discriminate E]. injection E as <- <-. reflexivity.
  Qed.
  Lemma ctl_near i j (w w1 : world) : own w -> near j w w1 -> i <> j -> ctl w1 i = ctl w i.
  Proof. intros O N Ne. pose proof (near_own j w w1 O N) as O1. rewrite (ctl_own w i O), (ctl_own w1 i O1). destruct N as (_ & _ & C & _). destruct (C i Ne) as [-> ->]. reflexivity. Qed.
  Lemma ctl_grown i (w : world) c g o : own w -> ctl (grown w c g o) i = if i =? length (w_ctrls w) then Some (mkCtrl (length (w_cells w)) (fresh_prof big low), c) else ctl w i.
  Proof.
    intros O. rewrite (ctl_own w i O), (ctl_own _ i (grown_own w c g o O)). unfold grown. cbn [w_cells w_ctrls]. rewrite !nth_last. destruct O as [L _]. rewrite <- L. destruct (i =? length (w_cells w)); reflexivity.
  Qed.
  Lemma ctl_log i (w : world) g o : ctl (mkW (w_cells w) (w_ctrls w) g o) i = ctl w i. Proof. reflexivity. Qed.
  Definition dims_core (c : core F) : dims := match c with CL d _ _ _ | CN d _ _ _ _ _ => d end.
  (** effect of a call on its own variable *)
  Lemma step_self (w : world) op w1 v i k1 c1 : own w -> is_copy op = false -> constructs op = false -> concerns i (length (w_ctrls w)) op = true -> step w op = WOk w1 v -> ctl w1 i = Some (k1, c1) ->
    exists k c, ctl w i = Some (k, c) /\ core_result (c_core c1) = last_result (core_result (c_core c)) [v] /\
      (forall l, p_stats (k_prof k) = of_list big low l -> p_stats (k_prof k1) = of_list big low (solve_upd true op v l)).
  Proof.
    intros O C1 C3 C2 E E1. destruct op; try discriminate C1; try discriminate C3; unfold concerns in C2; cbn [subject] in C2; try discriminate C2; apply Nat.eqb_eq in C2; subst; cbn [w_step] in E;
      (destruct (ctl w i) as [[k c]|] eqn:Ek; [|discriminate E]); destruct (ctl_in _ _ _ _ O Ek) as (A1 & A2 & A3 & A4 & A5); exists k, c; (split; [reflexivity|]).
    - exfalso. destruct c as [[d junk ejunk s|d ni ne dyn junk s] alive]; [|destruct alive; [|discriminate E]]; injection E as <- <-;
        unfold ctl, set_ctrl, set_core_as in E1; cbn [w_cells w_ctrls] in E1; rewrite upd_same in E1 by exact A3; discriminate E1.
    - destruct c as [[d junk ejunk s|d ni ne dyn junk s] alive]; [|discriminate E]. destruct (l_step junk ejunk d s op) as [[s' r]|] eqn:Es; [|discriminate E].
      match type of E with speak ?m ?a ?v = _ => destruct (speak_ok m a v) as (g & o & E') end. rewrite E' in E. injection E as <- <-.
      unfold ctl, set_ctrl, set_core_as in E1. cbn [w_cells w_ctrls] in E1. rewrite upd_same in E1 by exact A3. rewrite profiled_cell, A1, upd_same in E1 by exact A2. injection E1 as <- <-. cbn [c_core core_result].
      pose proof (l_res _ _ _ _ _ _ _ Es) as Rs. split; [destruct r; exact Rs|]. intros l0 El. destruct r; try exact El. cbn [profiled k_prof p_step p_stats solve_upd of_list]. now rewrite El.
    - destruct c as [[d junk ejunk s|d ni ne dyn junk s] alive]; [discriminate E|]. destruct (negb alive && negb (optimizer_free d op)); [discriminate E|]. destruct (n_step junk d ni ne dyn s op) as [[s' r]|] eqn:Es; [|discriminate E].
      match type of E with speak ?m ?a ?v = _ => destruct (speak_ok m a v) as (g & o & E') end. rewrite E' in E. injection E as <- <-.
      unfold ctl, set_ctrl, set_core_as in E1. cbn [w_cells w_ctrls] in E1. rewrite upd_same in E1 by exact A3. rewrite profiled_cell, A1, upd_same in E1 by exact A2. injection E1 as <- <-. cbn [c_core core_result].
      pose proof (n_res_ok _ _ _ _ _ _ _ _ _ Es) as Rs. split; [destruct r; exact Rs|]. intros l0 El. destruct r; try exact El. cbn [profiled k_prof p_step p_stats solve_upd of_list]. now rewrite El.
    - destruct (c_alive c); [|discriminate E]. injection E as <- <-. rewrite Ek in E1. injection E1 as <- <-. split; [reflexivity|]. intros l0 El. exact El.
    - destruct (c_alive c); [|discriminate E]. injection E as <- <-. rewrite Ek in E1. injection E1 as <- <-. split; [reflexivity|]. intros l0 El. exact El.
    - injection E as <- <-. rewrite Ek in E1. injection E1 as <- <-. split; [reflexivity|]. intros l0 El. exact El.
    - injection E as <- <-. unfold ctl, set_ctrl in E1. cbn [w_cells w_ctrls] in E1. rewrite upd_same in E1 by exact A3. cbn [k_cell] in E1. rewrite A1, A4 in E1. injection E1 as <- <-. split; [reflexivity|]. intros l0 El. reflexivity.
    - cbn [g_step] in E. injection E as <- <-. change (ctl w i = Some (k1, c1)) in E1. rewrite Ek in E1. injection E1 as <- <-. split; [reflexivity|]. intros l0 El. exact El.
    - cbn [g_step] in E. injection E as <- <-. change (ctl w i = Some (k1, c1)) in E1. rewrite Ek in E1. injection E1 as <- <-. split; [reflexivity|]. intros l0 El. exact El.
  Qed.
  Lemma self_exists (w : world) op w1 v i : constructs op = false -> is_copy op = false -> concerns i (length (w_ctrls w)) op = true -> step w op = WOk w1 v -> exists k c, ctl w i = Some (k, c).
  Proof.
    intros C3 C1 C2 E. destruct op; try discriminate C1; try discriminate C3; unfold concerns in C2; cbn [subject] in C2; try discriminate C2; apply Nat.eqb_eq in C2; subst; cbn [w_step] in E;
      (destruct (ctl w i) as [[k c]|]; [eauto|discriminate E]).
  Qed.
  Definition history (ops : list wop) (vs : list (wret F)) (w : world) : Prop :=
    own w /\ length ops = length vs /\ length (w_ctrls w) = count ops /\
    (forall i k c, ctl w i = Some (k, c) -> exists d, dims_of i 0 ops = Some d /\
       core_result (c_core c) = last_result (no_result d) (answers i 0 ops vs) /\ p_stats (k_prof k) = of_list big low (solved i 0 ops vs [])) /\
    (forall i, count ops <= i -> dims_of i 0 ops = None /\ answers i 0 ops vs = [] /\ solved i 0 ops vs [] = []).
  Lemma count_snoc ops op : count (ops ++ [op]) = count ops + (if constructs op then 1 else 0).
  Proof. induction ops as [|p ops IH]; cbn [app count]; [destruct (constructs op); reflexivity|]. rewrite IH. lia. Qed.
  Lemma last_snoc r vs v : last_result (F:=F) r (vs ++ [v]) = last_result (last_result r vs) [v].
  Proof. unfold last_result. rewrite fold_left_app. reflexivity. Qed.
  Lemma history_step ops vs (w : world) op w1 v : history ops vs w -> is_copy op = false -> step w op = WOk w1 v -> history (ops ++ [op]) (vs ++ [v]) w1.
  Proof.
    intros (O & L & Lc & H & Fr) C1 E. pose proof (step_len w op w1 v O C1 E) as L1. assert (Cn : length (w_ctrls w1) = count (ops ++ [op])) by (rewrite count_snoc, L1, Lc; destruct (constructs op); lia).
    assert (Fr' : forall i, count (ops ++ [op]) <= i -> dims_of i 0 (ops ++ [op]) = None /\ answers i 0 (ops ++ [op]) (vs ++ [v]) = [] /\ solved i 0 (ops ++ [op]) (vs ++ [v]) [] = []).
    { intros i Li. rewrite count_snoc in Li. destruct (Fr i ltac:(lia)) as (F1 & F2 & F3). rewrite dims_snoc, answers_snoc, solved_snoc by exact L. rewrite F1, F2, F3. cbn [plus].
      destruct (concerns i (count ops) op) eqn:Ci; [|auto]. exfalso. destruct (constructs op) eqn:C3.
      - destruct op; try discriminate C1; try discriminate C3; unfold concerns in Ci; cbn [subject] in Ci; apply Nat.eqb_eq in Ci; lia.
      - rewrite <- Lc in Ci. destruct (self_exists w op w1 v i C3 C1 Ci E) as (k & c & Ek). destruct (ctl_in _ _ _ _ O Ek) as (_ & _ & A3 & _). lia. }
    split; [|split; [rewrite !app_length, L; reflexivity|split; [exact Cn|split; [|exact Fr']]]].
    - destruct (constructs op) eqn:C3.
      + destruct (step_grown _ _ _ _ C1 C3 E) as (c & g & o & ->). now apply grown_own.
      + destruct (subject (length (w_ctrls w)) op) as [j|] eqn:Ej.
        * apply (near_own j w w1 O). apply (step_near j w op w1 v O C1); try assumption. unfold concerns. now rewrite Ej, Nat.eqb_refl.
        * destruct op; try discriminate Ej. destruct (step_logger w o w1 v O E) as (g & x & ->). exact O.
    - intros i k1 c1 E1. rewrite dims_snoc, answers_snoc, solved_snoc by exact L. cbn [plus]. rewrite <- Lc. destruct (constructs op) eqn:C3.
      + destruct op; try discriminate C1; try discriminate C3; unfold concerns; cbn [subject].
        * cbn [w_step] in E. destruct ((d_ph d =? 0) || (d_ch d =? 0)); [discriminate E|]. injection E as <- <-. change (ctl (grown w (mkCell (CL d junk ejunk (l_init junk ejunk d)) true) (w_log w) (w_out w)) i = Some (k1, c1)) in E1.
          rewrite (ctl_grown i w _ _ _ O) in E1. rewrite (Nat.eqb_sym (length (w_ctrls w)) i). destruct (Nat.eqb_spec i (length (w_ctrls w))) as [->|N].
          -- injection E1 as <- <-. destruct (Fr (length (w_ctrls w)) ltac:(lia)) as (F1 & F2 & F3). rewrite F1, F2, F3. exists d. split; [reflexivity|]. split; reflexivity.
          -- destruct (H i k1 c1 E1) as (d0 & D1 & D2 & D3). exists d0. rewrite D1, app_nil_r. auto.
        * cbn [w_step] in E. destruct ((d_ph d =? 0) || (d_ch d =? 0)); [discriminate E|]. destruct (n_new d) as [s|] eqn:Es; [|discriminate E].
          match type of E with speak ?m ?a ?v = _ => destruct (speak_ok m a v) as (g & o & E') end. rewrite E' in E. injection E as <- <-. cbn [w_cells w_ctrls w_out] in E1.
          change (ctl (grown w (mkCell (CN d ni ne dyn junk s) true) g (w_out w ++ o)) i = Some (k1, c1)) in E1.
          rewrite (ctl_grown i w _ _ _ O) in E1. rewrite (Nat.eqb_sym (length (w_ctrls w)) i). destruct (Nat.eqb_spec i (length (w_ctrls w))) as [->|N].
          -- injection E1 as <- <-. destruct (Fr (length (w_ctrls w)) ltac:(lia)) as (F1 & F2 & F3). rewrite F1, F2, F3. exists d. split; [reflexivity|]. split; [|reflexivity].
             unfold n_new in Es. destruct (_ && _); [|discriminate Es]. injection Es as <-. reflexivity.
          -- destruct (H i k1 c1 E1) as (d0 & D1 & D2 & D3). exists d0. rewrite D1, app_nil_r. auto.
      + destruct (concerns i (length (w_ctrls w)) op) eqn:Ci.
        * destruct (step_self w op w1 v i k1 c1 O C1 C3 Ci E E1) as (k & c & Ek & S1 & S2). destruct (H i k c Ek) as (d0 & D1 & D2 & D3). exists d0. rewrite D1, last_snoc, S1, D2. auto.
        * assert (Ec : ctl w1 i = ctl w i).
          { destruct (subject (length (w_ctrls w)) op) as [j|] eqn:Ej.
            - apply (ctl_near i j w w1 O); [apply (step_near j w op w1 v O C1); try assumption; unfold concerns; now rewrite Ej, Nat.eqb_refl|]. intros ->. unfold concerns in Ci. rewrite Ej, Nat.eqb_refl in Ci. discriminate Ci.
            - destruct op; try discriminate Ej. destruct (step_logger w o w1 v O E) as (g & x & ->). reflexivity. }
          rewrite Ec in E1. destruct (H i k1 c1 E1) as (d0 & D1 & D2 & D3). exists d0. rewrite D1, app_nil_r. auto.
  Qed.
  Lemma run_snoc ops op (w : world) : run w (ops ++ [op]) = match run w ops with FOk w1 vs => match step w1 op with WOk w2 v => FOk w2 (vs ++ [v]) | WUB => FUB | WBad => FBad end | FUB => FUB | FBad => FBad end.
  Proof. rewrite run_app. destruct (run w ops) as [| |w1 vs]; try reflexivity. cbn [w_run]. destruct (step w1 op); reflexivity. Qed.
  Lemma run_history ops : forall w vs, copy_free ops -> run w_init ops = FOk w vs -> history ops vs w.
  Proof.
    induction ops as [|op ops IH] using rev_ind; intros w vs C E.
    - injection E as <- <-. split; [exact (proj1 (sim_init 0))|]. split; [reflexivity|]. split; [reflexivity|]. split; [|intros i _; destruct i; auto]. intros i k c Ei. unfold ctl in Ei. destruct i; discriminate Ei.
    - apply Forall_app in C. destruct C as [C1 C2]. inversion C2 as [|? ? C3 _]; subst. rewrite run_snoc in E. destruct (run w_init ops) as [| |w1 vs1] eqn:E1; try discriminate E.
      destruct (step w1 op) as [| |w2 v] eqn:E2; try discriminate E. injection E as <- <-. exact (history_step ops vs1 w1 op w2 v (IH _ _ C1 eq_refl) C3 E2).
  Qed.
  (** getLastResult: what the last optimize on this controller returned *)
  Theorem C60_last_result ops w vs i v w1 : copy_free ops -> run w_init ops = FOk w vs -> step w (WGetResult i) = WOk w1 v ->
    w1 = w /\ exists d, dims_of i 0 ops = Some d /\ v = VResult (last_result (no_result d) (answers i 0 ops vs)).
  Proof.
    intros C E E1. destruct (run_history ops w vs C E) as (O & L & Lc & H & _). cbn [w_step] in E1. destruct (ctl w i) as [[k c]|] eqn:Ek; [|discriminate E1]. destruct (c_alive c); [|discriminate E1]. injection E1 as <- <-.
    destruct (H i k c Ek) as (d & D1 & D2 & _). split; [reflexivity|]. exists d. rewrite D2. auto.
  Qed.
  (** getExecutionStats: about the optimize calls on this controller since its last resetStats, and nothing else *)
  Theorem C60_statistics ops w vs i v w1 : copy_free ops -> run w_init ops = FOk w vs -> step w (WGetStats i) = WOk w1 v ->
    w1 = w /\ exists st, v = VStats st /\ let l := solved i 0 ops vs [] in
      s_num st = length l /\ s_tot st = rsum (map fst l) /\ (forall x, s_states st x = with_status x l) /\
      (l <> [] -> (forall x, In x (map fst l) -> (low < x < big)%R) -> is_min (s_min st) (map fst l) /\ is_max (s_max st) (map fst l) /\ s_avg st = mean (map fst l)).
  Proof.
    intros C E E1. destruct (run_history ops w vs C E) as (O & L & Lc & H & _). cbn [w_step] in E1. destruct (ctl w i) as [[k c]|] eqn:Ek; [|discriminate E1]. injection E1 as <- <-.
    destruct (H i k c Ek) as (d & D1 & _ & D3). split; [reflexivity|]. eexists. split; [reflexivity|]. cbn zeta. rewrite D3. rewrite num_of, tot_of. refine (conj eq_refl (conj eq_refl (conj _ _))); [intros x; apply states_of|].
    intros N B. refine (conj _ (conj _ _)); [apply min_of|apply max_of|now apply avg_of]; try exact N; intros e I; apply B; now apply in_map.
  Qed.
  (** reading does not change anything *)
  Theorem C60_getters_pure (w : world) op w1 v : (exists i, op = WGetResult i \/ op = WGetSequence i \/ op = WGetStats i) -> step w op = WOk w1 v -> w1 = w.
  Proof.
    intros (i & [-> | [-> | ->]]) E; cbn [w_step] in E; (destruct (ctl w i) as [[k c]|]; [|discriminate E]); try (destruct (c_alive c); [|discriminate E]); injection E as <- <-; reflexivity.
  Qed.
End W.
