(** Property C60, continued: in a process with several controllers, what a controller holds - the result and the sequences the getters answer - is what
    the calls made on it, in their order, make of a single controller (the models of LMPC.v and NLMPC.v, to which C01-C58 apply). *)
From Coq Require Import Bool Arith ZArith Lia String Reals List.
From Verif Require Import Scalar Mat Slice Builder LMPC NLFun NLMPC Logger Profiler World SpecWorld SpecNLC SpecNLP SpecLMPC PropWorld.
Import ListNotations.
Local Open Scope nat_scope.

Section Spec.
  Context {F : Type}.
  Notation wop := (wop F). Notation wret := (wret F).
  (** the calls that concern variable [i] with their answers, its construction first *)
  Fixpoint calls_of (i n : nat) (ops : list wop) (vs : list wret) : list (wop * wret) :=
    match ops, vs with
    | op :: ops, v :: vs => (if concerns i n op then [(op, v)] else []) ++ calls_of i (if constructs op then S n else n) ops vs
    | _, _ => []
    end.
  (** those of them that are calls of LMPC's (NLMPC's) interface *)
  Definition l_calls (p : list (wop * wret)) : list (lop F * ret F) := flat_map (fun q => match q with (WL _ o _, VRet r) => [(o, r)] | _ => [] end) p.
  Definition n_calls (p : list (wop * wret)) : list (nop F * ret F) := flat_map (fun q => match q with (WN _ o _, VRet r) => [(o, r)] | _ => [] end) p.
  Definition built_by (c : wop) (p : list (wop * wret)) : Prop := exists v rest, p = (c, v) :: rest.
End Spec.

Section W.
  Context {F : Type} {SO : ScalarOps F}.
  Variables big low : R.
  Notation step := (w_step big low). Notation run := (w_run big low).
  Notation world := (world F). Notation wop := (wop F).

  Lemma calls_snoc i ops : forall n vs op v, length ops = length vs -> calls_of (F:=F) i n (ops ++ [op]) (vs ++ [v]) = calls_of i n ops vs ++ (if concerns i (n + count ops) op then [(op, v)] else []).
  Proof.
    induction ops as [|p ops IH]; intros n vs op v L; destruct vs as [|v0 vs]; try discriminate L; cbn [app calls_of count].
    - rewrite Nat.add_0_r, app_nil_r. reflexivity.
    - rewrite IH by (cbn in L; lia). replace ((if constructs p then Datatypes.S n else n) + count ops) with (n + ((if constructs p then 1 else 0) + count ops)) by (destruct (constructs p); lia). now rewrite app_assoc.
  Qed.
  Lemma l_play_snoc junk ejunk d ops : forall (s : lmpc F) s1 h op s2 r, l_play junk ejunk d s ops = Ok (s1, h) -> l_step junk ejunk d s1 op = Ok (s2, r) -> l_play junk ejunk d s (ops ++ [op]) = Ok (s2, h ++ [(op, r)]).
  Proof.
    induction ops as [|o ops IH]; intros s s1 h op s2 r E E2; cbn [app l_play] in *.
    - injection E as <- <-. rewrite E2. reflexivity.
    - destruct (l_step junk ejunk d s o) as [[s' r']|]; [|discriminate E]. destruct (l_play junk ejunk d s' ops) as [[s'' h'']|] eqn:E3; [|discriminate E]. injection E as <- <-.
      rewrite (IH _ _ _ _ _ _ E3 E2). reflexivity.
  Qed.
  Lemma n_play_snoc junk d ni ne dyn ops : forall (s : nmpc F) s1 h op s2 r, n_play junk d ni ne dyn s ops = Ok (s1, h) -> n_step junk d ni ne dyn s1 op = Ok (s2, r) -> n_play junk d ni ne dyn s (ops ++ [op]) = Ok (s2, h ++ [(op, r)]).
  Proof.
    induction ops as [|o ops IH]; intros s s1 h op s2 r E E2; cbn [app n_play] in *.
    - injection E as <- <-. rewrite E2. reflexivity.
    - destruct (n_step junk d ni ne dyn s o) as [[s' r']|]; [|discriminate E]. destruct (n_play junk d ni ne dyn s' ops) as [[s'' h'']|] eqn:E3; [|discriminate E]. injection E as <- <-.
      rewrite (IH _ _ _ _ _ _ E3 E2). reflexivity.
  Qed.
  Lemma n_life_snoc junk d ni ne dyn ops (s1 : nmpc F) h op s2 r : n_life junk d ni ne dyn ops = Ok (s1, h) -> n_step junk d ni ne dyn s1 op = Ok (s2, r) -> n_life junk d ni ne dyn (ops ++ [op]) = Ok (s2, h ++ [(op, r)]).
  Proof. unfold n_life. destruct (n_new d) as [s|]; [|intros E; discriminate E]. apply n_play_snoc. Qed.

  (** the state of a controller and the calls made on it *)
  Definition lived (c : core F) (p : list (wop * wret F)) : Prop :=
    match c with
    | CL d junk ejunk s => built_by (WNewL d junk ejunk) p /\ l_play junk ejunk d (l_init junk ejunk d) (map fst (l_calls p)) = Ok (s, l_calls p)
    | CN d ni ne dyn junk s => built_by (WNewN d ni ne dyn junk) p /\ n_life junk d ni ne dyn (map fst (n_calls p)) = Ok (s, n_calls p)
    end.
  Lemma built_snoc c (p : list (wop * wret F)) q : built_by c p -> built_by c (p ++ q).
  Proof. intros (v & rest & ->). exists v, (rest ++ q). reflexivity. Qed.
  Lemma l_calls_snoc (p : list (wop * wret F)) q : l_calls (p ++ q) = l_calls p ++ l_calls q. Proof. apply flat_map_app. Qed.
  Lemma n_calls_snoc (p : list (wop * wret F)) q : n_calls (p ++ q) = n_calls p ++ n_calls q. Proof. apply flat_map_app. Qed.
  Lemma lived_quiet c p op v : lived c p -> l_calls [(op, v)] = [] -> n_calls [(op, v)] = [] -> lived c (p ++ [(op, v)]).
  Proof. intros H E1 E2. unfold lived in *. rewrite l_calls_snoc, n_calls_snoc, E1, E2, !app_nil_r. destruct c; destruct H as [B H]; (split; [now apply built_snoc|exact H]). Qed.
  Lemma lived_l d junk ejunk s p i o e s' r : lived (CL d junk ejunk s) p -> l_step junk ejunk d s o = Ok (s', r) -> lived (CL d junk ejunk s') (p ++ [(WL i o e, VRet r)]).
  Proof.
    intros [B H] E. split; [now apply built_snoc|]. rewrite l_calls_snoc. change (l_calls [(WL i o e, VRet r)]) with [(o, r)]. rewrite map_app. exact (l_play_snoc _ _ _ _ _ _ _ _ _ _ H E).
  Qed.
  Lemma lived_n d ni ne dyn junk s p i o e s' r : lived (CN d ni ne dyn junk s) p -> n_step junk d ni ne dyn s o = Ok (s', r) -> lived (CN d ni ne dyn junk s') (p ++ [(WN i o e, VRet r)]).
  Proof.
    intros [B H] E. split; [now apply built_snoc|]. rewrite n_calls_snoc. change (n_calls [(WN i o e, VRet r)]) with [(o, r)]. rewrite map_app. exact (n_life_snoc _ _ _ _ _ _ _ _ _ _ _ H E).
  Qed.
  Lemma self_lived (w : world) op w1 v i k1 c1 p : own w -> is_copy op = false -> constructs op = false -> concerns i (length (w_ctrls w)) op = true -> step w op = WOk w1 v -> ctl w1 i = Some (k1, c1) ->
    (forall k c, ctl w i = Some (k, c) -> lived (c_core c) p) -> lived (c_core c1) (p ++ [(op, v)]).
  Proof.
    intros O C1 C3 C2 E E1 H. destruct op; try discriminate C1; try discriminate C3; unfold concerns in C2; cbn [subject] in C2; try discriminate C2; apply Nat.eqb_eq in C2; subst; cbn [w_step] in E;
      (destruct (ctl w i) as [[k c]|] eqn:Ek; [|discriminate E]); destruct (ctl_in _ _ _ _ O Ek) as (A1 & A2 & A3 & A4 & A5); specialize (H k c eq_refl).
    - exfalso. destruct c as [[d junk ejunk s|d ni ne dyn junk s] alive]; [|destruct alive; [|discriminate E]]; injection E as <- <-;
        unfold ctl, set_ctrl, set_core_as in E1; cbn [w_cells w_ctrls] in E1; rewrite upd_same in E1 by exact A3; discriminate E1.
    - destruct c as [[d junk ejunk s|d ni ne dyn junk s] alive]; [|discriminate E]. destruct (l_step junk ejunk d s op) as [[s' r]|] eqn:Es; [|discriminate E].
      match type of E with speak ?m ?a ?v = _ => destruct (speak_ok m a v) as (g & o & E') end. rewrite E' in E. injection E as <- <-.
      unfold ctl, set_ctrl, set_core_as in E1. cbn [w_cells w_ctrls] in E1. rewrite upd_same in E1 by exact A3. rewrite profiled_cell, A1, upd_same in E1 by exact A2. injection E1 as <- <-. cbn [c_core] in *.
      exact (lived_l _ _ _ _ _ _ _ _ _ _ H Es).
    - destruct c as [[d junk ejunk s|d ni ne dyn junk s] alive]; [discriminate E|]. destruct (negb alive && negb (optimizer_free d op)); [discriminate E|]. destruct (n_step junk d ni ne dyn s op) as [[s' r]|] eqn:Es; [|discriminate E].
      match type of E with speak ?m ?a ?v = _ => destruct (speak_ok m a v) as (g & o & E') end. rewrite E' in E. injection E as <- <-.
      unfold ctl, set_ctrl, set_core_as in E1. cbn [w_cells w_ctrls] in E1. rewrite upd_same in E1 by exact A3. rewrite profiled_cell, A1, upd_same in E1 by exact A2. injection E1 as <- <-. cbn [c_core] in *.
      exact (lived_n _ _ _ _ _ _ _ _ _ _ _ _ H Es).
    - destruct (c_alive c); [|discriminate E]. injection E as <- <-. rewrite Ek in E1. injection E1 as <- <-. apply lived_quiet; [exact H|reflexivity|reflexivity].
    - destruct (c_alive c); [|discriminate E]. injection E as <- <-. rewrite Ek in E1. injection E1 as <- <-. apply lived_quiet; [exact H|reflexivity|reflexivity].
    - injection E as <- <-. rewrite Ek in E1. injection E1 as <- <-. apply lived_quiet; [exact H|reflexivity|reflexivity].
    - injection E as <- <-. unfold ctl, set_ctrl in E1. cbn [w_cells w_ctrls] in E1. rewrite upd_same in E1 by exact A3. cbn [k_cell] in E1. rewrite A1, A4 in E1. injection E1 as <- <-. apply lived_quiet; [exact H|reflexivity|reflexivity].
    - cbn [g_step] in E. injection E as <- <-. change (ctl w i = Some (k1, c1)) in E1. rewrite Ek in E1. injection E1 as <- <-. apply lived_quiet; [exact H|reflexivity|reflexivity].
    - cbn [g_step] in E. injection E as <- <-. change (ctl w i = Some (k1, c1)) in E1. rewrite Ek in E1. injection E1 as <- <-. apply lived_quiet; [exact H|reflexivity|reflexivity].
  Qed.

  Definition lives (ops : list wop) (vs : list (wret F)) (w : world) : Prop :=
    length ops = length vs /\ (forall i k c, ctl w i = Some (k, c) -> lived (c_core c) (calls_of i 0 ops vs)) /\ (forall i, count ops <= i -> calls_of i 0 ops vs = []).
  Lemma lives_step ops vs (w : world) op w1 v : history big low ops vs w -> lives ops vs w -> is_copy op = false -> step w op = WOk w1 v -> lives (ops ++ [op]) (vs ++ [v]) w1.
  Proof.
    intros (O & _ & Lc & _ & _) (L & H & Fr) C1 E.
    split; [rewrite !app_length, L; reflexivity|]. split.
    - intros i k1 c1 E1. rewrite calls_snoc by exact L. cbn [plus]. rewrite <- Lc. destruct (constructs op) eqn:C3.
      + destruct op; try discriminate C1; try discriminate C3; unfold concerns; cbn [subject].
        * cbn [w_step] in E. destruct ((d_ph d =? 0) || (d_ch d =? 0)); [discriminate E|]. injection E as <- <-. change (ctl (grown big low w (mkCell (CL d junk ejunk (l_init junk ejunk d)) true) (w_log w) (w_out w)) i = Some (k1, c1)) in E1.
          rewrite (ctl_grown big low i w _ _ _ O) in E1. rewrite (Nat.eqb_sym (length (w_ctrls w)) i). destruct (Nat.eqb_spec i (length (w_ctrls w))) as [->|N].
          -- injection E1 as <- <-. rewrite (Fr (length (w_ctrls w)) ltac:(lia)). cbn [c_core app]. split; [eexists _, _; reflexivity|reflexivity].
          -- rewrite app_nil_r. exact (H i k1 c1 E1).
        * cbn [w_step] in E. destruct ((d_ph d =? 0) || (d_ch d =? 0)); [discriminate E|]. destruct (n_new d) as [s|] eqn:Es; [|discriminate E].
          match type of E with speak ?m ?a ?v = _ => destruct (speak_ok m a v) as (g & o & E') end. rewrite E' in E. injection E as <- <-. cbn [w_cells w_ctrls w_out] in E1.
          change (ctl (grown big low w (mkCell (CN d ni ne dyn junk s) true) g (w_out w ++ o)) i = Some (k1, c1)) in E1.
          rewrite (ctl_grown big low i w _ _ _ O) in E1. rewrite (Nat.eqb_sym (length (w_ctrls w)) i). destruct (Nat.eqb_spec i (length (w_ctrls w))) as [->|N].
          -- injection E1 as <- <-. rewrite (Fr (length (w_ctrls w)) ltac:(lia)). cbn [c_core app]. split; [eexists _, _; reflexivity|]. unfold n_life. rewrite Es. reflexivity.
          -- rewrite app_nil_r. exact (H i k1 c1 E1).
      + destruct (concerns i (length (w_ctrls w)) op) eqn:Ci.
        * apply (self_lived w op w1 v i k1 c1 _ O C1 C3 Ci E E1). intros k c Ek. exact (H i k c Ek).
        * rewrite app_nil_r. assert (Ec : ctl w1 i = ctl w i).
          { destruct (subject (length (w_ctrls w)) op) as [j|] eqn:Ej.
            - apply (ctl_near i j w w1 O); [apply (step_near big low j w op w1 v O C1); try assumption; unfold concerns; now rewrite Ej, Nat.eqb_refl|]. intros ->. unfold concerns in Ci. rewrite Ej, Nat.eqb_refl in Ci. discriminate Ci.
            - destruct op; try discriminate Ej. destruct (step_logger big low w o w1 v O E) as (g & x & ->). reflexivity. }
          rewrite Ec in E1. exact (H i k1 c1 E1).
    - intros i Li. rewrite count_snoc in Li. rewrite calls_snoc by exact L. rewrite (Fr i ltac:(lia)). cbn [plus app].
      destruct (concerns i (count ops) op) eqn:Ci; [|reflexivity]. exfalso. destruct (constructs op) eqn:C3.
      + destruct op; try discriminate C1; try discriminate C3; unfold concerns in Ci; cbn [subject] in Ci; apply Nat.eqb_eq in Ci; lia.
      + rewrite <- Lc in Ci. destruct (self_exists big low w op w1 v i C3 C1 Ci E) as (k & c & Ek). destruct (ctl_in _ _ _ _ O Ek) as (_ & _ & A3 & _). lia.
  Qed.
  Lemma run_lives ops : forall w vs, copy_free ops -> run w_init ops = FOk w vs -> lives ops vs w.
  Proof.
    induction ops as [|op ops IH] using rev_ind; intros w vs C E.
    - injection E as <- <-. split; [reflexivity|]. split; [|intros i _; reflexivity]. intros i k c Ei. unfold ctl in Ei. destruct i; discriminate Ei.
    - apply Forall_app in C. destruct C as [C1 C2]. inversion C2 as [|? ? C3 _]; subst. rewrite run_snoc in E. destruct (run w_init ops) as [| |w1 vs1] eqn:E1; try discriminate E.
      destruct (step w1 op) as [| |w2 v] eqn:E2; try discriminate E. injection E as <- <-. exact (lives_step ops vs1 w1 op w2 v (run_history big low ops _ _ C1 E1) (IH _ _ C1 eq_refl) C3 E2).
  Qed.

  Lemma nil_ops (ops : list wop) (vs : list (wret F)) i : forall n, calls_of i n ops vs = [] \/ exists q rest, calls_of i n ops vs = q :: rest.
  Proof. intros n. destruct (calls_of i n ops vs); eauto. Qed.

  (** the getters of an LMPC controller answer the result and the sequences of the single-controller model after the same calls *)
  Theorem C60_linear_readings ops w vs i d junk ejunk : copy_free ops -> run w_init ops = FOk w vs -> built_by (WNewL d junk ejunk) (calls_of i 0 ops vs) ->
    let h := l_calls (calls_of i 0 ops vs) in
    (forall w1 v, step w (WGetSequence i) = WOk w1 v -> exists s, l_play junk ejunk d (l_init junk ejunk d) (map fst h) = Ok (s, h) /\ v = VSequence (o_seq (l_o s))) /\
    (forall w1 v, step w (WGetResult i) = WOk w1 v -> exists s, l_play junk ejunk d (l_init junk ejunk d) (map fst h) = Ok (s, h) /\ v = VResult (o_res (l_o s))).
  Proof.
    intros C E (v0 & rest & B) h. destruct (run_lives ops w vs C E) as (_ & H & _).
    assert (K : forall k c, ctl w i = Some (k, c) -> exists s, c_core c = CL d junk ejunk s /\ l_play junk ejunk d (l_init junk ejunk d) (map fst h) = Ok (s, h)).
    { intros k c Ek. specialize (H i k c Ek). unfold lived in H. destruct (c_core c) as [d' junk' ejunk' s|]; destruct H as [(v1 & rest1 & B1) H]; rewrite B in B1; [|discriminate B1]. injection B1 as <- <- <- _ _. exists s. split; [reflexivity|exact H]. }
    split; intros w1 v E1; cbn [w_step] in E1; (destruct (ctl w i) as [[k c]|] eqn:Ek; [|discriminate E1]); (destruct (c_alive c); [|discriminate E1]); injection E1 as _ <-;
      destruct (K k c eq_refl) as (s & Ec & P); exists s; rewrite Ec; (split; [exact P|reflexivity]).
  Qed.
  (** likewise for an NLMPC controller *)
  Theorem C60_nonlinear_readings ops w vs i d ni ne dyn junk : copy_free ops -> run w_init ops = FOk w vs -> built_by (WNewN d ni ne dyn junk) (calls_of i 0 ops vs) ->
    let h := n_calls (calls_of i 0 ops vs) in
    (forall w1 v, step w (WGetSequence i) = WOk w1 v -> exists s, n_life junk d ni ne dyn (map fst h) = Ok (s, h) /\ v = VSequence (n_seq s)) /\
    (forall w1 v, step w (WGetResult i) = WOk w1 v -> exists s, n_life junk d ni ne dyn (map fst h) = Ok (s, h) /\ v = VResult (n_res s)).
  Proof.
    intros C E (v0 & rest & B) h. destruct (run_lives ops w vs C E) as (_ & H & _).
    assert (K : forall k c, ctl w i = Some (k, c) -> exists s, c_core c = CN d ni ne dyn junk s /\ n_life junk d ni ne dyn (map fst h) = Ok (s, h)).
    { intros k c Ek. specialize (H i k c Ek). unfold lived in H. destruct (c_core c) as [|d' ni' ne' dyn' junk' s]; destruct H as [(v1 & rest1 & B1) H]; rewrite B in B1; [discriminate B1|]. injection B1 as <- <- <- <- <- _ _. exists s. split; [reflexivity|exact H]. }
    split; intros w1 v E1; cbn [w_step] in E1; (destruct (ctl w i) as [[k c]|] eqn:Ek; [|discriminate E1]); (destruct (c_alive c); [|discriminate E1]); injection E1 as _ <-;
      destruct (K k c eq_refl) as (s & Ec & P); exists s; rewrite Ec; (split; [exact P|reflexivity]).
  Qed.
End W.

(** *** with the single-controller theorems: the sequences read back are the trajectories of the last solve *)
From Verif Require Import Sums NLTraj NLEval NLRun NLObs PropNL1 SpecQP PropLMPC3.
Section Traj.
  Context {F : Type} {SO : ScalarOps F} {SL : ScalarLaws F}.
  Variables big low : R.
  Notation step := (w_step big low). Notation run := (w_run big low).
  Lemma l_play_last junk ejunk d ops : forall (s : lmpc F) s2 h op r, l_play junk ejunk d s (map fst (ops ++ [(op, r)])) = Ok (s2, h) -> h = ops ++ [(op, r)] ->
    exists s1, l_play junk ejunk d s (map fst ops) = Ok (s1, ops) /\ l_step junk ejunk d s1 op = Ok (s2, r).
  Proof.
    induction ops as [|[o x] ops IH]; intros s s2 h op r E ->; cbn [app map fst l_play] in *.
    - destruct (l_step junk ejunk d s op) as [[s' r']|] eqn:Es; [|discriminate E]. injection E as <- <-. exists s. split; [reflexivity|exact Es].
    - destruct (l_step junk ejunk d s o) as [[s' r']|]; [|discriminate E]. destruct (l_play junk ejunk d s' (map fst (ops ++ [(op, r)]))) as [[s'' h'']|] eqn:E3; [|discriminate E].
      injection E as <- <- Eh. destruct (IH _ _ _ _ _ E3 Eh) as (s1 & E1 & E2). rewrite E1. eauto.
  Qed.
  Lemma n_play_last junk d ni ne dyn ops : forall (s : nmpc F) s2 h op r, n_play junk d ni ne dyn s (map fst (ops ++ [(op, r)])) = Ok (s2, h) -> h = ops ++ [(op, r)] ->
    exists s1, n_play junk d ni ne dyn s (map fst ops) = Ok (s1, ops) /\ n_step junk d ni ne dyn s1 op = Ok (s2, r).
  Proof.
    induction ops as [|[o x] ops IH]; intros s s2 h op r E ->; cbn [app map fst n_play] in *.
    - destruct (n_step junk d ni ne dyn s op) as [[s' r']|] eqn:Es; [|discriminate E]. injection E as <- <-. exists s. split; [reflexivity|exact Es].
    - destruct (n_step junk d ni ne dyn s o) as [[s' r']|]; [|discriminate E]. destruct (n_play junk d ni ne dyn s' (map fst (ops ++ [(op, r)]))) as [[s'' h'']|] eqn:E3; [|discriminate E].
      injection E as <- <- Eh. destruct (IH _ _ _ _ _ E3 Eh) as (s1 & E1 & E2). rewrite E1. eauto.
  Qed.

  (** NLMPC: when the last call made on variable [i] is an optimize that the solver answered with [z], getOptimalSequence answers the states that [z]
      holds (times their scales, after the measured state), the commands that [z] holds (times their scales, the last one held) and the user's output
      function along them - whatever was done with other controllers meanwhile *)
  Theorem C60_sequence_after_solve ops w vs i d ni ne dyn junk h x0 u0 z code cost r w1 sq :
    copy_free ops -> run w_init ops = FOk w vs -> built_by (WNewN d ni ne dyn junk) (calls_of i 0 ops vs) ->
    n_calls (calls_of i 0 ops vs) = h ++ [(NOptimize x0 u0 (NSolved z code cost), r)] -> Forall (fun e => nop_sized d (fst e)) h -> gm x0 (d_nx d) 1 ->
    0 < d_ch d -> d_ch d <= d_ph d -> scaled d (ncfg_run d ni ne h) ->
    step w (WGetSequence i) = WOk w1 (VSequence sq) ->
    let c := ncfg_run d ni ne h in
    (forall j, j < d_nx d -> ent (q_state sq) 0 j = (k_sx c j * ent x0 j 0)%S) /\
    (forall k j, k < d_ph d -> j < d_nx d -> ent (q_state sq) (k + 1) j = (k_sx c j * z (k * d_nx d + j)%nat)%S) /\
    (forall k j, k <= d_ph d -> j < d_nu d -> ent (q_input sq) k j = (k_su c j * z (d_ph d * d_nx d + (Nat.min k (d_ch d - 1) * d_nu d + j))%nat)%S) /\
    (forall k j, k <= d_ph d -> j < d_ny d -> ent (q_output sq) k j =
       match k_out c with None => s0 | Some g => g (map (ent (q_state sq) k) (seq 0 (d_nx d))) (map (ent (q_input sq) k) (seq 0 (d_nu d))) k j end) /\
    exists res, r = RResult res /\ step w (WGetResult i) = WOk w (VResult res) /\ forall j, j < d_nu d -> ent (r_cmd res) j 0 = ent (q_input sq) 0 j.
  Proof.
    intros C E B Hh Hz G C0 C1 Sc E1 c. destruct (C60_nonlinear_readings big low ops w vs i d ni ne dyn junk C E B) as [Q R]. rewrite Hh in Q, R.
    destruct (Q _ _ E1) as (s & P & Es). injection Es as ->. unfold n_life in P. destruct (n_new d) as [sn|] eqn:En; [|discriminate P].
    destruct (n_play_last _ _ _ _ _ _ _ _ _ _ _ P eq_refl) as (sp & P1 & P2).
    assert (Hr : nreached junk d ni ne dyn sp h). { exists (map fst h). split; [now apply Forall_map|]. unfold n_life. rewrite En. exact P1. }
    destruct (C21_returned_commands junk d ni ne dyn sp h x0 u0 z code cost s r C0 C1 Hr G Sc P2) as (res & -> & _ & _ & K0 & K1 & K2).
    destruct (C22_first_row junk d ni ne dyn sp h x0 u0 z code cost s _ C0 C1 Hr G Sc P2) as (X0 & X1).
    destruct (C42_outputs junk d ni ne dyn sp h x0 u0 z code cost s _ C0 C1 Hr G Sc P2) as (_ & Y).
    refine (conj X0 (conj X1 (conj _ (conj Y _)))).
    - intros k j Hk Hj. destruct (Nat.lt_ge_cases k (d_ch d)) as [L|L]; [rewrite Nat.min_l by lia; now apply K1|]. rewrite K2 by assumption. rewrite Nat.min_r by lia. apply K1; [lia|exact Hj].
    - exists res. split; [reflexivity|]. split.
      + cbn [w_step] in E1 |- *. destruct (ctl w i) as [[k cc]|] eqn:Ek; [|discriminate E1]. destruct (c_alive cc) eqn:Al; [|discriminate E1].
        destruct (R w (VResult (core_result (c_core cc)))) as (s' & P' & Er); [cbn [w_step]; rewrite Ek, Al; reflexivity|].
        unfold n_life in P'. rewrite En in P'. assert (s' = s) by (rewrite P' in P; now injection P). subst s'. rewrite Er.
        cbn [n_step] in P2. destruct (n_run _ _ _ _ _ _ _ _) as [s3|]; [|discriminate P2]. injection P2 as <- <-. reflexivity.
      + intros j Hj. rewrite K0 by exact Hj. rewrite (K1 0 j C0 Hj). reflexivity.
  Qed.
  (** LMPC: the blocks of the solver's point, the last command repeated, and the plant's output along them *)
  Theorem C60_linear_sequence_after_solve ops w vs i d junk ejunk h x0 u0 x y code obj r p w1 sq :
    copy_free ops -> run w_init ops = FOk w vs -> built_by (WNewL d junk ejunk) (calls_of i 0 ops vs) ->
    l_calls (calls_of i 0 ops vs) = h ++ [(LOptimize x0 u0 (ASolution x y code obj), r)] ->
    Forall (fun e => op_sized d (fst e) /\ op_proper (fst e)) h -> sized x0 (d_nx d) 1 -> sized u0 (d_nu d) 1 ->
    0 < d_ph d -> g_plant (cfg_run h) = Some p ->
    step w (WGetSequence i) = WOk w1 (VSequence sq) ->
    (forall k j, k <= d_ph d -> j < d_nx d -> ent (q_state sq) k j = z_state d x k j) /\
    (forall k j, k <= d_ph d -> j < d_nu d -> ent (q_input sq) k j = z_cmd d x (Nat.min k (d_ph d - 1)) j) /\
    (forall k j, k <= d_ph d -> j < d_ny d -> ent (q_output sq) k j = output d p (cfg_run h) (fun a b => ent (q_state sq) a b) k j) /\
    exists res, r = RResult res /\ step w (WGetResult i) = WOk w (VResult res) /\ forall j, j < d_nu d -> vec (r_cmd res) j = ent (q_input sq) 0 j.
  Proof.
    intros C E B Hh Hz G Gu P0 Hp E1. destruct (C60_linear_readings big low ops w vs i d junk ejunk C E B) as [Q R]. rewrite Hh in Q, R.
    destruct (Q _ _ E1) as (s & P & Es). injection Es as ->.
    destruct (l_play_last _ _ _ _ _ _ _ _ _ P eq_refl) as (sp & P1 & P2).
    assert (Hr : SpecLMPC.reached junk ejunk d sp h).
    { exists (map fst h). split; [|split; [|exact P1]]; apply Forall_map; eapply Forall_impl; try exact Hz; cbn beta; tauto. }
    destruct (C14_sequences junk ejunk d sp h p x0 u0 x y code obj s r P0 Hr Hp G Gu P2) as (res & -> & X & U & Ul & Y & K & _).
    refine (conj X (conj _ (conj Y _))).
    - intros k j Hk Hj. destruct (Nat.lt_ge_cases k (d_ph d)) as [L|L]; [rewrite Nat.min_l by lia; now apply U|]. replace k with (d_ph d) by lia. rewrite Nat.min_r by lia. now apply Ul.
    - exists res. split; [reflexivity|]. split; [|exact K].
      cbn [w_step] in E1 |- *. destruct (ctl w i) as [[k cc]|] eqn:Ek; [|discriminate E1]. destruct (c_alive cc) eqn:Al; [|discriminate E1].
      destruct (R w (VResult (core_result (c_core cc)))) as (s' & P' & Er); [cbn [w_step]; rewrite Ek, Al; reflexivity|].
      assert (s' = s) by (rewrite P' in P; now injection P). subst s'. rewrite Er.
      cbn [l_step] in P2. destruct (l_run _ _ _ _ _) as [s3|]; [|discriminate P2]. destruct (l_ok s3); [|discriminate P2]. injection P2 as <- <-. reflexivity.
  Qed.
End Traj.

(** *** a program that meets the hypotheses *)
Section Ops.
  Context {F : Type} {SO : ScalarOps F}.
  Variables big low : R.
  Fixpoint n_ops_of (i n : nat) (ops : list (wop F)) : list (nop F) :=
    match ops with [] => [] | op :: ops => (if concerns i n op then match op with WN _ o _ => [o] | _ => [] end else []) ++ n_ops_of i (if constructs op then S n else n) ops end.
  Fixpoint l_ops_of (i n : nat) (ops : list (wop F)) : list (lop F) :=
    match ops with [] => [] | op :: ops => (if concerns i n op then match op with WL _ o _ => [o] | _ => [] end else []) ++ l_ops_of i (if constructs op then S n else n) ops end.
  Lemma wn_answer (w w1 : world F) i o e v : w_step big low w (WN i o e) = WOk w1 v -> exists r, v = VRet r.
  Proof.
    cbn [w_step]. destruct (ctl w i) as [[k [[d junk ejunk s|d ni ne dyn junk s] alive]]|]; try (intros E; discriminate E). destruct (_ && _); [intros E; discriminate E|].
    destruct (n_step junk d ni ne dyn s o) as [[s' r]|]; [|intros E; discriminate E]. match goal with |- speak ?m ?a ?v = _ -> _ => destruct (speak_ok m a v) as (g & x & ->) end. intros E. injection E as _ <-. eauto.
  Qed.
  Lemma wl_answer (w w1 : world F) i o e v : w_step big low w (WL i o e) = WOk w1 v -> exists r, v = VRet r.
  Proof.
    cbn [w_step]. destruct (ctl w i) as [[k [[d junk ejunk s|d ni ne dyn junk s] alive]]|]; try (intros E; discriminate E).
    destruct (l_step junk ejunk d s o) as [[s' r]|]; [|intros E; discriminate E]. match goal with |- speak ?m ?a ?v = _ -> _ => destruct (speak_ok m a v) as (g & x & ->) end. intros E. injection E as _ <-. eauto.
  Qed.
  Lemma calls_ops i ops : forall n w w1 vs, w_run big low w ops = FOk w1 vs ->
    map fst (n_calls (calls_of i n ops vs)) = n_ops_of i n ops /\ map fst (l_calls (calls_of i n ops vs)) = l_ops_of i n ops.
  Proof.
    induction ops as [|op ops IH]; intros n w w1 vs E; cbn [w_run] in E.
    - injection E as _ <-. split; reflexivity.
    - destruct (w_step big low w op) as [| |w2 v] eqn:Es; try discriminate E. destruct (w_run big low w2 ops) as [| |w3 vs3] eqn:E3; try discriminate E. injection E as <- <-.
      destruct (IH (if constructs op then S n else n) _ _ _ E3) as [I1 I2]. cbn [calls_of n_ops_of l_ops_of]. rewrite n_calls_snoc, l_calls_snoc, !map_app, I1, I2.
      destruct (concerns i n op); [|split; reflexivity]. destruct op; try (split; reflexivity).
      + destruct (wl_answer _ _ _ _ _ _ Es) as (r & ->). split; reflexivity.
      + destruct (wn_answer _ _ _ _ _ _ Es) as (r & ->). split; reflexivity.
  Qed.
  Lemma n_play_fst junk d ni ne dyn ops : forall (s s1 : nmpc F) h, n_play junk d ni ne dyn s ops = Ok (s1, h) -> map fst h = ops.
  Proof.
    induction ops as [|o ops IH]; intros s s1 h E; cbn [n_play] in E; [injection E as _ <-; reflexivity|]. destruct (n_step _ _ _ _ _ _ _) as [[s' r]|]; [|discriminate E].
    destruct (n_play junk d ni ne dyn s' ops) as [[s'' h'']|] eqn:E2; [|discriminate E]. injection E as _ <-. cbn [map fst]. now rewrite (IH _ _ _ E2).
  Qed.
  Lemma snoc_fst {A B} (l : list (A * B)) a b : map fst l = a ++ [b] -> exists h r, l = h ++ [(b, r)] /\ map fst h = a.
  Proof.
    revert a. induction l as [|[x y] l IH]; intros a E; cbn [map fst] in E; [destruct a; discriminate E|]. destruct a as [|a0 a].
    - injection E as -> E. destruct l; [|discriminate E]. exists [], y. split; reflexivity.
    - injection E as -> E. destruct (IH a E) as (h & r & -> & M). exists ((a0, y) :: h), r. cbn. now rewrite M.
  Qed.
  Lemma built_run c ops (w w1 : world F) vs i n : w_run big low w (c :: ops) = FOk w1 vs -> concerns i n c = true -> built_by c (calls_of i n (c :: ops) vs).
  Proof. cbn [w_run]. intros E H. destruct (w_step big low w c) as [| |w2 v]; try discriminate E. destruct (w_run big low w2 ops) as [| |w3 vs3]; try discriminate E. injection E as _ <-. cbn [calls_of]. rewrite H. eexists _, _. reflexivity. Qed.
  Lemma run_cons_inv c ops (w w1 : world F) vs : w_run big low w (c :: ops) = FOk w1 vs -> exists w2 v vs2, w_run big low w2 ops = FOk w1 vs2 /\ vs = v :: vs2.
  Proof. cbn [w_run]. intros E. destruct (w_step big low w c) as [| |w2 v]; try discriminate E. destruct (w_run big low w2 ops) as [| |w3 vs3] eqn:E3; try discriminate E. injection E as <- <-. eauto. Qed.
End Ops.

From Coq Require Import QArith Qcanon.
From Verif Require Import Wit WitNL PropLMPC1 PropWorld4.
Local Open Scope nat_scope.
Definition r_ops : list (wop Qc) :=
  WNewL ex_d qj qej :: WNewN nd 2 1 false qj :: map (fun o => WL 0 o c_le) ex_ops ++ map (fun o => WN 1 o c_ne) n_ops ++ [WL 0 x14_a c_le; WN 1 n_opt_op c_ne; WGetStats 0].
Definition r_read (w : world Qc) (i : nat) : bool := match w_step big1 low1 w (WGetSequence i) with WOk _ (VSequence _) => true | _ => false end.
Lemma r_read_ok w i : r_read w i = true -> exists w1 sq, w_step big1 low1 w (WGetSequence i) = WOk w1 (VSequence sq).
Proof. unfold r_read. destruct (w_step big1 low1 w (WGetSequence i)) as [| |w1 v]; try (intros H; discriminate H). destruct v; try (intros H; discriminate H). eauto. Qed.
Lemma r_ok : match run w_init r_ops with FOk w _ => r_read w 0 && r_read w 1 | _ => false end = true. Proof. vm_compute. reflexivity. Qed.
Example C60_sequence_instance : copy_free r_ops /\ exists w vs, run w_init r_ops = FOk w vs /\
  (built_by (WNewN nd 2 1 false qj) (calls_of 1 0 r_ops vs) /\ exists h r w1 sq, n_calls (calls_of 1 0 r_ops vs) = h ++ [(n_opt_op, r)] /\ Forall (fun e => nop_sized nd (fst e)) h /\
     gm n_x0 (d_nx nd) 1 /\ scaled nd (ncfg_run nd 2 1 h) /\ w_step big1 low1 w (WGetSequence 1) = WOk w1 (VSequence sq)) /\
  (built_by (WNewL ex_d qj qej) (calls_of 0 0 r_ops vs) /\ exists h r w1 sq p, l_calls (calls_of 0 0 r_ops vs) = h ++ [(x14_a, r)] /\ Forall (fun e => op_sized ex_d (fst e) /\ op_proper (fst e)) h /\
     g_plant (cfg_run h) = Some p /\ w_step big1 low1 w (WGetSequence 0) = WOk w1 (VSequence sq)).
Proof.
  split. { unfold copy_free, r_ops. repeat (constructor; [reflexivity|]). repeat (apply Forall_app; split); repeat (constructor; [reflexivity|]); try constructor. }
  pose proof r_ok as K. destruct (run w_init r_ops) as [| |w vs] eqn:E; try discriminate K. apply andb_prop in K. destruct K as [K0 K1].
  assert (Cf : copy_free r_ops). { unfold copy_free, r_ops. repeat (constructor; [reflexivity|]). repeat (apply Forall_app; split); repeat (constructor; [reflexivity|]); try constructor. }
  destruct (r_read_ok _ _ K0) as (w0 & sq0 & R0). destruct (r_read_ok _ _ K1) as (w1 & sq1 & R1). clear K0 K1.
  destruct (calls_ops big1 low1 1 r_ops 0 _ _ _ E) as [N1 _]. destruct (calls_ops big1 low1 0 r_ops 0 _ _ _ E) as [_ L0].
  assert (B1 : built_by (WNewN nd 2 1 false qj) (calls_of 1 0 r_ops vs)).
  { unfold r_ops in E |- *. destruct (run_cons_inv _ _ _ _ _ _ _ E) as (w2 & v & vs2 & E2 & ->). cbn [calls_of concerns subject constructs Nat.eqb app]. exact (built_run _ _ _ _ _ _ _ 1 1 E2 eq_refl). }
  assert (B0 : built_by (WNewL ex_d qj qej) (calls_of 0 0 r_ops vs)) by (exact (built_run _ _ _ _ _ _ _ 0 0 E eq_refl)).
  assert (N1' : map fst (n_calls (calls_of 1 0 r_ops vs)) = n_ops ++ [n_opt_op]) by (rewrite N1; reflexivity).
  assert (L0' : map fst (l_calls (calls_of 0 0 r_ops vs)) = ex_ops ++ [x14_a]) by (rewrite L0; reflexivity).
  destruct (snoc_fst _ _ _ N1') as (h & r & Eh & Mh). destruct (snoc_fst _ _ _ L0') as (h0 & r0 & Eh0 & Mh0).
  exists w, vs. split; [reflexivity|]. split.
  - split; [exact B1|]. exists h, r, w1, sq1. refine (conj Eh (conj _ (conj _ (conj _ R1)))).
    + apply Forall_map. rewrite Mh. destruct n_ops_reached as (o & _ & _). all_sized.
    + repeat split.
    + assert (Hh : h = nH nd 2 1 n_ops).
      { destruct (C60_nonlinear_readings big1 low1 r_ops w vs 1 nd 2 1 false qj Cf E B1) as [Q _]. destruct (Q _ _ R1) as (s & P & _). rewrite Eh in P. unfold n_life in P.
        destruct (n_new nd) as [sn|] eqn:En; [|discriminate P]. destruct (n_play_last _ _ _ _ _ _ _ _ _ _ _ P eq_refl) as (s1 & P1 & _). rewrite Mh in P1. unfold nH, n_life. rewrite En, P1. reflexivity. }
      rewrite Hh. exact n_c_scaled.
  - split; [exact B0|]. exists h0, r0, w0, sq0, (wp (wH ex_d ex_ops)). refine (conj Eh0 (conj _ (conj _ R0))).
    + apply Forall_forall. intros e He. split; [apply (proj1 (Forall_forall (op_sized ex_d) ex_ops)); [all_sized|]|apply (proj1 (Forall_forall op_proper ex_ops)); [all_proper|]]; rewrite <- Mh0; now apply in_map.
    + assert (Hh : h0 = wH ex_d ex_ops).
      { destruct (C60_linear_readings big1 low1 r_ops w vs 0 ex_d qj qej Cf E B0) as [Q _]. destruct (Q _ _ R0) as (s & P & _). rewrite Eh0 in P.
        destruct (l_play_last _ _ _ _ _ _ _ _ _ P eq_refl) as (s1 & P1 & _). rewrite Mh0 in P1. unfold wH. rewrite P1. reflexivity. }
      rewrite Hh. apply w_plant. vm_compute. reflexivity.
Qed.
