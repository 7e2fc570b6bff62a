(** Properties C54, C55: uniqueness of the optimal command of the linear controller and its rest points, in one call and in closed loop. *)
From Coq Require Import Bool Arith ZArith List Lia QArith Qcanon Ring Field.
From Verif Require Import Scalar Sums Mat Slice Csc CscProof Builder BuilderEnt LMPC SpecLMPC SpecQP LMPCRef LQP LRows LUniq Wit PropLMPC1 PropLMPC2 PropLMPC3.
Import ListNotations.
Local Open Scope nat_scope.

(** *** Specification *)
Section Rest.
  Context {F : Type} {SO : ScalarOps F}.
  Variable d : dims.
  Notation nx := (d_nx d). Notation nu := (d_nu d). Notation ndu := (d_ndu d).
  Notation ny := (d_ny d). Notation ph := (d_ph d). Notation ch := (d_ch d).
  Definition weights_nonneg (c : cfg F) : Prop :=
    (forall k j, k < ph -> j < ny -> (s0 <= g_wy c k j)%S) /\
    (forall k j, k < ph -> j < nu -> (s0 <= g_wu c k j)%S) /\
    (forall k j, k < ph -> j < nu -> (s0 <= g_wdu c k j)%S).
  (** every free command has a positive weight, or its increment has *)
  Definition commands_weighted (c : cfg F) : Prop :=
    forall k j, k < ph -> j < nu -> (s0 < g_wu c k j)%S \/ (s0 < g_wdu c k j)%S \/ ch < k.
  (** the plant's next state, under the disturbance measured for step k *)
  Definition next_state (p : plant F) (c : cfg F) (k : nat) (x u : nat -> F) (j : nat) : F :=
    (ssum nx (fun l => pl_A p j l * x l) + ssum nu (fun l => pl_B p j l * u l) + ssum ndu (fun l => g_Bd c j l * g_d c k l))%S.
  (** the plant's output *)
  Definition out_now (p : plant F) (c : cfg F) (k : nat) (x : nat -> F) (j : nat) : F :=
    (ssum nx (fun l => pl_C p j l * x l) + ssum ndu (fun l => g_Dd c j l * g_d c k l))%S.
  (** (x,u) is an equilibrium that meets every reference that carries weight and every bound *)
  Definition rest_point (p : plant F) (c : cfg F) (x u : nat -> F) : Prop :=
    (forall k j, k < ph -> j < nx -> next_state p c k x u j = x j) /\
    (forall k j, k < ph -> j < ny -> g_wy c k j = s0 \/ out_now p c k x j = g_yr c k j) /\
    (forall k j, k < ph -> j < nu -> g_wu c k j = s0 \/ u j = g_ur c k j) /\
    (forall k j, k < ph -> j < nu -> g_wdu c k j = s0 \/ g_dur c (stp k) j = s0) /\
    (forall k j, k < ph -> j < nx -> within (g_xlo c k j) (g_xhi c k j) (x j)) /\
    (forall k j, k < ph -> j < nu -> within (g_ulo c k j) (g_uhi c k j) (u j)) /\
    (forall k j, k < ph -> j < ny -> within (g_ylo c k j) (g_yhi c k j) (out_now p c k x j)) /\
    (forall k, k < ph -> within (g_slo c k) (g_shi c k) (ssum nx (fun l => g_sX c l * x l) + ssum nu (fun l => g_sU c l * u l))%S).
End Rest.

(** [closed_loop n s x u s' x' u']: n times, optimize() is called with the measured state and the last command, the solver answers with an
    optimum of what it was given, and the returned command is applied to the plant *)
Section Loop.
  Context {F : Type} {SO : ScalarOps F}.
  Variables (junk : nat -> nat -> F) (ejunk : nat -> nat -> ext F) (d : dims) (p : plant F) (c : cfg F).
  Inductive closed_loop : nat -> lmpc F -> mat F -> mat F -> lmpc F -> mat F -> mat F -> Prop :=
  | cl_start s x u : closed_loop 0 s x u s x u
  | cl_next n s x u s1 x1 u1 z y code obj s2 res x2 :
      closed_loop n s x u s1 x1 u1 ->
      qp_optimal (l_call d s1 x1 u1) z ->
      l_step junk ejunk d s1 (LOptimize x1 u1 (ASolution z y code obj)) = Ok (s2, RResult res) ->
      sized x2 (d_nx d) 1 -> (forall j, j < d_nx d -> vec x2 j = next_state d p c 0 (vec x1) (vec (r_cmd res)) j) ->
      closed_loop (S n) s x u s2 x2 (r_cmd res).
End Loop.

Section Stmts.
  Context {F : Type} {SO : ScalarOps F} {SL : ScalarLaws F}.
  Add Field SFp4 : (@s_field F SO SL).
  Variables (junk : nat -> nat -> F) (ejunk : nat -> nat -> ext F) (d : dims).
  Notation nx := (d_nx d). Notation nu := (d_nu d). Notation ndu := (d_ndu d).
  Notation ny := (d_ny d). Notation ph := (d_ph d). Notation ch := (d_ch d).
  Notation reached := (SpecLMPC.reached junk ejunk d).
  Notation step := (l_step junk ejunk d).
  Implicit Types (s : lmpc F) (h : list (lop F * ret F)) (p : plant F) (z : nat -> F).

  (** *** C54 *)
  (** all optima of the problem handed to the solver describe the same trajectory *)
  Theorem C54_unique_optimum s h p x0 u0 z z' :
    0 < ph -> reached s h -> g_plant (cfg_run h) = Some p -> sized x0 nx 1 -> sized u0 nu 1 ->
    weights_nonneg d (cfg_run h) -> commands_weighted d (cfg_run h) ->
    qp_optimal (l_call d s x0 u0) z -> qp_optimal (l_call d s x0 u0) z' ->
    (forall k j, k < ph -> j < nu -> z_cmd d z k j = z_cmd d z' k j) /\
    (forall i j, i <= ph -> j < nx -> z_state d z i j = z_state d z' i j).
  Proof.
    intros P H Hp X U (Wy & Wu & Wd) W O O'.
    destruct (C15_optimality_transfer junk ejunk d s h p x0 u0 z P H Hp X U O) as [A Op].
    destruct (C15_optimality_transfer junk ejunk d s h p x0 u0 z' P H Hp X U O') as [A' Op'].
    exact (optimum_unique d p (cfg_run h) (vec x0) (vec u0) Wy Wu Wd P W _ _ _ _ A A' Op Op').
  Qed.
  (** so the results do not depend on which exact solver is used, or on its starting point *)
  Theorem C54_solver_independent s h p x0 u0 z y code obj s1 r1 z' y' code' obj' s2 r2 :
    0 < ph -> reached s h -> g_plant (cfg_run h) = Some p -> sized x0 nx 1 -> sized u0 nu 1 ->
    weights_nonneg d (cfg_run h) -> commands_weighted d (cfg_run h) ->
    qp_optimal (l_call d s x0 u0) z -> qp_optimal (l_call d s x0 u0) z' ->
    step s (LOptimize x0 u0 (ASolution z y code obj)) = Ok (s1, RResult r1) ->
    step s (LOptimize x0 u0 (ASolution z' y' code' obj')) = Ok (s2, RResult r2) ->
    (forall j, j < nu -> vec (r_cmd r1) j = vec (r_cmd r2) j) /\
    (forall i j, i <= ph -> j < nx -> ent (q_state (o_seq (l_o s1))) i j = ent (q_state (o_seq (l_o s2))) i j) /\
    (forall i j, i <= ph -> j < nu -> ent (q_input (o_seq (l_o s1))) i j = ent (q_input (o_seq (l_o s2))) i j) /\
    (forall i j, i <= ph -> j < ny -> ent (q_output (o_seq (l_o s1))) i j = ent (q_output (o_seq (l_o s2))) i j).
  Proof.
    intros P H Hp X U Wn W O O' E1 E2.
    destruct (C54_unique_optimum s h p x0 u0 z z' P H Hp X U Wn W O O') as [EU EX].
    destruct (C14_sequences junk ejunk d s h p x0 u0 z y code obj s1 _ P H Hp X U E1) as (res1 & Er1 & A1 & A2 & A3 & A4 & A5 & _).
    destruct (C14_sequences junk ejunk d s h p x0 u0 z' y' code' obj' s2 _ P H Hp X U E2) as (res2 & Er2 & B1 & B2 & B3 & B4 & B5 & _).
    injection Er1 as <-. injection Er2 as <-.
    assert (S1 : forall i j, i <= ph -> j < nx -> ent (q_state (o_seq (l_o s1))) i j = ent (q_state (o_seq (l_o s2))) i j) by (intros; rewrite A1, B1 by assumption; now apply EX).
    refine (conj _ (conj S1 (conj _ _))).
    - intros j Hj. rewrite A5, B5, A2, B2 by (assumption || lia). apply EU; [exact P|exact Hj].
    - intros i j Hi Hj. destruct (Nat.eq_dec i ph) as [->|N]; [rewrite A3, B3 by exact Hj|rewrite A2, B2 by (exact Hj || lia)]; apply EU; (exact Hj || lia).
    - intros i j Hi Hj. rewrite A4, B4 by assumption. unfold output. f_equal. apply ssum_ext. intros l Hl. now rewrite S1.
  Qed.

  (** *** C55 *)
  Lemma rest_trajectory p c x u : 0 < ph -> rest_point d p c x u ->
    admissible d p c x u (fun _ => x) (fun _ => u) /\ tracking_cost d p c u (fun _ => x) (fun _ => u) = s0.
  Proof.
    intros P (R1 & R2 & R3 & R4 & R5 & R6 & R7 & R8).
    assert (UC : forall i j, ucmd u (fun _ => u) i j = u j) by (intros [|i] j; reflexivity).
    assert (DC : forall i j, dcmd u (fun _ => u) i j = s0) by (intros i j; unfold dcmd; rewrite UC; ring).
    assert (SP : forall i, i <= ph -> stp i < ph) by (intros; unfold stp; lia).
    assert (Z : forall w a b : F, w = s0 \/ a = b -> (w * sq (a - b))%S = s0) by (intros w a b [-> | ->]; unfold sq; ring).
    split.
    - refine (conj (conj _ _) (conj _ (conj _ (conj _ (conj _ _))))).
      + reflexivity.
      + intros k j Hk Hj. symmetry. exact (R1 k j Hk Hj).
      + intros i j Hi Hj. apply R5; [now apply SP|exact Hj].
      + intros i j Hi Hj. exact (R7 (stp i) j (SP i Hi) Hj).
      + intros i j Hi Hj. rewrite UC. apply R6; [lia|exact Hj].
      + intros i j _ _ _. now rewrite UC.
      + intros i Hi. rewrite (ssum_ext nu _ (fun l => (g_sU c l * u l)%S)) by (intros l Hl; now rewrite UC). exact (R8 (stp i) (SP i Hi)).
    - unfold tracking_cost. rewrite (ssum_zero (ph + 1)), (ssum_zero (ph + 1)), (ssum_zero ph); [ring| | |].
      + intros i Hi. apply ssum_zero. intros j Hj. rewrite DC. apply Z. destruct (R4 i j Hi Hj) as [->| ->]; auto.
      + intros i Hi. apply ssum_zero. intros j Hj. rewrite UC. apply Z. apply R3; [apply SP; lia|exact Hj].
      + intros i Hi. apply ssum_zero. intros j Hj. apply Z. destruct (R2 (stp i) j ltac:(apply SP; lia) Hj) as [E|E]; auto.
  Qed.
  (** staying there is optimal *)
  Theorem C55_rest_is_optimal s h p x0 u0 :
    0 < ph -> reached s h -> g_plant (cfg_run h) = Some p -> sized x0 nx 1 -> sized u0 nu 1 -> weights_nonneg d (cfg_run h) ->
    rest_point d p (cfg_run h) (vec x0) (vec u0) ->
    qp_optimal (l_call d s x0 u0) (z_of d (vec u0) (fun _ => vec x0) (fun _ => vec u0)).
  Proof.
    intros P H Hp X U (Wy & Wu & Wd) R. destruct (rest_trajectory p _ _ _ P R) as [A Z0].
    apply (C15_converse junk ejunk d s h p x0 u0 _ _ P H Hp X U A). intros x u _. rewrite Z0. now apply cost_nonneg.
  Qed.
  (** at a rest point the optimal command is the present one, and the predicted trajectory stays *)
  Theorem C55_rest_point_kept s h p x0 u0 z :
    0 < ph -> reached s h -> g_plant (cfg_run h) = Some p -> sized x0 nx 1 -> sized u0 nu 1 ->
    weights_nonneg d (cfg_run h) -> commands_weighted d (cfg_run h) ->
    rest_point d p (cfg_run h) (vec x0) (vec u0) -> qp_optimal (l_call d s x0 u0) z ->
    (forall k j, k < ph -> j < nu -> z_cmd d z k j = vec u0 j) /\
    (forall i j, i <= ph -> j < nx -> z_state d z i j = vec x0 j).
  Proof.
    intros P H Hp X U (Wy & Wu & Wd) W R O. destruct (rest_trajectory p _ _ _ P R) as [A Z0].
    destruct (C15_optimality_transfer junk ejunk d s h p x0 u0 z P H Hp X U O) as [A' Op'].
    refine (optimum_unique d p (cfg_run h) (vec x0) (vec u0) Wy Wu Wd P W _ _ _ _ A' A Op' _).
    intros y v _. rewrite Z0. now apply cost_nonneg.
  Qed.
  (** even without positive weights on the commands, the optimal cost is zero: every weighted deviation vanishes *)
  Theorem C55_rest_cost_zero s h p x0 u0 z :
    0 < ph -> reached s h -> g_plant (cfg_run h) = Some p -> sized x0 nx 1 -> sized u0 nu 1 -> weights_nonneg d (cfg_run h) ->
    rest_point d p (cfg_run h) (vec x0) (vec u0) -> qp_optimal (l_call d s x0 u0) z ->
    tracking_cost d p (cfg_run h) (vec u0) (z_state d z) (z_cmd d z) = s0.
  Proof.
    intros P H Hp X U (Wy & Wu & Wd) R O. destruct (rest_trajectory p _ _ _ P R) as [A Z0].
    destruct (C15_optimality_transfer junk ejunk d s h p x0 u0 z P H Hp X U O) as [_ Op]. specialize (Op _ _ A). rewrite Z0 in Op.
    apply sle_antisym; [exact Op|now apply cost_nonneg].
  Qed.
  Lemma rest_ext p c x u x' u' : (forall j, j < nx -> x j = x' j) -> (forall j, j < nu -> u j = u' j) -> rest_point d p c x u -> rest_point d p c x' u'.
  Proof.
    intros EX EU (R1 & R2 & R3 & R4 & R5 & R6 & R7 & R8).
    assert (N : forall k j, next_state d p c k x' u' j = next_state d p c k x u j).
    { intros k j. unfold next_state. f_equal. f_equal; apply ssum_ext; intros l Hl; [rewrite EX|rewrite EU]; auto. }
    assert (Y : forall k j, out_now d p c k x' j = out_now d p c k x j).
    { intros k j. unfold out_now. f_equal. apply ssum_ext; intros l Hl. rewrite EX; auto. }
    refine (conj _ (conj _ (conj _ (conj R4 (conj _ (conj _ (conj _ _)))))));
      try (intros k j Hk Hj; rewrite ?N, ?Y, <- ?EX, <- ?EU by exact Hj; auto).
    intros k Hk. rewrite (ssum_ext nx _ (fun l => (g_sX c l * x l)%S)) by (intros; now rewrite EX). rewrite (ssum_ext nu _ (fun l => (g_sU c l * u l)%S)) by (intros; now rewrite EU). auto.
  Qed.
  (** in closed loop: started at a rest point, the controller keeps the plant there for ever *)
  Theorem C55_closed_loop_at_rest n s h p x0 u0 s' x' u' :
    0 < ph -> reached s h -> g_plant (cfg_run h) = Some p -> sized x0 nx 1 -> sized u0 nu 1 ->
    weights_nonneg d (cfg_run h) -> commands_weighted d (cfg_run h) ->
    rest_point d p (cfg_run h) (vec x0) (vec u0) ->
    closed_loop junk ejunk d p (cfg_run h) n s x0 u0 s' x' u' ->
    (forall j, j < nu -> vec u' j = vec u0 j) /\ (forall j, j < nx -> vec x' j = vec x0 j).
  Proof.
    intros P H Hp X U Wn W R CL.
    assert (G : exists h', reached s' h' /\ cfg_run h' = cfg_run h /\ sized x' nx 1 /\ sized u' nu 1 /\
      (forall j, j < nu -> vec u' j = vec u0 j) /\ (forall j, j < nx -> vec x' j = vec x0 j)); [|destruct G as (h' & _ & _ & _ & _ & G1 & G2); auto].
    induction CL as [s x u|n s x u s1 x1 u1 z y code obj s2 res x2 CL IH O E X2 EN].
    - exists h. auto 10.
    - destruct (IH H X U R) as (h1 & H1 & C1 & X1 & U1 & EU & EX).
      assert (R1 : rest_point d p (cfg_run h1) (vec x1) (vec u1)) by (rewrite C1; eapply rest_ext; [| |exact R]; intros; symmetry; auto).
      assert (Hp1 : g_plant (cfg_run h1) = Some p) by (rewrite C1; exact Hp).
      rewrite <- C1 in Wn, W.
      destruct (C55_rest_point_kept s1 h1 p x1 u1 z P H1 Hp1 X1 U1 Wn W R1 O) as [ZU _].
      destruct (C14_sequences junk ejunk d s1 h1 p x1 u1 z y code obj s2 _ P H1 Hp1 X1 U1 E) as (res1 & Er1 & A1 & A2 & A3 & A4 & A5 & _). injection Er1 as <-.
      assert (EC : forall j, j < nu -> vec (r_cmd res) j = vec u1 j) by (intros j Hj; rewrite A5, A2 by (assumption || lia); apply ZU; [exact P|exact Hj]).
      pose proof (reached_snoc junk ejunk d s1 h1 _ s2 _ H1 (conj X1 U1 : op_sized d (LOptimize x1 u1 (ASolution z y code obj))) I E) as H2.
      exists (h1 ++ [(LOptimize x1 u1 (ASolution z y code obj), RResult res)]).
      refine (conj H2 (conj _ (conj X2 (conj _ (conj _ _))))).
      + rewrite cfg_run_snoc. exact C1.
      + destruct (opt_ok junk ejunk d s1 x1 u1 z y code obj s2 _ E) as [Es Er]. injection Er as Er.
        pose proof (reached_R _ _ _ _ _ P H2) as HR. destruct (ro_seq _ _ _ (r_o _ _ _ _ _ HR)) as (_ & _ & _ & Q4). rewrite Er. exact Q4.
      + intros j Hj. rewrite EC by exact Hj. auto.
      + intros j Hj. rewrite EN by exact Hj.
        assert (EQ : next_state d p (cfg_run h) 0 (vec x1) (vec (r_cmd res)) j = next_state d p (cfg_run h) 0 (vec x) (vec u) j).
        { unfold next_state. f_equal. f_equal; apply ssum_ext; intros l Hl; [rewrite EX by exact Hl|rewrite EC, EU by exact Hl]; reflexivity. }
        rewrite EQ. destruct R as (R0 & _). apply R0; [exact P|exact Hj].
  Qed.
End Stmts.

(** *** Instances *)
(** plant x' = x + u + 1, y = x + 1, reference 3: the rest point is x = 2, u = -1 *)
Local Notation one := (qm 1 1 [[1%Z]]).
Definition r_ops : list (lop Qc) :=
  [ LSetModel one one one; LSetDisturbances one one;
    LSetStateBounds (qe [-9]%Z) (qe [9]%Z) slice_all; LSetOutputBounds (qe [-9]%Z) (qe [9]%Z) (mkSlice 0 1);
    LSetInputBoundsMat (qme 1 2 [[-4; -5]]%Z) (qme 1 2 [[4; 5]]%Z);
    LSetScalar (Fin (q (-20))) (Fin (q 20)) (qv [1]%Z) (qv [1]%Z) slice_all;
    LSetWeights (qv [1]%Z) (qv [0]%Z) (qv [1]%Z) slice_all;
    LSetRefs (qv [3]%Z) (qv [5]%Z) (qv [0]%Z) slice_all; LSetExo (qv [1]%Z) slice_all ].
Definition r_h := wH ex_d r_ops.
Definition r_s := wS ex_d r_ops.
Local Notation r_c := (cfg_run r_h).
Lemma r_reached : reached qj qej ex_d r_s r_h. Proof. w_reach. Qed.
Lemma r_plant : g_plant r_c = Some (wp r_h). Proof. apply w_plant. vm_compute. reflexivity. Qed.
Lemma qc_eq (a b : Qc) : sleb a b && sleb b a = true -> a = b.
Proof. intros H. apply andb_true_iff in H as [H1 H2]. now apply s_le_antisym. Qed.
Ltac two_steps k Hk := destruct k as [|[|k]]; [| |cbn in Hk; lia].
Ltac one_row j Hj := destruct j as [|j]; [|cbn in Hj; lia].
Lemma r_weights : weights_nonneg ex_d r_c.
Proof. refine (conj _ (conj _ _)); intros k j Hk Hj; two_steps k Hk; one_row j Hj; vm_compute; reflexivity. Qed.
Lemma r_weighted : commands_weighted ex_d r_c.
Proof. intros k j Hk Hj. right; left. two_steps k Hk; one_row j Hj; vm_compute; reflexivity. Qed.
Lemma r_rest : rest_point ex_d (wp r_h) r_c (vec (qv [2]%Z)) (vec (qv [-1]%Z)).
Proof.
  refine (conj _ (conj _ (conj _ (conj _ (conj _ (conj _ (conj _ _))))))).
  - intros k j Hk Hj; two_steps k Hk; one_row j Hj; apply qc_eq; vm_compute; reflexivity.
  - intros k j Hk Hj; right; two_steps k Hk; one_row j Hj; apply qc_eq; vm_compute; reflexivity.
  - intros k j Hk Hj; left; two_steps k Hk; one_row j Hj; apply qc_eq; vm_compute; reflexivity.
  - intros k j Hk Hj; right; two_steps k Hk; one_row j Hj; apply qc_eq; vm_compute; reflexivity.
  - intros k j Hk Hj; two_steps k Hk; one_row j Hj; apply within_b_ok; vm_compute; reflexivity.
  - intros k j Hk Hj; two_steps k Hk; one_row j Hj; apply within_b_ok; vm_compute; reflexivity.
  - intros k j Hk Hj; two_steps k Hk; one_row j Hj; apply within_b_ok; vm_compute; reflexivity.
  - intros k Hk; two_steps k Hk; apply within_b_ok; vm_compute; reflexivity.
Qed.
Definition r_z : nat -> Qc := z_of ex_d (vec (qv [-1]%Z)) (fun _ => vec (qv [2]%Z)) (fun _ => vec (qv [-1]%Z)).
Lemma r_optimal : qp_optimal (l_call ex_d r_s (qv [2]%Z) (qv [-1]%Z)) r_z.
Proof.
  exact (C55_rest_is_optimal qj qej ex_d r_s r_h (wp r_h) (qv [2]%Z) (qv [-1]%Z) ltac:(cbn; lia) r_reached r_plant ltac:(repeat split) ltac:(repeat split) r_weights r_rest).
Qed.
Example C54_C55_instance : 0 < d_ph ex_d /\ reached qj qej ex_d r_s r_h /\ g_plant r_c = Some (wp r_h) /\ weights_nonneg ex_d r_c /\ commands_weighted ex_d r_c /\
  rest_point ex_d (wp r_h) r_c (vec (qv [2]%Z)) (vec (qv [-1]%Z)) /\ qp_optimal (l_call ex_d r_s (qv [2]%Z) (qv [-1]%Z)) r_z /\
  exists s' u', closed_loop qj qej ex_d (wp r_h) r_c 1 r_s (qv [2]%Z) (qv [-1]%Z) s' (qv [2]%Z) u'.
Proof.
  refine (conj _ (conj r_reached (conj r_plant (conj r_weights (conj r_weighted (conj r_rest (conj r_optimal _))))))); [cbn; lia|].
  assert (E : match l_step qj qej ex_d r_s (LOptimize (qv [2]%Z) (qv [-1]%Z) (ASolution r_z (fun _ => q 0) 1 (Fin (q 0)))) with
              | Ok (_, RResult r) => sleb (ent (r_cmd r) 0 0) (q (-1)) && sleb (q (-1)) (ent (r_cmd r) 0 0) | _ => false end = true) by (vm_compute; reflexivity).
  destruct (l_step _ _ _ _ _) as [[s2 []]|] eqn:ES; try discriminate E. rename r into res. apply qc_eq in E.
  exists s2, (r_cmd res). refine (cl_next qj qej ex_d (wp r_h) r_c 0 _ _ _ r_s (qv [2]%Z) (qv [-1]%Z) r_z _ 1%Z _ s2 res _ (cl_start _ _ _ _ _ _ _ _) r_optimal ES _ _); [repeat split|].
  intros j Hj. one_row j Hj. unfold next_state. cbn [d_nu ex_d ssum]. unfold vec at 3. rewrite E. apply qc_eq. vm_compute. reflexivity.
Qed.
(** the weights are needed: without any, commands that differ are both optimal *)
Definition w0_ops : list (lop Qc) := [LSetModel one one one].
Theorem C54_weights_needed :
  ~ (forall d s h p (x0 u0 : mat Qc) z z', 0 < d_ph d -> reached qj qej d s h -> g_plant (cfg_run h) = Some p -> sized x0 (d_nx d) 1 -> sized u0 (d_nu d) 1 ->
       weights_nonneg d (cfg_run h) -> qp_optimal (l_call d s x0 u0) z -> qp_optimal (l_call d s x0 u0) z' ->
       forall k j, k < d_ph d -> j < d_nu d -> z_cmd d z k j = z_cmd d z' k j).
Proof.
  assert (P : 0 < d_ph ex_d) by (cbn; lia).
  assert (Rc : reached qj qej ex_d (wS ex_d w0_ops) (wH ex_d w0_ops)) by w_reach.
  assert (Hp : g_plant (cfg_run (wH ex_d w0_ops)) = Some (wp (wH ex_d w0_ops))) by (apply w_plant; vm_compute; reflexivity).
  assert (O : forall u1, qp_feasible (l_call ex_d (wS ex_d w0_ops) (qv [0]%Z) (qv [0]%Z)) (z_of ex_d (qf [0]%Z) (fun i _ => qf [0; u1; u1]%Z i) (fun i _ => qf [u1; 0]%Z i)) ->
     qp_optimal (l_call ex_d (wS ex_d w0_ops) (qv [0]%Z) (qv [0]%Z)) (z_of ex_d (qf [0]%Z) (fun i _ => qf [0; u1; u1]%Z i) (fun i _ => qf [u1; 0]%Z i))).
  { intros u1 HF. split; [exact HF|]. intros z' HF'.
    destruct (C02_cost_is_tracking_cost qj qej ex_d _ _ _ (qv [0]%Z) (qv [0]%Z) P Rc Hp ltac:(repeat split) ltac:(repeat split)) as [K HK].
    assert (Z : forall z, qp_feasible (l_call ex_d (wS ex_d w0_ops) (qv [0]%Z) (qv [0]%Z)) z -> sadd (smul s2 (qp_cost (l_call ex_d (wS ex_d w0_ops) (qv [0]%Z) (qv [0]%Z)) z)) K = s0).
    { intros z Hz. apply (C01_feasible_iff_admissible qj qej ex_d _ _ _ (qv [0]%Z) (qv [0]%Z) z P Rc Hp ltac:(repeat split) ltac:(repeat split)) in Hz as [_ T].
      rewrite HK by exact T. unfold tracking_cost.
      assert (M : forall a b : Qc, a = s0 -> (a * sq b)%S = s0) by (intros a b ->; apply (@Qcmult_0_l)).
      assert (W0 : forall k j, g_wy (cfg_run (wH ex_d w0_ops)) k j = s0 /\ g_wu (cfg_run (wH ex_d w0_ops)) k j = s0 /\ g_wdu (cfg_run (wH ex_d w0_ops)) k j = s0)
        by (intros k j; refine (conj _ (conj _ _)); vm_compute; reflexivity).
      rewrite (ssum_zero (d_ph ex_d + 1)), (ssum_zero (d_ph ex_d + 1)), (ssum_zero (d_ph ex_d)); [apply qc_eq; vm_compute; reflexivity| | |];
        intros i _; apply ssum_zero; intros j _; apply M; apply W0. }
    pose proof (Z _ HF) as Z1. pose proof (Z _ HF') as Z2. rewrite <- Z2 in Z1. apply le_half. apply (sle_add_cancel _ _ K). rewrite Z1. apply sle_refl. }
  intros H.
  specialize (H ex_d (wS ex_d w0_ops) (wH ex_d w0_ops) (wp (wH ex_d w0_ops)) (qv [0]%Z) (qv [0]%Z)
    (z_of ex_d (qf [0]%Z) (fun i _ => qf [0; 0; 0]%Z i) (fun i _ => qf [0; 0]%Z i)) (z_of ex_d (qf [0]%Z) (fun i _ => qf [0; 1; 1]%Z i) (fun i _ => qf [1; 0]%Z i)) P Rc Hp ltac:(repeat split) ltac:(repeat split)).
  assert (HF : forall u1, In u1 [0%Z; 1%Z] -> qp_feasible (l_call ex_d (wS ex_d w0_ops) (qv [0]%Z) (qv [0]%Z)) (z_of ex_d (qf [0]%Z) (fun i _ => qf [0; u1; u1]%Z i) (fun i _ => qf [u1; 0]%Z i))).
  { intros u1 [<-|[<-|[]]]; apply feasible_b_ok; vm_compute; reflexivity. }
  assert (WN : weights_nonneg ex_d (cfg_run (wH ex_d w0_ops))) by (refine (conj _ (conj _ _)); intros k j Hk Hj; two_steps k Hk; one_row j Hj; vm_compute; reflexivity).
  specialize (H WN (O 0%Z (HF 0%Z (or_introl eq_refl))) (O 1%Z (HF 1%Z (or_intror (or_introl eq_refl)))) 0 0 P ltac:(cbn; lia)).
  apply (f_equal (fun a => sleb (q 1) a)) in H. vm_compute in H. discriminate H.
Qed.
