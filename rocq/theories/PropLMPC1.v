(** Properties C01 - C08, C15, C44, C45: the quadratic program handed to the solver by optimize() is the
    configured optimal control problem.  [reached] (SpecLMPC.v): any history of API calls.
    [cfg_run h] (SpecLMPC.v): the configuration, last accepted writer wins.  [l_call d s x0 u0]: the data
    the code hands to the solver; their meaning is in SpecQP.v. *)
From Coq Require Import Bool Arith ZArith List Lia QArith Qcanon.
From Verif Require Import Scalar Sums Mat Slice Csc CscProof Builder LMPC SpecLMPC SpecQP LMPCRef LQP LRows Wit.
Import ListNotations.
Local Open Scope nat_scope.

Section Stmts.
  Context {F : Type} {SO : ScalarOps F} {SL : ScalarLaws F}.
  Add Field SFp : (@s_field F SO SL).
  Implicit Types (junk : nat -> nat -> F) (ejunk : nat -> nat -> ext F) (d : dims) (s : lmpc F)
    (h : list (lop F * ret F)) (p : plant F) (z : nat -> F).

  Lemma reached_R junk ejunk d s h : 0 < d_ph d -> reached junk ejunk d s h -> R junk ejunk d s (cfg_run h).
  Proof. intros P (ops & H1 & H2 & H3). eapply l_reach_R; eassumption. Qed.

  (** C01: the equality rows hold iff the decision vector is a trajectory of the configured plant (with measured
      disturbance) from x0 with previous command u0. *)
  Theorem C01_equality_rows_are_the_dynamics junk ejunk d s h p x0 u0 z :
    0 < d_ph d -> reached junk ejunk d s h -> g_plant (cfg_run h) = Some p ->
    sized x0 (d_nx d) 1 -> sized u0 (d_nu d) 1 ->
    (forall r, r < (d_ph d + 1) * (d_nu d + d_nx d) -> row_holds (l_call d s x0 u0) r z) <->
    trajectory d p (cfg_run h) (vec x0) (z_state d z) (z_cmd d z) /\ z_tail d (vec u0) z.
  Proof. intros P H. pose proof (reached_R _ _ _ _ _ P H). intros. eapply eq_rows_iff; eassumption. Qed.

  (** the complete program: all rows hold iff the trajectory is admissible *)
  Theorem C01_feasible_iff_admissible junk ejunk d s h p x0 u0 z :
    0 < d_ph d -> reached junk ejunk d s h -> g_plant (cfg_run h) = Some p ->
    sized x0 (d_nx d) 1 -> sized u0 (d_nu d) 1 ->
    qp_feasible (l_call d s x0 u0) z <->
    admissible d p (cfg_run h) (vec x0) (vec u0) (z_state d z) (z_cmd d z) /\ z_tail d (vec u0) z.
  Proof. intros P H. pose proof (reached_R _ _ _ _ _ P H). intros. rewrite z_tail_iff. eapply qp_feasible_iff; eassumption. Qed.

  (** and every admissible trajectory is represented *)
  Theorem C01_admissible_represented junk ejunk d s h p x0 u0 x u :
    0 < d_ph d -> reached junk ejunk d s h -> g_plant (cfg_run h) = Some p ->
    sized x0 (d_nx d) 1 -> sized u0 (d_nu d) 1 ->
    admissible d p (cfg_run h) (vec x0) (vec u0) x u ->
    qp_feasible (l_call d s x0 u0) (z_of d (vec u0) x u) /\
    (forall i j, i <= d_ph d -> j < d_nx d -> z_state d (z_of d (vec u0) x u) i j = x i j) /\
    (forall i j, i < d_ph d -> j < d_nu d -> z_cmd d (z_of d (vec u0) x u) i j = u i j).
  Proof.
    intros P H. pose proof (reached_R _ _ _ _ _ P H). intros. split; [eapply z_of_feasible; eassumption|].
    split; intros; [apply z_of_x|apply z_of_u]; try assumption; lia.
  Qed.

  (** C02: twice the objective plus a constant independent of z is the tracking cost of the trajectory *)
  Theorem C02_cost_is_tracking_cost junk ejunk d s h p x0 u0 :
    0 < d_ph d -> reached junk ejunk d s h -> g_plant (cfg_run h) = Some p ->
    sized x0 (d_nx d) 1 -> sized u0 (d_nu d) 1 ->
    exists K : F, forall z, z_tail d (vec u0) z ->
      sadd (smul s2 (qp_cost (l_call d s x0 u0) z)) K =
      tracking_cost d p (cfg_run h) (vec u0) (z_state d z) (z_cmd d z).
  Proof.
    intros P H. pose proof (reached_R _ _ _ _ _ P H). intros Hp X U. exists (cost_const d (cfg_run h)). intros z Hz.
    apply z_tail_iff in Hz. erewrite <- qp_cost2_tracking by eassumption. f_equal. unfold qp_cost.
    field. apply s2_neq_0.
  Qed.

  (** C03 *)
  Theorem C03_cost_matrix_symmetric junk ejunk d s h x0 u0 :
    0 < d_ph d -> reached junk ejunk d s h -> sized x0 (d_nx d) 1 -> sized u0 (d_nu d) 1 ->
    (* the dense matrix the code assembles, whose upper triangle is handed over, is symmetric: reading the
       lower triangle from the upper one is the matrix itself *)
    let M := pP (b_prob (l_built d s x0 u0)) in
    (forall i j, i < cl_n (l_call d s x0 u0) -> j < cl_n (l_call d s x0 u0) -> ent M i j = ent M j i) /\
    (forall i j, i < cl_n (l_call d s x0 u0) -> j < cl_n (l_call d s x0 u0) -> qp_P (l_call d s x0 u0) i j = ent M i j).
  Proof.
    intros P H X U M. pose proof (reached_R _ _ _ _ _ P H) as HR.
    destruct (cl_dims junk ejunk d P s _ x0 u0 HR X U) as [-> _]. split; intros.
    - eapply P_sym_ent; eassumption.
    - eapply qp_P_eq; eassumption.
  Qed.
  Theorem C03_convex_for_nonnegative_weights junk ejunk d s h x0 u0 :
    0 < d_ph d -> reached junk ejunk d s h ->
    sized x0 (d_nx d) 1 -> sized u0 (d_nu d) 1 ->
    (forall k j, k < d_ph d -> j < d_ny d -> (s0 <= g_wy (cfg_run h) k j)%S) ->
    (forall k j, k < d_ph d -> j < d_nu d -> (s0 <= g_wu (cfg_run h) k j)%S) ->
    (forall k j, k < d_ph d -> j < d_nu d -> (s0 <= g_wdu (cfg_run h) k j)%S) ->
    forall z, (s0 <= quad_form (l_call d s x0 u0) z)%S.
  Proof.
    intros P H. pose proof (reached_R _ _ _ _ _ P H) as HR. intros X U HY HU HD. unfold quad_form.
    apply (qp_P_psd junk ejunk d P s (cfg_run h) x0 u0 HR X U).
    - intros i j Hi Hj. apply HY; unfold stp; lia.
    - intros i j Hi Hj. apply HU; unfold stp; lia.
    - exact HD.
  Qed.
  Theorem C03_negative_increment_weight_not_convex junk ejunk d s h x0 u0 k j :
    0 < d_ph d -> reached junk ejunk d s h ->
    sized x0 (d_nx d) 1 -> sized u0 (d_nu d) 1 ->
    k < d_ph d -> j < d_nu d -> (g_wdu (cfg_run h) k j < s0)%S ->
    exists z, (quad_form (l_call d s x0 u0) z < s0)%S.
  Proof.
    intros P H. pose proof (reached_R _ _ _ _ _ P H) as HR. intros X U Hk Hj Hw.
    eexists. eapply quad_form_neg; eassumption.
  Qed.

  (** C04: the state rows (row block ph+1 .. 2ph+1, first nx of each) hold iff every predicted state obeys its bounds *)
  Theorem C04_state_bound_rows junk ejunk d s h x0 u0 z :
    0 < d_ph d -> reached junk ejunk d s h ->
    sized x0 (d_nx d) 1 -> sized u0 (d_nu d) 1 ->
    let w := d_nu d + d_nx d in
    (forall i j, i <= d_ph d -> j < d_nx d -> row_holds (l_call d s x0 u0) ((d_ph d + 1) * w + (i * w + j)) z) <->
    (forall k j, k < d_ph d -> j < d_nx d ->
       within (g_xlo (cfg_run h) k j) (g_xhi (cfg_run h) k j) (z_state d z (k + 1) j)) /\
    (forall j, j < d_nx d -> within (g_xlo (cfg_run h) 0 j) (g_xhi (cfg_run h) 0 j) (z_state d z 0 j)).
  Proof.
    intros P H. pose proof (reached_R _ _ _ _ _ P H) as HR. intros X U w. unfold w.
    rewrite (state_rows_iff junk ejunk d P s (cfg_run h) x0 u0 HR X U z). unfold state_ok, stp.
    split.
    - intros HS. split.
      + intros k j Hk Hj. specialize (HS (k + 1) j ltac:(lia) Hj). replace (Nat.pred (k + 1)) with k in HS by lia. exact HS.
      + intros j Hj. exact (HS 0 j ltac:(lia) Hj).
    - intros [H1 H2] i j Hi Hj. destruct i as [|i]; [apply H2, Hj|].
      specialize (H1 i j ltac:(lia) Hj). replace (i + 1) with (S i) in H1 by lia. exact H1.
  Qed.

  (** C05 *)
  Theorem C05_output_bound_rows junk ejunk d s h p x0 u0 z :
    0 < d_ph d -> reached junk ejunk d s h -> g_plant (cfg_run h) = Some p ->
    sized x0 (d_nx d) 1 -> sized u0 (d_nu d) 1 ->
    let w := d_nu d + d_nx d in let c := cfg_run h in
    let y i j := (ssum (d_nx d) (fun l => pl_C p j l * z_state d z i l)
                  + ssum (d_ndu d) (fun l => g_Dd c j l * g_d c (i - 1) l))%S in
    (forall i j, i <= d_ph d -> j < d_ny d ->
       row_holds (l_call d s x0 u0) ((d_ph d + 1) * w + ((d_ph d + 1) * w + (i * d_ny d + j))) z) <->
    (forall i j, i <= d_ph d -> j < d_ny d -> within (g_ylo c (i - 1) j) (g_yhi c (i - 1) j) (y i j)).
  Proof.
    intros P H. pose proof (reached_R _ _ _ _ _ P H) as HR. intros Hp X U w c y. unfold w.
    rewrite (output_rows_iff junk ejunk d P s (cfg_run h) p x0 u0 HR Hp X U z). unfold output_ok, output, stp.
    unfold y, c. split; intros HS i j Hi Hj; specialize (HS i j Hi Hj).
    - rewrite Nat.sub_1_r. exact HS.
    - rewrite Nat.sub_1_r in HS. exact HS.
  Qed.

  (** C06: what the input rows impose: the bounds of step k constrain the command of step k-1 (the previous
      command for k = 0); the last command is constrained by the last step's bounds. *)
  Theorem C06_input_bound_rows junk ejunk d s h x0 u0 z :
    0 < d_ph d -> reached junk ejunk d s h ->
    sized x0 (d_nx d) 1 -> sized u0 (d_nu d) 1 -> z_tail d (vec u0) z ->
    let w := d_nu d + d_nx d in let c := cfg_run h in
    (forall i j, i <= d_ph d -> j < d_nu d ->
       row_holds (l_call d s x0 u0) ((d_ph d + 1) * w + (i * w + (d_nx d + j))) z) <->
    (forall j, j < d_nu d -> within (g_ulo c 0 j) (g_uhi c 0 j) (vec u0 j)) /\
    (forall k j, k + 1 < d_ph d -> j < d_nu d -> within (g_ulo c (k + 1) j) (g_uhi c (k + 1) j) (z_cmd d z k j)) /\
    (forall j, j < d_nu d -> within (g_ulo c (d_ph d - 1) j) (g_uhi c (d_ph d - 1) j) (z_cmd d z (d_ph d - 1) j)).
  Proof.
    intros P H. pose proof (reached_R _ _ _ _ _ P H) as HR. intros X U HZ w c. unfold w, c.
    rewrite (input_rows_iff junk ejunk d P s (cfg_run h) x0 u0 HR X U z HZ). unfold input_ok. split.
    - intros HS. refine (conj _ (conj _ _)).
      + intros j Hj. exact (HS 0 j ltac:(lia) Hj).
      + intros k j Hk Hj. specialize (HS (S k) j ltac:(lia) Hj). rewrite Nat.min_l in HS by lia.
        rewrite Nat.add_1_r. exact HS.
      + intros j Hj. specialize (HS (S (d_ph d - 1)) j ltac:(lia) Hj). rewrite Nat.min_r in HS by lia. exact HS.
    - intros (H1 & H2 & H3) i j Hi Hj. destruct i as [|i].
      + rewrite Nat.min_0_l. apply H1, Hj.
      + cbn [ucmd]. destruct (Nat.lt_ge_cases (S i) (d_ph d)).
        * rewrite Nat.min_l by lia. rewrite <- Nat.add_1_r. apply H2; [lia|exact Hj].
        * rewrite Nat.min_r by lia. replace i with (d_ph d - 1) by lia. apply H3, Hj.
  Qed.
  (** consequently, when the same bounds hold at every step, every feasible command sequence respects them *)
  Theorem C06_uniform_bounds_hold junk ejunk d s h p x0 u0 z (lo hi : nat -> ext F) :
    0 < d_ph d -> reached junk ejunk d s h -> g_plant (cfg_run h) = Some p ->
    sized x0 (d_nx d) 1 -> sized u0 (d_nu d) 1 ->
    (forall k j, k < d_ph d -> j < d_nu d -> g_ulo (cfg_run h) k j = lo j /\ g_uhi (cfg_run h) k j = hi j) ->
    qp_feasible (l_call d s x0 u0) z ->
    (forall k j, k < d_ph d -> j < d_nu d -> within (lo j) (hi j) (z_cmd d z k j)) /\
    (forall j, j < d_nu d -> within (lo j) (hi j) (vec u0 j)).
  Proof.
    intros P H Hp X U HU HF.
    apply (C01_feasible_iff_admissible _ _ _ _ _ _ _ _ _ P H Hp X U) in HF. destruct HF as [(_ & _ & _ & HI & _) _].
    split; intros.
    - specialize (HI (S k) j ltac:(lia) ltac:(assumption)). destruct (HU (Nat.min (S k) (d_ph d - 1)) j) as [E1 E2]; [lia|assumption|].
      rewrite E1, E2 in HI. exact HI.
    - specialize (HI 0 j ltac:(lia) ltac:(assumption)). destruct (HU 0 j) as [E1 E2]; [lia|assumption|].
      rewrite Nat.min_0_l, E1, E2 in HI. exact HI.
  Qed.

  (** C07: what the increment rows impose: commands are frozen from step ch on (not ch-1). *)
  Theorem C07_increment_rows junk ejunk d s h x0 u0 z :
    0 < d_ph d -> reached junk ejunk d s h ->
    sized x0 (d_nx d) 1 -> sized u0 (d_nu d) 1 -> z_tail d (vec u0) z ->
    let N1 := (d_ph d + 1) * (d_nu d + d_nx d) in
    (forall i j, i < d_ph d -> j < d_nu d ->
       row_holds (l_call d s x0 u0) (N1 + (N1 + (d_ph d + 1) * d_ny d + (i * d_nu d + j))) z) <->
    (forall k j, d_ch d <= k -> k < d_ph d -> j < d_nu d -> z_cmd d z k j = z_cmd d z (d_ch d) j).
  Proof.
    intros P H. pose proof (reached_R _ _ _ _ _ P H) as HR. intros X U HZ N1. unfold N1.
    rewrite (increment_rows_iff junk ejunk d P s (cfg_run h) x0 u0 HR X U z HZ). unfold frozen. split.
    - intros HS k j Hk. induction Hk as [|k Hk IH]; intros Hp' Hj; [reflexivity|].
      rewrite (HS (S k) j) by lia. cbn [ucmd]. apply IH; [lia|exact Hj].
    - intros HS i j Hi Hp' Hj. destruct i as [|i]; [lia|]. cbn [ucmd].
      rewrite (HS (S i) j), (HS i j) by lia. reflexivity.
  Qed.

  (** C08: what the scalar rows impose: the last multipliers given to any setScalarConstraint call, at every step,
      with the bounds of the step, on x(k+1) and u(k) for the bounds of step k, and on x(0), u(-1) for step 0. *)
  Theorem C08_scalar_rows junk ejunk d s h x0 u0 z :
    0 < d_ph d -> reached junk ejunk d s h ->
    sized x0 (d_nx d) 1 -> sized u0 (d_nu d) 1 -> z_tail d (vec u0) z ->
    let N1 := (d_ph d + 1) * (d_nu d + d_nx d) in let c := cfg_run h in
    let comb x u := (ssum (d_nx d) (fun l => g_sX c l * x l) + ssum (d_nu d) (fun l => g_sU c l * u l))%S in
    (forall i, i <= d_ph d ->
       row_holds (l_call d s x0 u0) (N1 + (N1 + (d_ph d + 1) * d_ny d + d_ph d * d_nu d + i)) z) <->
    (forall k, k < d_ph d -> within (g_slo c k) (g_shi c k) (comb (z_state d z (k + 1)) (z_cmd d z k))) /\
    within (g_slo c 0) (g_shi c 0) (comb (z_state d z 0) (vec u0)).
  Proof.
    intros P H. pose proof (reached_R _ _ _ _ _ P H) as HR. intros X U HZ N1 c comb. unfold N1.
    rewrite (scalar_rows_iff junk ejunk d P s (cfg_run h) x0 u0 HR X U z HZ). unfold scalar_ok, comb, c, stp. split.
    - intros HS. split.
      + intros k Hk. specialize (HS (S k) ltac:(lia)). rewrite Nat.add_1_r. exact HS.
      + exact (HS 0 ltac:(lia)).
    - intros [H1 H2] i Hi. destruct i as [|i]; [exact H2|]. specialize (H1 i ltac:(lia)). rewrite Nat.add_1_r in H1. exact H1.
  Qed.
  (** the part of the intended property that holds: if all setScalarConstraint calls gave the same multipliers *)
  Theorem C08_same_multipliers junk ejunk d s h p x0 u0 z (X U : nat -> F) :
    0 < d_ph d -> reached junk ejunk d s h -> g_plant (cfg_run h) = Some p ->
    sized x0 (d_nx d) 1 -> sized u0 (d_nu d) 1 ->
    g_sX (cfg_run h) = X -> g_sU (cfg_run h) = U ->
    qp_feasible (l_call d s x0 u0) z ->
    forall k, k < d_ph d -> within (g_slo (cfg_run h) k) (g_shi (cfg_run h) k)
      (ssum (d_nx d) (fun l => X l * z_state d z (k + 1) l) + ssum (d_nu d) (fun l => U l * z_cmd d z k l))%S.
  Proof.
    intros P H Hp X0 U0 <- <- HF k Hk.
    apply (C01_feasible_iff_admissible _ _ _ _ _ _ _ _ _ P H Hp X0 U0) in HF. destruct HF as [(_ & _ & _ & _ & _ & HS) _].
    specialize (HS (S k) ltac:(lia)). rewrite Nat.add_1_r. exact HS.
  Qed.

  (** C15 *)
  Theorem C15_optimality_transfer junk ejunk d s h p x0 u0 z :
    0 < d_ph d -> reached junk ejunk d s h -> g_plant (cfg_run h) = Some p ->
    sized x0 (d_nx d) 1 -> sized u0 (d_nu d) 1 ->
    qp_optimal (l_call d s x0 u0) z ->
    admissible d p (cfg_run h) (vec x0) (vec u0) (z_state d z) (z_cmd d z) /\
    forall x u, admissible d p (cfg_run h) (vec x0) (vec u0) x u ->
      (tracking_cost d p (cfg_run h) (vec u0) (z_state d z) (z_cmd d z) <= tracking_cost d p (cfg_run h) (vec u0) x u)%S.
  Proof. intros P H. pose proof (reached_R _ _ _ _ _ P H). intros. eapply qp_optimal_transfer; eassumption. Qed.

  (** converse: the encoding of a best admissible trajectory is a minimiser of the program *)
  Theorem C15_converse junk ejunk d s h p x0 u0 x u :
    0 < d_ph d -> reached junk ejunk d s h -> g_plant (cfg_run h) = Some p ->
    sized x0 (d_nx d) 1 -> sized u0 (d_nu d) 1 ->
    admissible d p (cfg_run h) (vec x0) (vec u0) x u ->
    (forall x' u', admissible d p (cfg_run h) (vec x0) (vec u0) x' u' ->
      (tracking_cost d p (cfg_run h) (vec u0) x u <= tracking_cost d p (cfg_run h) (vec u0) x' u')%S) ->
    qp_optimal (l_call d s x0 u0) (z_of d (vec u0) x u).
  Proof.
    intros P H Hp X U HA HO. pose proof (reached_R _ _ _ _ _ P H) as HR.
    pose proof (z_of_feasible junk ejunk d P s _ p x0 u0 HR Hp X U x u HA) as HF. split; [exact HF|].
    intros z' HF'. unfold qp_cost. apply (proj2 (half_le _ _)).
    pose proof (proj1 (qp_feasible_iff junk ejunk d P s _ p x0 u0 HR Hp X U _) HF) as [_ HC].
    pose proof (proj1 (qp_feasible_iff junk ejunk d P s _ p x0 u0 HR Hp X U _) HF') as [HA' HC'].
    specialize (HO _ _ HA').
    pose proof (qp_cost2_tracking junk ejunk d P s _ p x0 u0 HR Hp X U _ HC) as E1.
    pose proof (qp_cost2_tracking junk ejunk d P s _ p x0 u0 HR Hp X U _ HC') as E2.
    rewrite (tracking_ext d P (cfg_run h) p (vec u0) x (z_state d (z_of d (vec u0) x u)) u (z_cmd d (z_of d (vec u0) x u))) in HO.
    - rewrite <- E1, <- E2 in HO.
      apply (proj1 (sle_add_cancel _ _ _)) in HO. exact HO.
    - intros. symmetry. now apply z_of_x.
    - intros. symmetry. now apply z_of_u.
  Qed.

  (** C44: the bounds handed to the solver are ordered (OSQP's setup accepts them) iff all configured ones are *)
  Theorem C44_bounds_accepted junk ejunk d s h x0 u0 :
    0 < d_ph d -> reached junk ejunk d s h ->
    sized x0 (d_nx d) 1 -> sized u0 (d_nu d) 1 ->
    let c := cfg_run h in
    bounds_ordered (l_call d s x0 u0) <->
    (forall k j, k < d_ph d -> j < d_nx d -> ele (g_xlo c k j) (g_xhi c k j)) /\
    (forall k j, k < d_ph d -> j < d_ny d -> ele (g_ylo c k j) (g_yhi c k j)) /\
    (forall k j, k < d_ph d -> j < d_nu d -> ele (g_ulo c k j) (g_uhi c k j)) /\
    (forall k, k < d_ph d -> ele (g_slo c k) (g_shi c k)).
  Proof. intros P H. pose proof (reached_R _ _ _ _ _ P H). intros. eapply bounds_ordered_iff; eassumption. Qed.
End Stmts.

(** ** Concrete instances: scalar plant x+ = x + u + d, y = x, horizon 2 or 3. *)
Local Notation one := (qm 1 1 [[1%Z]]).
Definition ex_d : dims := mkDims 1 1 1 1 2 2.
Definition ex_ops : list (lop Qc) :=
  [ LSetModel one one one; LSetDisturbances one one;
    LSetStateBounds (qe [-9]%Z) (qe [9]%Z) slice_all; LSetOutputBounds (qe [-9]%Z) (qe [9]%Z) (mkSlice 0 1);
    LSetInputBoundsMat (qme 1 2 [[-4; -5]]%Z) (qme 1 2 [[4; 5]]%Z);
    LSetScalar (Fin (q (-20))) (Fin (q 20)) (qv [1]%Z) (qv [1]%Z) slice_all;
    LSetWeights (qv [1]%Z) (qv [1]%Z) (qv [1]%Z) slice_all;
    LSetRefs (qv [3]%Z) (qv [0]%Z) (qv [0]%Z) slice_all; LSetExo (qv [1]%Z) slice_all ].
Definition ex_z : nat -> Qc := z_of ex_d (qf [1]%Z) (fun i _ => qf [2; 5; 6]%Z i) (fun i _ => qf [2; 0]%Z i).
Lemma ex_reached : reached qj qej ex_d (wS ex_d ex_ops) (wH ex_d ex_ops).
Proof. w_reach. Qed.
Example ex_hypotheses : 0 < d_ph ex_d /\ reached qj qej ex_d (wS ex_d ex_ops) (wH ex_d ex_ops) /\
  g_plant (cfg_run (wH ex_d ex_ops)) = Some (wp (wH ex_d ex_ops)) /\
  sized (qv [2]%Z) (d_nx ex_d) 1 /\ sized (qv [1]%Z) (d_nu ex_d) 1 /\
  z_tail ex_d (vec (qv [1]%Z)) ex_z /\
  qp_feasible (l_call ex_d (wS ex_d ex_ops) (qv [2]%Z) (qv [1]%Z)) ex_z.
Proof.
  assert (P : 0 < d_ph ex_d) by (cbn; lia).
  assert (G : g_plant (cfg_run (wH ex_d ex_ops)) = Some (wp (wH ex_d ex_ops))) by (apply w_plant; vm_compute; reflexivity).
  assert (X : sized (qv [2]%Z) (d_nx ex_d) 1) by (repeat split).
  assert (U : sized (qv [1]%Z) (d_nu ex_d) 1) by (repeat split).
  assert (HF : qp_feasible (l_call ex_d (wS ex_d ex_ops) (qv [2]%Z) (qv [1]%Z)) ex_z) by (apply feasible_b_ok; vm_compute; reflexivity).
  refine (conj P (conj ex_reached (conj G (conj X (conj U (conj _ HF)))))).
  exact (proj2 (proj1 (C01_feasible_iff_admissible qj qej ex_d _ _ _ (qv [2]%Z) (qv [1]%Z) ex_z P ex_reached G X U) HF)).
Qed.
(** hypotheses of the convexity theorem, with non-zero weights *)
Example ex_weights : (forall k j, k < d_ph ex_d -> j < d_ny ex_d -> g_wy (cfg_run (wH ex_d ex_ops)) k j = q 1) /\
  (forall k j, k < d_ph ex_d -> j < d_nu ex_d -> g_wdu (cfg_run (wH ex_d ex_ops)) k j = q 1).
Proof.
  split; intros k j Hk Hj; cbn in Hk, Hj; destruct j as [|j]; try lia; destruct k as [|[|k]]; try lia; vm_compute; reflexivity.
Qed.
(** a negative increment weight is accepted by the setters *)
Definition ex_neg : list (lop Qc) := [LSetModel one one one; LSetWeights (qv [1]%Z) (qv [1]%Z) (qv [-1]%Z) (mkSlice 1 2)].
Definition ex_neg_d : dims := mkDims 1 1 1 1 3 2.
Example ex_negative_weight : reached qj qej ex_neg_d (wS ex_neg_d ex_neg) (wH ex_neg_d ex_neg) /\
  (g_wdu (cfg_run (wH ex_neg_d ex_neg)) 1 0 < s0)%S.
Proof. split; [w_reach|vm_compute; reflexivity]. Qed.

(** C06 refuted: bounds [0,1] set for step 0 only; previous command 0. The program accepts u(0) = 5. *)
Definition r06_ops : list (lop Qc) := [LSetModel one one one; LSetInputBounds (qe [0]%Z) (qe [1]%Z) (mkSlice 0 1)].
Theorem C06_intended_refuted :
  ~ (forall d s h p x0 u0 z, 0 < d_ph d -> reached qj qej d s h -> g_plant (cfg_run h) = Some p ->
       sized x0 (d_nx d) 1 -> sized u0 (d_nu d) 1 -> qp_feasible (l_call d s x0 u0) z ->
       forall k j, k < d_ch d -> k < d_ph d -> j < d_nu d ->
         within (g_ulo (cfg_run h) k j) (g_uhi (cfg_run h) k j) (z_cmd d z k j)).
Proof.
  intros H. refine (within_dec_false _ _ _ _ (H ex_d (wS ex_d r06_ops) (wH ex_d r06_ops) (wp (wH ex_d r06_ops)) (qv [0]%Z) (qv [0]%Z)
    (z_of ex_d (qf [0]%Z) (fun i _ => qf [0; 5; 5]%Z i) (fun i _ => qf [5; 0]%Z i)) _ _ _ _ _ _ 0 0 _ _ _));
  [vm_compute; reflexivity|cbn; lia|w_reach|apply w_plant; vm_compute; reflexivity|repeat split|repeat split
  |apply feasible_b_ok; vm_compute; reflexivity|cbn; lia..].
Qed.

(** C07 refuted: control horizon 1, prediction horizon 3; the program accepts u = 0, 1, 1. *)
Definition r07_d : dims := mkDims 1 1 1 1 3 1.
Definition r07_ops : list (lop Qc) := [LSetModel one one one].
Theorem C07_intended_refuted :
  ~ (forall d s h p x0 u0 z, 0 < d_ph d -> 0 < d_ch d -> d_ch d <= d_ph d -> reached qj qej d s h -> g_plant (cfg_run h) = Some p ->
       sized x0 (d_nx d) 1 -> sized u0 (d_nu d) 1 -> qp_feasible (l_call d s x0 u0) z ->
       forall k j, d_ch d <= k -> k < d_ph d -> j < d_nu d -> z_cmd d z k j = z_cmd d z (d_ch d - 1) j).
Proof.
  intros H. assert (E := H r07_d (wS r07_d r07_ops) (wH r07_d r07_ops) (wp (wH r07_d r07_ops)) (qv [0]%Z) (qv [0]%Z)
    (z_of r07_d (qf [0]%Z) (fun i _ => qf [0; 0; 1; 2]%Z i) (fun i _ => qf [0; 1; 1]%Z i))).
  specialize (E ltac:(cbn; lia) ltac:(cbn; lia) ltac:(cbn; lia) ltac:(w_reach) ltac:(apply w_plant; vm_compute; reflexivity)
    ltac:(repeat split) ltac:(repeat split) ltac:(apply feasible_b_ok; vm_compute; reflexivity)
    1 0 ltac:(cbn; lia) ltac:(cbn; lia) ltac:(cbn; lia)).
  vm_compute in E. discriminate.
Qed.

(** C08 refuted.  Intended meaning of a history: the scalar constraint of step k is the one of the last accepted
    call covering k. *)
Definition scalar_covers {F} (op : lop F) (k : nat) : option (ext F * ext F * (nat -> F) * (nat -> F)) :=
  match op with
  | LSetScalar mn mx X U sl => if in_slice sl k then Some (mn, mx, vec X, vec U) else None
  | LSetScalarIdx i mn mx X U => if N.to_nat i =? k then Some (mn, mx, vec X, vec U) else None
  | _ => None end.
Definition scalar_intended {F} (h : list (lop F * ret F)) (k : nat) : option (ext F * ext F * (nat -> F) * (nat -> F)) :=
  fold_left (fun acc opr => match snd opr, scalar_covers (fst opr) k with RBool true, Some c => Some c | _, _ => acc end) h None.
Definition r08_ops : list (lop Qc) :=
  [ LSetModel one one one;
    LSetScalar (Fin (q 0)) (Fin (q 1)) (qv [1]%Z) (qv [0]%Z) (mkSlice 0 1);
    LSetScalar (Fin (q (-9))) (Fin (q 9)) (qv [0]%Z) (qv [1]%Z) (mkSlice 1 2) ].
Theorem C08_intended_refuted :
  ~ (forall d s h p x0 u0 z, 0 < d_ph d -> reached qj qej d s h -> g_plant (cfg_run h) = Some p ->
       sized x0 (d_nx d) 1 -> sized u0 (d_nu d) 1 -> qp_feasible (l_call d s x0 u0) z ->
       forall k lo hi X U, k < d_ph d -> scalar_intended h k = Some (lo, hi, X, U) ->
         within lo hi (ssum (d_nx d) (fun l => X l * z_state d z (k + 1) l) + ssum (d_nu d) (fun l => U l * z_cmd d z k l))%S).
Proof.
  intros H. assert (E := H r07_d (wS r07_d r08_ops) (wH r07_d r08_ops) (wp (wH r07_d r08_ops)) (qv [5]%Z) (qv [0]%Z)
    (z_of r07_d (qf [0]%Z) (fun i _ => qf [5; 5; 5; 5]%Z i) (fun i _ => qf [0; 0; 0]%Z i))).
  specialize (E ltac:(cbn; lia) ltac:(w_reach) ltac:(apply w_plant; vm_compute; reflexivity)
    ltac:(repeat split) ltac:(repeat split) ltac:(apply feasible_b_ok; vm_compute; reflexivity)
    0 (Fin (q 0)) (Fin (q 1)) (vec (qv [1]%Z)) (vec (qv [0]%Z)) ltac:(cbn; lia) ltac:(reflexivity)).
  apply within_b_ok in E. vm_compute in E. discriminate.
Qed.

(** C45 refuted: the increment reference of step k is meant for u(k)-u(k-1); the code uses it for the next step, and
    never uses the reference of the last step.  (What the code does is [tracking_cost]: theorem C02.) *)
Definition tracking_cost_intended {F} {SO : ScalarOps F} (d : dims) (p : plant F) (c : cfg F) (um : nat -> F) (x u : nat -> nat -> F) : F :=
  (ssum (d_ph d + 1) (fun i => ssum (d_ny d) (fun j => g_wy c (stp i) j * sq (output d p c x i j - g_yr c (stp i) j)))
   + ssum (d_ph d + 1) (fun i => ssum (d_nu d) (fun j => g_wu c (stp i) j * sq (ucmd um u i j - g_ur c (stp i) j)))
   + ssum (d_ph d) (fun i => ssum (d_nu d) (fun j => g_wdu c i j * sq (dcmd um u i j - g_dur c i j))))%S.
Definition r45_ops : list (lop Qc) :=
  [ LSetModel one one one; LSetWeights (qv [1]%Z) (qv [1]%Z) (qv [1]%Z) slice_all;
    LSetRefsMat (qm 1 2 [[0; 0]]%Z) (qm 1 2 [[0; 0]]%Z) (qm 1 2 [[0; 1]]%Z) ].
Theorem C45_intended_refuted :
  ~ (forall d s h p x0 u0, 0 < d_ph d -> reached qj qej d s h -> g_plant (cfg_run h) = Some p ->
       sized x0 (d_nx d) 1 -> sized u0 (d_nu d) 1 ->
       exists K : Qc, forall z, z_tail d (vec u0) z ->
         sadd (smul s2 (qp_cost (l_call d s x0 u0) z)) K =
         tracking_cost_intended d p (cfg_run h) (vec u0) (z_state d z) (z_cmd d z)).
Proof.
  intros H. destruct (H ex_d (wS ex_d r45_ops) (wH ex_d r45_ops) (wp (wH ex_d r45_ops)) (qv [0]%Z) (qv [0]%Z)) as [K HK];
    [cbn; lia|w_reach|apply w_plant; vm_compute; reflexivity|repeat split|repeat split|].
  assert (T : forall z, z_tail ex_d (vec (qv [0]%Z)) (z_of ex_d (qf [0]%Z) (fun i _ => q 0) z)).
  { intros z. split.
    - intros a Ha. cbn in Ha. destruct a; [reflexivity|lia].
    - intros i a Hi Ha. cbn in Hi, Ha. destruct a; [|lia]. destruct i as [|[|i]]; [reflexivity|reflexivity|lia]. }
  assert (E1 := HK _ (T (fun _ _ => q 0))). assert (E2 := HK _ (T (fun i _ => qf [0; 1]%Z i))). clear HK.
  assert (L : forall a b c e K : Qc, sadd a K = c -> sadd b K = e -> (a - b)%Qc = (c - e)%Qc)
    by (intros a b c e K' <- <-; cbn; ring).
  assert (E := f_equal this (L _ _ _ _ _ E1 E2)). vm_compute in E. discriminate.
Qed.

Print Assumptions C01_equality_rows_are_the_dynamics. Print Assumptions C01_feasible_iff_admissible.
Print Assumptions C01_admissible_represented. Print Assumptions C02_cost_is_tracking_cost.
Print Assumptions C03_cost_matrix_symmetric. Print Assumptions C03_convex_for_nonnegative_weights.
Print Assumptions C03_negative_increment_weight_not_convex. Print Assumptions C04_state_bound_rows.
Print Assumptions C05_output_bound_rows. Print Assumptions C06_input_bound_rows. Print Assumptions C06_uniform_bounds_hold.
Print Assumptions C06_intended_refuted. Print Assumptions C07_increment_rows. Print Assumptions C07_intended_refuted.
Print Assumptions C08_scalar_rows. Print Assumptions C08_intended_refuted. Print Assumptions C15_optimality_transfer.
Print Assumptions C15_converse. Print Assumptions C44_bounds_accepted. Print Assumptions C45_intended_refuted.
