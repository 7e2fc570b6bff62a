(** Properties C56-C58: what the answers of the QP solver are worth in terms of trajectories: approximate solutions, optimality up to residuals,
    certificates of infeasibility. *)
From Coq Require Import Bool Arith ZArith List Lia QArith Qcanon Ring Field.
From Verif Require Import Scalar Sums Mat Slice Csc CscProof Builder BuilderEnt BuilderRows LMPC SpecLMPC SpecQP LMPCRef LQP LRows LUniq NLSlope NLSlope2 SpecCert LCert LRowsE Wit PropLMPC1 PropLMPC2 PropLMPC3 PropLMPC4.
Import ListNotations.
Local Open Scope nat_scope.

(** *** Specification *)
Section Drift.
  Context {F : Type} {SO : ScalarOps F}.
  (** how far the predicted states may be from the plant's after k steps, when every equation is violated by at most e, the rows of A have
      absolute sums at most a and those of B at most b *)
  Fixpoint drift (e a b : F) (k : nat) : F :=
    match k with O => e | S k => (a * drift e a b k + e * (s1 + b))%S end.
  (** every row of the problem holds up to e *)
  Definition rows_nearly (e : F) (c : call F) (z : nat -> F) : Prop :=
    forall r, r < cl_m c -> nearly e (lo_of c r) (hi_of c r) (qp_row c r z).
End Drift.

Section Stmts.
  Context {F : Type} {SO : ScalarOps F} {SL : ScalarLaws F}.
  Add Field SFp5 : (@s_field F SO SL).
  Variables (junk : nat -> nat -> F) (ejunk : nat -> nat -> ext F) (d : dims).
  Notation nx := (d_nx d). Notation nu := (d_nu d). Notation ndu := (d_ndu d).
  Notation ny := (d_ny d). Notation ph := (d_ph d). Notation ch := (d_ch d).
  Notation reached := (SpecLMPC.reached junk ejunk d).
  Notation step := (l_step junk ejunk d).
  Implicit Types (s : lmpc F) (h : list (lop F * ret F)) (p : plant F) (z : nat -> F).

  (** *** C56 *)
  Lemma nearly_ext e p c x0 um x u x' u' :
    (forall i j, i <= ph -> j < nx -> x i j = x' i j) -> (forall k j, k < ph -> j < nu -> u k j = u' k j) ->
    nearly_admissible d e p c x0 um x u -> nearly_admissible d e p c x0 um x' u'.
  Proof.
    intros EX EU (N1 & N2 & N3 & N4 & N5 & N6 & N7).
    assert (UC : forall k j, k < ph -> j < nu -> ucmd um u' k j = ucmd um u k j) by (intros [|k] j Hk Hj; cbn [ucmd]; [reflexivity|symmetry; apply EU; [lia|exact Hj]]).
    refine (conj _ (conj _ (conj _ (conj _ (conj _ (conj _ _)))))).
    - intros j Hj. rewrite <- EX by (assumption || lia). auto.
    - intros k j Hk Hj. rewrite <- (EX (S k) j) by (assumption || lia).
      rewrite (ssum_ext nx _ (fun l => (pl_A p j l * x k l)%S)) by (intros; rewrite EX by (assumption || lia); reflexivity).
      rewrite (ssum_ext nu _ (fun l => (pl_B p j l * u k l)%S)) by (intros; rewrite EU by assumption; reflexivity). auto.
    - intros i j Hi Hj. rewrite <- EX by assumption. auto.
    - intros i j Hi Hj. unfold output. rewrite (ssum_ext nx _ (fun l => (pl_C p j l * x i l)%S)) by (intros; rewrite EX by assumption; reflexivity). exact (N4 i j Hi Hj).
    - intros k j Hk Hj. rewrite <- EU by assumption. auto.
    - intros k j Hc Hk Hj. rewrite <- EU, UC by assumption. auto.
    - intros k Hk. rewrite (ssum_ext nx _ (fun l => (g_sX c l * x (S k) l)%S)) by (intros; rewrite EX by (assumption || lia); reflexivity).
      rewrite (ssum_ext nu _ (fun l => (g_sU c l * u k l)%S)) by (intros; rewrite EU by assumption; reflexivity). auto.
  Qed.
  (** whatever point the solver returns, if it satisfies the rows of the problem up to e then the predicted sequences obey the plant, every
      bound and the control horizon up to multiples of e that do not depend on the horizon; the command is the first of the sequence *)
  Theorem C56_sequences_nearly_admissible s h p x0 u0 e z y code obj s' r :
    0 < ph -> reached s h -> g_plant (cfg_run h) = Some p -> sized x0 nx 1 -> sized u0 nu 1 -> (s0 <= e)%S ->
    rows_nearly e (l_call d s x0 u0) z ->
    step s (LOptimize x0 u0 (ASolution z y code obj)) = Ok (s', r) ->
    nearly_admissible d e p (cfg_run h) (vec x0) (vec u0) (fun i j => ent (q_state (o_seq (l_o s'))) i j) (fun i j => ent (q_input (o_seq (l_o s'))) i j) /\
    exists res, r = RResult res /\ forall j, j < nu -> vec (r_cmd res) j = ent (q_input (o_seq (l_o s'))) 0 j.
  Proof.
    intros P H Hp X U He Hz E. pose proof (reached_R _ _ _ _ _ P H) as HR.
    destruct (C14_sequences junk ejunk d s h p x0 u0 z y code obj s' _ P H Hp X U E) as (res & Er & A1 & A2 & A3 & A4 & A5 & _).
    split; [|exists res; auto].
    eapply nearly_ext; [| |exact (nearly_feasible junk ejunk d e He P s (cfg_run h) p x0 u0 HR Hp X U z Hz)].
    - intros i j Hi Hj. symmetry. auto.
    - intros k j Hk Hj. symmetry. auto.
  Qed.
  (** the plant, driven by those commands from the measured state, stays within [drift] of the predicted states *)
  Theorem C56_prediction_error p c x0 um e a b x u x' :
    (s0 <= e)%S -> (forall j, j < nx -> (norm1 nx (pl_A p j) <= a)%S) -> (forall j, j < nx -> (norm1 nu (pl_B p j) <= b)%S) ->
    nearly_admissible d e p c x0 um x u -> trajectory d p c x0 x' u ->
    forall k j, k <= ph -> j < nx -> (sabs (x k j - x' k j) <= drift e a b k)%S.
  Proof.
    intros He HA HB (N1 & N2 & _) (T1 & T2) k. induction k as [|k IH]; intros j Hk Hj; cbn [drift].
    - rewrite T1 by exact Hj. auto.
    - rewrite (T2 k j) by (assumption || lia). pose proof (N2 k j ltac:(lia) Hj) as N.
      set (sx := ssum nx (fun l => (pl_A p j l * x k l)%S)) in *. set (sx' := ssum nx (fun l => (pl_A p j l * x' k l)%S)).
      set (su := ssum nu (fun l => (pl_B p j l * u k l)%S)) in *. set (sd := ssum ndu (fun l => (g_Bd c j l * g_d c k l)%S)) in *.
      replace (x (S k) j - (sx' + su + sd))%S with ((sx - sx') + (x (S k) j - (sx + su + sd)))%S by ring.
      eapply sle_trans; [apply sabs_add|]. apply sle_add.
      + unfold sx, sx'. rewrite <- ssum_sub. apply sle_trans with (ssum nx (fun l => (sabs (pl_A p j l) * drift e a b k)%S)).
        * apply sabs_sum_le. intros l Hl. replace (pl_A p j l * x k l - pl_A p j l * x' k l)%S with (pl_A p j l * (x k l - x' k l))%S by ring.
          rewrite sabs_mul. apply smul_le_l; [apply sabs_nonneg|]. apply IH; [lia|exact Hl].
        * rewrite ssum_mul_r. replace (a * drift e a b k)%S with (drift e a b k * a)%S by ring. replace (ssum nx (fun i => sabs (pl_A p j i)) * drift e a b k)%S with (drift e a b k * norm1 nx (pl_A p j))%S by (unfold norm1; ring).
          apply smul_le_l; [|auto]. apply sle_trans with (sabs (x k j - x' k j))%S; [apply sabs_nonneg|]. apply IH; [lia|exact Hj].
      + eapply sle_trans; [exact N|]. apply smul_le_l; [exact He|]. apply sle_add_l. auto.
  Qed.

  (** *** C57 *)
  Lemma weights_convex s h x0 u0 : 0 < ph -> reached s h -> sized x0 nx 1 -> sized u0 nu 1 -> weights_nonneg d (cfg_run h) ->
    forall v, (s0 <= quad_form (l_call d s x0 u0) v)%S.
  Proof. intros P H X U (Wy & Wu & Wd). exact (C03_convex_for_nonnegative_weights junk ejunk d s h x0 u0 P H X U Wy Wu Wd). Qed.
  (** the optimality conditions are sufficient: the predicted trajectory is admissible and no admissible trajectory costs less *)
  Theorem C57_kkt_point_is_optimal s h p x0 u0 z w y :
    0 < ph -> reached s h -> g_plant (cfg_run h) = Some p -> sized x0 nx 1 -> sized u0 nu 1 -> weights_nonneg d (cfg_run h) ->
    kkt s0 s0 (l_call d s x0 u0) z w y ->
    admissible d p (cfg_run h) (vec x0) (vec u0) (z_state d z) (z_cmd d z) /\
    forall x u, admissible d p (cfg_run h) (vec x0) (vec u0) x u ->
      (tracking_cost d p (cfg_run h) (vec u0) (z_state d z) (z_cmd d z) <= tracking_cost d p (cfg_run h) (vec u0) x u)%S.
  Proof.
    intros P H Hp X U W K. apply (C15_optimality_transfer junk ejunk d s h p x0 u0 z P H Hp X U).
    exact (kkt_optimal _ (weights_convex s h x0 u0 P H X U W) _ _ _ K).
  Qed.
  (** with a dual residual ed: how much better any other admissible trajectory can be *)
  Theorem C57_suboptimality s h p x0 u0 ed z w y x u :
    0 < ph -> reached s h -> g_plant (cfg_run h) = Some p -> sized x0 nx 1 -> sized u0 nu 1 -> weights_nonneg d (cfg_run h) ->
    kkt s0 ed (l_call d s x0 u0) z w y ->
    admissible d p (cfg_run h) (vec x0) (vec u0) x u ->
    admissible d p (cfg_run h) (vec x0) (vec u0) (z_state d z) (z_cmd d z) /\
    (tracking_cost d p (cfg_run h) (vec u0) (z_state d z) (z_cmd d z) <= tracking_cost d p (cfg_run h) (vec u0) x u
       + s2 * ed * norm1 (cl_n (l_call d s x0 u0)) (fun i => z_of d (vec u0) x u i - z i))%S.
  Proof.
    intros P H Hp X U W K A. pose proof (kkt_feasible _ _ _ _ _ K) as HF.
    pose proof HF as HF0. apply (C01_feasible_iff_admissible junk ejunk d s h p x0 u0 z P H Hp X U) in HF as [Az Tz]. split; [exact Az|].
    destruct (C01_admissible_represented junk ejunk d s h p x0 u0 x u P H Hp X U A) as (Hf & E1 & E2).
    pose proof Hf as Hf0. apply (C01_feasible_iff_admissible junk ejunk d s h p x0 u0 _ P H Hp X U) in Hf0 as [_ Tf].
    destruct (C02_cost_is_tracking_cost junk ejunk d s h p x0 u0 P H Hp X U) as [C HC].
    rewrite <- (HC z Tz). rewrite (tracking_ext d P (cfg_run h) p (vec u0) x (z_state d (z_of d (vec u0) x u)) u (z_cmd d (z_of d (vec u0) x u))).
    2:{ intros. symmetry. apply E1; [lia|assumption]. } 2:{ intros. symmetry. now apply E2. }
    rewrite <- (HC _ Tf). set (nn := norm1 _ _).
    pose proof (kkt_bound _ (weights_convex s h x0 u0 P H X U W) _ _ _ _ _ _ K Hf) as B. fold nn in B.
    replace (qp_cost (l_call d s x0 u0) (z_of d (vec u0) x u) + ed * nn + s0 * norm1 (cl_m (l_call d s x0 u0)) y)%S with (qp_cost (l_call d s x0 u0) (z_of d (vec u0) x u) + ed * nn)%S in B by ring.
    replace (s2 * qp_cost (l_call d s x0 u0) (z_of d (vec u0) x u) + C + s2 * ed * nn)%S with (s2 * (qp_cost (l_call d s x0 u0) (z_of d (vec u0) x u) + ed * nn) + C)%S by ring.
    apply sle_add_r. apply smul_le_l; [|exact B]. apply slt_le. exact (slt_add_l_nonneg _ _ s01 s01_lt).
  Qed.
  (** with both residuals: the value of the problem handed to the solver is missed by at most ed times a distance plus ep times the multipliers *)
  Theorem C57_residual_bound s h x0 u0 ep ed z w y z' :
    0 < ph -> reached s h -> sized x0 nx 1 -> sized u0 nu 1 -> weights_nonneg d (cfg_run h) ->
    kkt ep ed (l_call d s x0 u0) z w y -> qp_feasible (l_call d s x0 u0) z' ->
    (qp_cost (l_call d s x0 u0) z <= qp_cost (l_call d s x0 u0) z' + ed * norm1 (cl_n (l_call d s x0 u0)) (fun i => z' i - z i)
       + ep * norm1 (cl_m (l_call d s x0 u0)) y)%S /\ rows_nearly ep (l_call d s x0 u0) z.
  Proof.
    intros P H X U W K HF. split; [exact (kkt_bound _ (weights_convex s h x0 u0 P H X U W) _ _ _ _ _ _ K HF)|].
    intros r Hr. destruct K as [K _]. destruct (K r Hr) as (A & B & _). exists (w r). auto.
  Qed.

  (** *** C58 *)
  (** a certificate of primal infeasibility proves that the control problem has no admissible trajectory *)
  Theorem C58_infeasible_certified s h p x0 u0 y :
    0 < ph -> reached s h -> g_plant (cfg_run h) = Some p -> sized x0 nx 1 -> sized u0 nu 1 ->
    primal_certificate (l_call d s x0 u0) y ->
    forall x u, ~ admissible d p (cfg_run h) (vec x0) (vec u0) x u.
  Proof.
    intros P H Hp X U Cy x u A. destruct (C01_admissible_represented junk ejunk d s h p x0 u0 x u P H Hp X U A) as (Hf & _).
    exact (primal_certificate_sound _ _ _ Cy Hf).
  Qed.
  Lemma equality_rows_finite s h x0 u0 r : 0 < ph -> reached s h -> sized x0 nx 1 -> sized u0 nu 1 -> r < (ph + 1) * (nu + nx) ->
    exists v, lo_of (l_call d s x0 u0) r = Fin v /\ hi_of (l_call d s x0 u0) r = Fin v.
  Proof.
    intros P H X U Hr. pose proof (reached_R _ _ _ _ _ P H) as HR.
    pose proof (Gent junk ejunk d P s (cfg_run h) x0 u0 HR X U) as G.
    assert (Hc : r < n_con d) by (unfold n_con, n_eq; lia).
    unfold lo_of, hi_of. rewrite (cl_l_eq junk ejunk d P s (cfg_run h) x0 u0 HR X U r Hc), (cl_u_eq junk ejunk d P s (cfg_run h) x0 u0 HR X U r Hc).
    assert (E : exists v, ent (pl (b_prob (l_built d s x0 u0))) r 0 = Fin v).
    { destruct (blk_split r (ph + 1) (nu + nx) Hr) as (i & a & Hi & Ha & E). rewrite E. destruct i as [|i].
      - cbn [Nat.mul Nat.add]. destruct (Nat.lt_ge_cases a nx) as [L|L].
        + rewrite (ge_0x _ _ _ _ _ _ _ _ _ G) by assumption. eexists; reflexivity.
        + replace a with (nx + (a - nx)) by lia. rewrite (ge_0u _ _ _ _ _ _ _ _ _ G) by lia. eexists; reflexivity.
      - rewrite (ge_eq _ _ _ _ _ _ _ _ _ G) by lia. eexists; reflexivity. }
    destruct E as [v E]. exists v. rewrite (ge_ul _ _ _ _ _ _ _ _ _ G) by exact Hr. auto.
  Qed.
  (** with non-negative weights there is no certificate of dual infeasibility: the problem is bounded below whatever the bounds are, so a
      solver can only answer "dual infeasible" without proof *)
  Theorem C58_never_unbounded s h p x0 u0 v :
    0 < ph -> reached s h -> g_plant (cfg_run h) = Some p -> sized x0 nx 1 -> sized u0 nu 1 -> weights_nonneg d (cfg_run h) ->
    ~ dual_certificate (l_call d s x0 u0) v.
  Proof.
    intros P H Hp X U W Dv. set (c := l_call d s x0 u0) in *.
    pose (u := fun (_ j : nat) => vec u0 j).
    pose (x := fix xx (k : nat) : nat -> F := match k with O => vec x0 | S k => fun j =>
      (ssum nx (fun l => pl_A p j l * xx k l) + ssum nu (fun l => pl_B p j l * u k l) + ssum ndu (fun l => g_Bd (cfg_run h) j l * g_d (cfg_run h) k l))%S end).
    set (z := z_of d (vec u0) x u).
    assert (UC : forall i j, ucmd (vec u0) u i j = vec u0 j) by (intros [|i] j; reflexivity).
    assert (TZ : trajectory d p (cfg_run h) (vec x0) (z_state d z) (z_cmd d z) /\ z_tail d (vec u0) z).
    { split.
      - split.
        + intros j Hj. unfold z. rewrite (z_of_x d P) by (assumption || lia). reflexivity.
        + intros k j Hk Hj. unfold z. rewrite (z_of_x d P) by (assumption || lia). cbn [x]. f_equal. f_equal; apply ssum_ext; intros l Hl.
          * rewrite (z_of_x d P) by (assumption || lia). reflexivity.
          * rewrite (z_of_u d P) by (assumption || lia). reflexivity.
      - split.
        + intros a Ha. unfold z. exact (z_of_up d P (vec u0) x u 0 a ltac:(lia) Ha).
        + intros i a Hi Ha. unfold z. pose proof (z_of_du d P (vec u0) x u i a Hi Ha) as E. unfold zdu in E. rewrite E. unfold dcmd. rewrite (z_of_u d P) by assumption. f_equal.
          rewrite UC. destruct i as [|i]; cbn [ucmd]; [reflexivity|]. rewrite (z_of_u d P) by (assumption || lia). reflexivity. }
    assert (V0 : forall r, r < (ph + 1) * (nu + nx) -> qp_row c r v = s0).
    { intros r Hr. destruct Dv as (_ & _ & D). destruct (equality_rows_finite s h x0 u0 r P H X U Hr) as (b & E1 & E2).
      assert (Hm : r < cl_m c). { pose proof (reached_R _ _ _ _ _ P H) as HR. unfold c. rewrite (proj2 (cl_dims junk ejunk d P s (cfg_run h) x0 u0 HR X U)). unfold n_con, n_eq. lia. }
      destruct (D r Hm) as [D1 D2]. fold c in E1, E2. rewrite E1 in D1. rewrite E2 in D2. now apply sle_antisym. }
    destruct (C02_cost_is_tracking_cost junk ejunk d s h p x0 u0 P H Hp X U) as [C HC]. fold c in HC.
    destruct (dual_certificate_descent c v z (- C)%S Dv) as (t & _ & Ht).
    assert (TT : z_tail d (vec u0) (fun i => (z i + t * v i)%S)).
    { apply (proj1 (C01_equality_rows_are_the_dynamics junk ejunk d s h p x0 u0 _ P H Hp X U)). intros r Hr.
      pose proof (proj2 (C01_equality_rows_are_the_dynamics junk ejunk d s h p x0 u0 z P H Hp X U) TZ r Hr) as K.
      unfold row_holds in *. change (l_call d s x0 u0) with c in K |- *. rewrite row_add, V0 by exact Hr. now replace (qp_row c r z + t * s0)%S with (qp_row c r z) by ring. }
    pose proof (HC _ TT) as E. destruct W as (Wy & Wu & Wd).
    pose proof (cost_nonneg d p (cfg_run h) (vec u0) Wy Wu Wd P (z_state d (fun i => (z i + t * v i)%S)) (z_cmd d (fun i => (z i + t * v i)%S))) as N.
    rewrite <- E in N. unfold qp_cost in N. replace (s2 * (qp_cost2 c (fun i => z i + t * v i) / s2))%S with (qp_cost2 c (fun i => (z i + t * v i)%S)) in N.
    2:{ unfold s2; field. exact (s2_neq_0 (F := F)). }
    apply slt_nle in Ht. apply Ht. apply sle_sub_0. now replace (qp_cost2 c (fun i => z i + t * v i) - - C)%S with (qp_cost2 c (fun i => (z i + t * v i)%S) + C)%S by ring.
  Qed.
  (** hence: a solver that answers with its certificates. [certified code y]: the certificate OSQP's verdict stands for. The status INFEASIBLE
      is then reported only when no admissible trajectory exists *)
  Definition certified (c : call F) (code : Z) (y v : nat -> F) : Prop :=
    (code = (-3)%Z -> primal_certificate c y) /\ (code = (-4)%Z -> dual_certificate c v).
  Theorem C58_status_infeasible_sound s h p x0 u0 z yy code obj s' res y v :
    0 < ph -> reached s h -> g_plant (cfg_run h) = Some p -> sized x0 nx 1 -> sized u0 nu 1 -> weights_nonneg d (cfg_run h) ->
    step s (LOptimize x0 u0 (ASolution z yy code obj)) = Ok (s', RResult res) ->
    certified (l_call d s x0 u0) code y v ->
    r_status res = INFEASIBLE -> forall x u, ~ admissible d p (cfg_run h) (vec x0) (vec u0) x u.
  Proof.
    intros P H Hp X U W E [C1 C2] St. destruct (C17_reported junk ejunk d s x0 u0 z yy code obj s' _ E) as (r & Er & _ & _ & S & _). injection Er as <-.
    rewrite S in St. destruct (C17_status_table code) as (_ & _ & T & _). apply T in St as [St|St].
    - exact (C58_infeasible_certified s h p x0 u0 y P H Hp X U (C1 St)).
    - destruct (C58_never_unbounded s h p x0 u0 v P H Hp X U W (C2 St)).
  Qed.
End Stmts.

(** *** Instances: the plant x' = x + u + 1 of PropLMPC1, the commands bounded below by 0 (both bounds active at the optimum) *)
Section Checks.
  Context {F : Type} {SO : ScalarOps F}.
  Definition clamp (l u : ext F) (v : F) : F :=
    let a := match l with Fin x => smax v x | _ => v end in match u with Fin x => smin a x | _ => a end.
  Definition nearly_b (e : F) (l u : ext F) (v : F) : bool := within_b l u (clamp l u v) && sleb (sabs (v - clamp l u v)%S) e.
  Lemma nearly_b_ok e l u v : nearly_b e l u v = true -> nearly e l u v.
  Proof. intros H. apply andb_true_iff in H as [H1 H2]. exists (clamp l u v). split; [now apply within_b_ok|exact H2]. Qed.
  Definition rows_nearly_b (e : F) (c : call F) (z : nat -> F) : bool :=
    forallb (fun r => nearly_b e (lo_of c r) (hi_of c r) (qp_row c r z)) (seq 0 (cl_m c)).
  Lemma rows_nearly_b_ok e c z : rows_nearly_b e c z = true -> rows_nearly e c z.
  Proof. intros H r Hr. unfold rows_nearly_b in H. rewrite forallb_forall in H. apply nearly_b_ok, H. rewrite in_seq. lia. Qed.
  Definition is_fin (l : ext F) (v : F) : bool := match l with Fin x => sleb x v && sleb v x | _ => false end.
  Definition kkt_b (ep ed : F) (c : call F) (z w y : nat -> F) : bool :=
    forallb (fun r => within_b (lo_of c r) (hi_of c r) (w r) && sleb (sabs (qp_row c r z - w r)%S) ep &&
      (sleb (y r) s0 || is_fin (hi_of c r) (w r)) && (sleb s0 (y r) || is_fin (lo_of c r) (w r))) (seq 0 (cl_m c)) &&
    forallb (fun i => sleb (sabs (qp_grad c z i + qp_At c y i)%S) ed) (seq 0 (cl_n c)).
End Checks.
Lemma is_fin_ok (l : ext Qc) v : is_fin l v = true -> l = Fin v.
Proof. destruct l; cbn [is_fin]; intros H; try discriminate H. apply qc_eq in H. now subst. Qed.
Lemma kkt_b_ok (ep ed : Qc) c z w y : kkt_b ep ed c z w y = true -> kkt ep ed c z w y.
Proof.
  intros H. apply andb_true_iff in H as [H1 H2]. rewrite forallb_forall in H1, H2. split.
  - intros r Hr. specialize (H1 r ltac:(rewrite in_seq; lia)). apply andb_true_iff in H1 as [H1 K4]. apply andb_true_iff in H1 as [H1 K3]. apply andb_true_iff in H1 as [K1 K2].
    refine (conj _ (conj K2 (conj _ _))).
    + now apply within_b_ok.
    + intros L. apply orb_true_iff in K3 as [K3|K3]; [|now apply is_fin_ok]. apply slt_nle in L. destruct (L K3).
    + intros L. apply orb_true_iff in K4 as [K4|K4]; [|now apply is_fin_ok]. apply slt_nle in L. destruct (L K4).
  - intros i Hi. apply (H2 i). rewrite in_seq. lia.
Qed.
Definition k_ops : list (lop Qc) := ex_ops ++ [LSetInputBounds (qe [0]%Z) (qe [5]%Z) slice_all].
Definition k_s := wS ex_d k_ops.
Definition k_h := wH ex_d k_ops.
Lemma k_reached : reached qj qej ex_d k_s k_h. Proof. w_reach. Qed.
Lemma k_plant : g_plant (cfg_run k_h) = Some (wp k_h). Proof. apply w_plant. vm_compute. reflexivity. Qed.
Lemma k_weights : weights_nonneg ex_d (cfg_run k_h).
Proof. refine (conj _ (conj _ _)); intros k j Hk Hj; two_steps k Hk; one_row j Hj; vm_compute; reflexivity. Qed.
Definition k_c := l_call ex_d k_s (qv [2]%Z) (qv [1]%Z).
Definition k_z : nat -> Qc := z_of ex_d (qf [1]%Z) (fun i _ => qf [2; 3; 4]%Z i) (fun i _ => qf [0; 0]%Z i).
Definition k_y : nat -> Qc := qf [3; 2; 3; -2; 2; -2; 0; 0; 0; -2; 0; -2]%Z.
Definition tenth : Qc := Q2Qc (1 # 10).
(** an exact optimum with active bounds; a point with a dual residual of 1/10; a point that violates rows by 1/10 and answers a call *)
Example C56_C57_instance : 0 < d_ph ex_d /\ reached qj qej ex_d k_s k_h /\ g_plant (cfg_run k_h) = Some (wp k_h) /\ weights_nonneg ex_d (cfg_run k_h) /\
  kkt s0 s0 k_c k_z (fun r => qp_row k_c r k_z) k_y /\
  kkt s0 tenth k_c k_z (fun r => qp_row k_c r k_z) (fun r => if r =? 0 then (k_y r + tenth)%S else k_y r) /\
  (let z := fun i => if i =? 0 then (k_z i + tenth)%S else k_z i in
   rows_nearly tenth k_c z /\ ~ qp_feasible k_c z /\
   exists s' r, l_step qj qej ex_d k_s (LOptimize (qv [2]%Z) (qv [1]%Z) (ASolution z k_y 1 (Fin (q 0)))) = Ok (s', r)).
Proof.
  refine (conj _ (conj k_reached (conj k_plant (conj k_weights (conj _ (conj _ _)))))); [cbn; lia| | |].
  - apply kkt_b_ok. vm_compute. reflexivity.
  - apply kkt_b_ok. vm_compute. reflexivity.
  - refine (conj _ (conj _ _)).
    + apply rows_nearly_b_ok. vm_compute. reflexivity.
    + intros H. apply feasible_b_ok in H. vm_compute in H. discriminate H.
    + assert (E : is_ok (l_step qj qej ex_d k_s (LOptimize (qv [2]%Z) (qv [1]%Z) (ASolution (fun i => if i =? 0 then (k_z i + tenth)%S else k_z i) k_y 1 (Fin (q 0))))) = true) by (vm_compute; reflexivity).
      destruct (l_step _ _ _ _ _) as [[s' r]|]; [|discriminate E]. exists s', r. reflexivity.
Qed.
(** weights are needed for C57: with a negative weight the optimality conditions can hold at a point that is not optimal *)
Definition n_ops5 : list (lop Qc) := [LSetModel (qm 1 1 [[1%Z]]) (qm 1 1 [[1%Z]]) (qm 1 1 [[1%Z]]); LSetWeights (qv [-1]%Z) (qv [0]%Z) (qv [0]%Z) slice_all].
Definition n5_s := wS ex_d n_ops5.
Definition n5_h := wH ex_d n_ops5.
Definition n5_z : nat -> Qc := z_of ex_d (qf [0]%Z) (fun i _ => qf [0; 1; 2]%Z i) (fun i _ => qf [1; 1]%Z i).
Lemma n5_reached : reached qj qej ex_d n5_s n5_h. Proof. w_reach. Qed.
Lemma n5_plant : g_plant (cfg_run n5_h) = Some (wp n5_h). Proof. apply w_plant. vm_compute. reflexivity. Qed.
Lemma n5_feasible : qp_feasible (l_call ex_d n5_s (qv [0]%Z) (qv [0]%Z)) n5_z. Proof. apply feasible_b_ok. vm_compute. reflexivity. Qed.
Lemma n5_admissible : admissible ex_d (wp n5_h) (cfg_run n5_h) (vec (qv [0]%Z)) (vec (qv [0]%Z)) (z_state ex_d n5_z) (z_cmd ex_d n5_z).
Proof. exact (proj1 (proj1 (C01_feasible_iff_admissible qj qej ex_d n5_s n5_h (wp n5_h) (qv [0]%Z) (qv [0]%Z) n5_z (Nat.lt_0_succ 1) n5_reached n5_plant (conj eq_refl eq_refl) (conj eq_refl eq_refl)) n5_feasible)). Qed.
Lemma not_le_b (a b : Qc) : sleb a b = false -> ~ (a <= b)%S.
Proof. unfold sle. intros ->. intros H. discriminate H. Qed.
Lemma n5_worse : ~ (tracking_cost ex_d (wp n5_h) (cfg_run n5_h) (vec (qv [0]%Z)) (z_state ex_d (qf [])) (z_cmd ex_d (qf [])) <=
    tracking_cost ex_d (wp n5_h) (cfg_run n5_h) (vec (qv [0]%Z)) (z_state ex_d n5_z) (z_cmd ex_d n5_z))%S.
Proof. apply not_le_b. vm_compute. reflexivity. Qed.
Lemma n5_kkt : kkt s0 s0 (l_call ex_d n5_s (qv [0]%Z) (qv [0]%Z)) (qf []) (qf []) (qf []).
Proof. apply kkt_b_ok. vm_compute. reflexivity. Qed.
Theorem C57_weights_needed :
  ~ (forall d s h p (x0 u0 : mat Qc) z w y, 0 < d_ph d -> reached qj qej d s h -> g_plant (cfg_run h) = Some p -> sized x0 (d_nx d) 1 -> sized u0 (d_nu d) 1 ->
       kkt s0 s0 (l_call d s x0 u0) z w y ->
       forall x u, admissible d p (cfg_run h) (vec x0) (vec u0) x u ->
         (tracking_cost d p (cfg_run h) (vec u0) (z_state d z) (z_cmd d z) <= tracking_cost d p (cfg_run h) (vec u0) x u)%S).
Proof.
  intros H.
  exact (n5_worse (H ex_d n5_s n5_h (wp n5_h) (qv [0]%Z) (qv [0]%Z) (qf []) (qf []) (qf []) (Nat.lt_0_succ 1) n5_reached n5_plant (conj eq_refl eq_refl) (conj eq_refl eq_refl)
    n5_kkt _ _ n5_admissible)).
Qed.
(** measured state 2 against an upper bound 1 on the states: infeasible, with a certificate *)
Definition i_ops : list (lop Qc) := ex_ops ++ [LSetStateBounds (qe [0]%Z) (qe [1]%Z) slice_all].
Definition i_c := l_call ex_d (wS ex_d i_ops) (qv [2]%Z) (qv [1]%Z).
Definition i_y : nat -> Qc := fun r => if (r =? 0) || (r =? 6) then q 1 else q 0.
Example C58_instance : 0 < d_ph ex_d /\ reached qj qej ex_d (wS ex_d i_ops) (wH ex_d i_ops) /\ g_plant (cfg_run (wH ex_d i_ops)) = Some (wp (wH ex_d i_ops)) /\
  weights_nonneg ex_d (cfg_run (wH ex_d i_ops)) /\ certified i_c (-3) i_y (qf []) /\ primal_certificate i_c i_y /\
  exists s' res, l_step qj qej ex_d (wS ex_d i_ops) (LOptimize (qv [2]%Z) (qv [1]%Z) (ASolution (qf []) i_y (-3) PInf)) = Ok (s', RResult res) /\ r_status res = INFEASIBLE.
Proof.
  assert (PC : primal_certificate i_c i_y).
  { split.
    - assert (E : forallb (fun i => sleb (qp_At i_c i_y i) s0 && sleb s0 (qp_At i_c i_y i)) (seq 0 (cl_n i_c)) = true) by (vm_compute; reflexivity).
      rewrite forallb_forall in E. intros i Hi. apply qc_eq. apply (E i). rewrite in_seq. lia.
    - exists (fun r => match support (lo_of i_c r) (hi_of i_c r) (i_y r) with Some t => t | None => s0 end). split; [|vm_compute; reflexivity].
      assert (E : forallb (fun r => match support (lo_of i_c r) (hi_of i_c r) (i_y r) with Some _ => true | None => false end) (seq 0 (cl_m i_c)) = true) by (vm_compute; reflexivity).
      rewrite forallb_forall in E. intros r Hr. specialize (E r ltac:(rewrite in_seq; lia)). destruct (support _ _ _); [reflexivity|discriminate E]. }
  refine (conj _ (conj _ (conj _ (conj _ (conj (conj (fun _ => PC) _) (conj PC _)))))).
  - cbn; lia.
  - w_reach.
  - apply w_plant. vm_compute. reflexivity.
  - refine (conj _ (conj _ _)); intros k j Hk Hj; two_steps k Hk; one_row j Hj; vm_compute; reflexivity.
  - intros E. vm_compute in E. discriminate E.
  - assert (E : match l_step qj qej ex_d (wS ex_d i_ops) (LOptimize (qv [2]%Z) (qv [1]%Z) (ASolution (qf []) i_y (-3) PInf)) with
      Ok (_, RResult r) => match r_status r with INFEASIBLE => true | _ => false end | _ => false end = true) by (vm_compute; reflexivity).
    destruct (l_step _ _ _ _ _) as [[s' []]|]; try discriminate E. exists s', r. split; [reflexivity|]. destruct (r_status r); try discriminate E. reflexivity.
Qed.
