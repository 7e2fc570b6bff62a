(** Property C87, the other side: without the bounds of the last step the closed loop need not be stable, although every period is solved to optimality. *)
From Coq Require Import Bool Arith ZArith List Lia QArith Qcanon Ring Field.
From Verif Require Import Scalar Sums Mat Slice Csc CscProof Builder BuilderEnt LMPC SpecLMPC SpecQP SpecCert LMPCRef LQP LRows LUniq Wit PropLMPC1 PropLMPC2 PropLMPC3 PropLMPC4 PropLMPC5 SpecLoop PropLoop SpecMeta PropMeta SpecStab PropStab.
Import ListNotations.
Local Open Scope nat_scope.

Definition fd : dims := mkDims 1 1 0 1 2 2.
Section Free.
  Context {F : Type} {SO : ScalarOps F} {SL : ScalarLaws F}.
  Add Field SFfree : (@s_field F SO SL).
  Lemma opt_of_least junk ejunk (d : dims) (s : lmpc F) h p x0 u0 z : 0 < d_ph d -> SpecLMPC.reached junk ejunk d s h -> g_plant (cfg_run h) = Some p -> sized x0 (d_nx d) 1 -> sized u0 (d_nu d) 1 ->
    qp_feasible (l_call d s x0 u0) z ->
    (forall X' U', admissible d p (cfg_run h) (vec x0) (vec u0) X' U' ->
       (tracking_cost d p (cfg_run h) (vec u0) (z_state d z) (z_cmd d z) <= tracking_cost d p (cfg_run h) (vec u0) X' U')%S) ->
    qp_optimal (l_call d s x0 u0) z.
  Proof.
    intros P R G X U Q Le. split; [exact Q|]. intros z' Q'. destruct (C02_cost_is_tracking_cost junk ejunk d s h p x0 u0 P R G X U) as [K C].
    destruct (proj1 (C01_feasible_iff_admissible junk ejunk d s h p x0 u0 z P R G X U) Q) as [A T]. destruct (proj1 (C01_feasible_iff_admissible junk ejunk d s h p x0 u0 z' P R G X U) Q') as [A' T'].
    pose proof (Le _ _ A') as L. rewrite <- (C z T), <- (C z' T') in L. apply (proj1 (sle_add_cancel _ _ _)) in L. apply le_half. exact L.
  Qed.
  (** the weighted cost of a plan of two steps for x+ = 2x + u, output x, references 0, weight w on the commands *)
  Definition free_cost (w x um u0 u1 : F) : F :=
    (sq x + sq (s2 * x + u0) + sq (s2 * (s2 * x + u0) + u1) + w * (sq um + sq u0 + sq u1))%S.
  Record free_data (p : plant F) (c : cfg F) (w : F) : Prop := {
    fr_A : pl_A p 0 0 = s2; fr_B : pl_B p 0 0 = s1; fr_C : pl_C p 0 0 = s1;
    fr_w : forall k, k < 2 -> g_wy c k 0 = s1 /\ g_wu c k 0 = w /\ g_wdu c k 0 = s0;
    fr_r : forall k, k < 2 -> g_yr c k 0 = s0 /\ g_ur c k 0 = s0 }.
  Lemma free_tracking p c w x0 um X U : free_data p c w -> trajectory fd p c x0 X U -> tracking_cost fd p c um X U = free_cost w (x0 O) (um O) (U O O) (U 1%nat O).
  Proof.
    intros [A B C W R] [T0 T1]. destruct (W 0 ltac:(lia)) as (W0 & W1 & W2). destruct (W 1 ltac:(lia)) as (V0 & V1 & V2). destruct (R 0 ltac:(lia)) as (R0 & R1). destruct (R 1 ltac:(lia)) as (S0 & S1).
    pose proof (T0 0 ltac:(cbn; lia)) as E0. pose proof (T1 0 0 ltac:(cbn; lia) ltac:(cbn; lia)) as E1. pose proof (T1 1 0 ltac:(cbn; lia) ltac:(cbn; lia)) as E2.
    cbn [d_nx d_nu d_ndu fd ssum] in E1, E2. rewrite A, B in E1, E2. unfold tracking_cost, output, dcmd, stp, free_cost. cbn [d_ph d_nx d_nu d_ny d_ndu fd Nat.add ssum ucmd Nat.pred].
    rewrite ?W0, ?W1, ?W2, ?V0, ?V1, ?V2, ?R0, ?R1, ?S0, ?S1, C, E2, E1, E0. unfold sq. ring.
  Qed.
  Lemma free_least w x um u0 u1 v0 v1 : (s0 <= w)%S -> (s2 * (s2 * x + u0) + u1 + w * u1 = s0)%S -> (s2 * x + u0 + s2 * (s2 * (s2 * x + u0) + u1) + w * u0 = s0)%S ->
    (free_cost w x um u0 u1 <= free_cost w x um v0 v1)%S.
  Proof.
    intros W H1 H0. set (e := (v0 - u0)%S). set (f := (v1 - u1)%S). apply sle_sub_0.
    replace (free_cost w x um v0 v1 - free_cost w x um u0 u1)%S with
      (sq e + sq (s2 * e + f) + w * (sq e + sq f) + s2 * (e * (s2 * x + u0 + s2 * (s2 * (s2 * x + u0) + u1) + w * u0) + f * (s2 * (s2 * x + u0) + u1 + w * u1)))%S by (unfold free_cost, e, f, sq, s2; ring).
    rewrite H0, H1. replace (sq e + sq (s2 * e + f) + w * (sq e + sq f) + s2 * (e * s0 + f * s0))%S with (sq e + sq (s2 * e + f) + w * (sq e + sq f))%S by ring.
    assert (N : forall a b : F, (s0 <= a)%S -> (s0 <= b)%S -> (s0 <= a + b)%S) by (intros a b Ha Hb; replace (s0 : F) with (s0 + s0)%S by ring; now apply sle_add).
    apply N; [apply N; apply ssq_nonneg|]. apply smul_nonneg; [exact W|]. apply N; apply ssq_nonneg.
  Qed.
  Lemma free_spent_ring (x um u w : F) : (s0 + s1 * sq (s0 + s1 * x + s0 - s0) + (s0 + w * sq (um - s0)) + (s0 + s0 * sq (u - um)) = sq x + w * sq um)%S.
  Proof. unfold sq. ring. Qed.
End Free.

(** x+ = 2x + u, ph = ch = 2, output x with weight 1, commands with weight 9, target 0, no bounds *)
Local Notation one := (qm 1 1 [[1%Z]]).
Definition ub_ops : list (lop Qc) :=
  [ LSetModel (qm 1 1 [[2%Z]]) one one; LSetWeights (qv [1]%Z) (qv [9]%Z) (qv [0]%Z) slice_all; LSetRefs (qv [0]%Z) (qv [0]%Z) (qv [0]%Z) slice_all ].
Notation ub_s := (wS fd ub_ops). Notation ub_h := (wH fd ub_ops).
Lemma ub_reached : SpecLMPC.reached qj qej fd ub_s ub_h. Proof. w_reach. Qed.
Lemma ub_plant : g_plant (cfg_run ub_h) = Some (wp ub_h). Proof. apply w_plant. vm_compute. reflexivity. Qed.
Lemma ub_data : free_data (wp ub_h) (cfg_run ub_h) (q 9).
Proof. constructor; try (apply qc_eq; vm_compute; reflexivity); intros k Hk; (destruct k as [|[|k]]; [| |lia]); repeat apply conj; apply qc_eq; vm_compute; reflexivity. Qed.
Lemma ub_weights : weights_nonneg fd (cfg_run ub_h).
Proof. refine (conj _ (conj _ _)); intros k j Hk Hj; one_row j Hj; (destruct k as [|[|k]]; [| |cbn in Hk; lia]); vm_compute; reflexivity. Qed.
Definition ub_z (um x x1 x2 u u1 : Z) : nat -> Qc := z_of fd (qf [um]) (fun i _ => qf [x; x1; x2] i) (fun i _ => qf [u; u1] i).
(** stationarity of the plan (x; u, u1) *)
Definition stat_b (x u u1 : Qc) : bool :=
  let a := (s2 * (s2 * x + u) + u1 + q 9 * u1)%S in let b := (s2 * x + u + s2 * (s2 * (s2 * x + u) + u1) + q 9 * u)%S in
  sleb a s0 && sleb s0 a && (sleb b s0 && sleb s0 b).
Lemma ub_optimal s h x u z : SpecLMPC.reached qj qej fd s h -> cfg_run h = cfg_run ub_h -> sized x 1 1 -> sized u 1 1 -> feasible_b (l_call fd s x u) z = true ->
  stat_b (vec x 0) (z_cmd fd z 0 0) (z_cmd fd z 1 0) = true -> qp_optimal (l_call fd s x u) z.
Proof.
  intros R E X U Q St. apply feasible_b_ok in Q. assert (P : 0 < d_ph fd) by (cbn; lia). pose proof ub_plant as G. rewrite <- E in G.
  apply (opt_of_least qj qej fd s h (wp ub_h) x u z P R G X U Q). intros X' U' A'. destruct (proj1 (C01_feasible_iff_admissible qj qej fd s h (wp ub_h) x u z P R G X U) Q) as [A _].
  rewrite E in A, A' |- *. rewrite (free_tracking _ _ _ _ _ _ _ ub_data (proj1 A)), (free_tracking _ _ _ _ _ _ _ ub_data (proj1 A')).
  unfold stat_b in St. cbv zeta in St. apply andb_true_iff in St. destruct St as [S1 S0]. apply free_least; [vm_compute; reflexivity|apply qc_eq; exact S1|apply qc_eq; exact S0].
Qed.
Lemma free_spent pe w : free_data (pe_plant pe) (pe_cfg pe) w -> pe_spent fd pe = (sq (vec (pe_x pe) 0) + w * sq (vec (pe_u pe) 0))%S :> Qc.
Proof.
  intros [A B C W R]. destruct (W 0 ltac:(lia)) as (W0 & W1 & W2). destruct (R 0 ltac:(lia)) as (R0 & R1). unfold pe_spent, period_cost, out_now. cbn [d_nx d_nu d_ny d_ndu fd ssum].
  rewrite W0, W1, W2, R0, R1, C. exact (free_spent_ring _ _ _ _).
Qed.
Definition ub_step (s : lmpc Qc) x u z := l_step qj qej fd s (LOptimize x u (ASolution z (fun _ => q 0) 1%Z (Fin (q 0)))).
Definition cmd_b (r : outcome (lmpc Qc * ret Qc)) (v : Z) : bool := match r with Ok (s', _) => sleb (vec (r_cmd (o_res (l_o s'))) 0) (q v) && sleb (q v) (vec (r_cmd (o_res (l_o s'))) 0) | UB => false end.
Lemma cmd_is s x u z s' r v : ub_step s x u z = Ok (s', RResult r) -> cmd_b (ub_step s x u z) v = true -> vec (r_cmd r) 0 = q v.
Proof. intros E B. rewrite <- (step_res qj qej fd _ _ _ _ _ _ E). rewrite E in B. apply qc_eq. exact B. Qed.

Definition ub_z1 := (ub_z (0) (39304) (52020) (93636) (-26588) (-10404)). Definition ub_z2 := (ub_z (-26588) (52020) (68850) (123930) (-35190) (-13770)). Definition ub_z3 := (ub_z (-35190) (68850) (91125) (164025) (-46575) (-18225)).
Lemma ub_asks : asks_for_rest fd (wp ub_h) (cfg_run ub_h) (qf [0]%Z) (qf [0]%Z).
Proof.
  constructor.
  - cbn. lia.
  - intros j Hj. one_row j Hj. apply qc_eq. vm_compute. reflexivity.
  - intros k j _ Hj. cbn in Hj. lia.
  - intros k Hk. two k Hk; (split; intros j Hj; one_row j Hj; try split; apply qc_eq; vm_compute; reflexivity).
  - intros k Hk. two k Hk; (split; intros j Hj; one_row j Hj; try split; apply qc_eq; vm_compute; reflexivity).
  - intros k j Hk Hj. one_row j Hj. two k Hk; split; apply ext_eqb_ok; vm_compute; reflexivity.
  - intros k j Hk Hj. one_row j Hj. two k Hk; split; apply ext_eqb_ok; vm_compute; reflexivity.
  - intros k j Hk Hj. one_row j Hj. two k Hk; split; apply ext_eqb_ok; vm_compute; reflexivity.
  - intros k Hk. two k Hk; split; apply ext_eqb_ok; vm_compute; reflexivity.
  - intros j Hj. one_row j Hj. apply within_b_ok. vm_compute. reflexivity.
  - intros j Hj. one_row j Hj. apply within_b_ok. vm_compute. reflexivity.
Qed.
Definition onres (o : outcome (lmpc Qc * ret Qc)) (f : lmpc Qc -> lresult Qc -> bool) : bool := match o with Ok (s, RResult r) => f s r | _ => false end.
Lemma onres_ok o f : onres o f = true -> exists s r, o = Ok (s, RResult r) /\ f s r = true.
Proof. destruct o as [[s [| | |r]]|]; try discriminate. intros H. exists s, r. exact (conj eq_refl H). Qed.
Definition ub_all : bool :=
  onres (ub_step ub_s (qv [39304]%Z) (qv [0]%Z) ub_z1) (fun s1 r1 =>
    feasible_b (l_call fd s1 (after fd (wp ub_h) (cfg_run ub_h) (qv [39304]%Z) (r_cmd r1)) (r_cmd r1)) ub_z2 &&
    (cmd_b (ub_step s1 (after fd (wp ub_h) (cfg_run ub_h) (qv [39304]%Z) (r_cmd r1)) (r_cmd r1) ub_z2) (-35190) &&
    onres (ub_step s1 (after fd (wp ub_h) (cfg_run ub_h) (qv [39304]%Z) (r_cmd r1)) (r_cmd r1) ub_z2) (fun s2 r2 =>
      feasible_b (l_call fd s2 (after fd (wp ub_h) (cfg_run ub_h) (after fd (wp ub_h) (cfg_run ub_h) (qv [39304]%Z) (r_cmd r1)) (r_cmd r2)) (r_cmd r2)) ub_z3 &&
      onres (ub_step s2 (after fd (wp ub_h) (cfg_run ub_h) (after fd (wp ub_h) (cfg_run ub_h) (qv [39304]%Z) (r_cmd r1)) (r_cmd r2)) (r_cmd r2) ub_z3) (fun _ _ => true)))).
(** Without the bounds of the last step: every period asks for the rest point 0 and is solved to optimality, yet the state grows - 39304, 52020, 68850 - and
    the first three periods already cost more than the plan of the first. *)
Theorem C87_without_last_step_refuted : exists s h x u pe1 pe2 pe3, control_run qj qej fd s h x u [pe1; pe2; pe3] /\
  (forall q, In q [pe1; pe2; pe3] -> asks_for_rest fd (pe_plant q) (pe_cfg q) (qf [0]%Z) (qf [0]%Z) /\ solved_optimally q /\ weights_nonneg fd (pe_cfg q) /\ forall q', In q' [pe1; pe2; pe3] -> same_data fd (pe_cfg q) (pe_cfg q')) /\
  (vec (pe_x pe1) 0 = q 39304 /\ vec (pe_x pe2) 0 = q 52020 /\ vec (pe_x pe3) 0 = q 68850) /\
  ~ (total (map (pe_spent fd) [pe1; pe2; pe3]) <= pe_planned fd pe1)%S.
Proof.
  pose proof (w_run fd ub_ops (qv [39304]%Z) (qv [0]%Z) ltac:(repeat split) ltac:(repeat split) ltac:(all_sized) ltac:(all_proper) ltac:(reflexivity) ltac:(vm_compute; reflexivity)) as R0.
  pose proof ub_plant as G. assert (P : 0 < d_ph fd) by (cbn; lia).
  assert (B : ub_all = true) by (vm_compute; reflexivity).
  assert (Pl : match ub_step ub_s (qv [39304]%Z) (qv [0]%Z) ub_z1 with Ok (s', _) =>
      sleb (tracking_cost fd (wp ub_h) (cfg_run ub_h) (vec (qv [0]%Z)) (fun k j => ent (q_state (o_seq (l_o s'))) k j) (fun k j => ent (q_input (o_seq (l_o s'))) k j)) (q 20355069952) | UB => false end = true) by (vm_compute; reflexivity).
  assert (B1 : cmd_b (ub_step ub_s (qv [39304]%Z) (qv [0]%Z) ub_z1) (-26588) = true) by (vm_compute; reflexivity).
  unfold ub_all in B. apply onres_ok in B. destruct B as (s1 & r1 & E1 & B). pose proof (cmd_is _ _ _ _ _ _ _ E1 B1) as C1. clear B1. rewrite E1 in Pl.
  set (p := wp ub_h) in *. set (c := cfg_run ub_h) in *. set (x1 := after fd p c (qv [39304]%Z) (r_cmd r1)) in *.
  pose proof (next_period fd _ _ _ _ _ p c _ s1 r1 R0 eq_refl G E1) as R1. fold x1 in R1.
  apply andb_true_iff in B. destruct B as [Q2 B]. apply andb_true_iff in B. destruct B as [B2 B]. apply onres_ok in B. destruct B as (s2 & r2 & E2 & B). pose proof (cmd_is _ _ _ _ _ _ _ E2 B2) as C2. clear B2.
  set (x2 := after fd p c x1 (r_cmd r2)) in *. pose proof (next_period fd _ _ _ _ _ p c _ s2 r2 R1 (cfg_same _ _ _ _ _) G E2) as R2. fold x2 in R2.
  apply andb_true_iff in B. destruct B as [Q3 B]. apply onres_ok in B. destruct B as (s3 & r3 & E3 & _). set (x3 := after fd p c x2 (r_cmd r3)) in *.
  pose proof (next_period fd _ _ _ _ _ p c _ s3 r3 R2 ltac:(rewrite cfg_same; apply cfg_same) G E3) as R3. fold x3 in R3.
  assert (X1 : vec x1 0 = q 52020) by (unfold x1, after, vec at 1; cbn [ent]; unfold next_state; cbn [d_nu d_nx d_ndu fd ssum]; rewrite C1; apply qc_eq; vm_compute; reflexivity).
  assert (X2 : vec x2 0 = q 68850) by (unfold x2, after, vec at 1; cbn [ent]; unfold next_state; cbn [d_nu d_nx d_ndu fd ssum]; rewrite C2, X1; apply qc_eq; vm_compute; reflexivity).
  destruct (run_reached _ _ _ _ _ _ _ _ P R1) as (Rs1 & X1s & U1s). destruct (run_reached _ _ _ _ _ _ _ _ P R2) as (Rs2 & X2s & U2s).
  assert (S1 : qp_optimal (l_call fd ub_s (qv [39304]%Z) (qv [0]%Z)) ub_z1).
  { apply (ub_optimal _ ub_h); [exact ub_reached|reflexivity|repeat split|repeat split|vm_compute; reflexivity|vm_compute; reflexivity]. }
  assert (S2 : qp_optimal (l_call fd s1 x1 (r_cmd r1)) ub_z2).
  { apply (ub_optimal _ _ _ _ _ Rs1 (cfg_same _ _ _ _ _) X1s U1s Q2). rewrite X1. vm_compute. reflexivity. }
  assert (S3 : qp_optimal (l_call fd s2 x2 (r_cmd r2)) ub_z3).
  { apply (ub_optimal _ _ _ _ _ Rs2 ltac:(rewrite cfg_same; apply cfg_same) X2s U2s Q3). rewrite X2. vm_compute. reflexivity. }
  cbn [app] in R3. eexists _, _, _, _, _, _, _. refine (conj R3 (conj _ (conj (conj _ (conj _ _)) _))); cbn [pe_x pe_u pe_res].
  - intros pe Ip. destruct Ip as [<-|[<-|[<-|[]]]]; (refine (conj ub_asks (conj _ (conj ub_weights _))); [|intros q0 [<-|[<-|[<-|[]]]]; apply same_data_refl]).
    + exists ub_z1, (fun _ => q 0), 1%Z, (Fin (q 0)). exact (conj eq_refl S1).
    + exists ub_z2, (fun _ => q 0), 1%Z, (Fin (q 0)). exact (conj eq_refl S2).
    + exists ub_z3, (fun _ => q 0), 1%Z, (Fin (q 0)). exact (conj eq_refl S3).
  - reflexivity.
  - exact X1.
  - exact X2.
  - intros L. cbn [map total] in L. do 3 rewrite (free_spent _ (q 9)) in L by exact ub_data. cbn [pe_x pe_u] in L. rewrite X1 in L. rewrite X2, C1, C2 in L.
    pose proof (sle_trans _ _ _ L Pl) as L'. vm_compute in L'. discriminate L'.
Qed.
