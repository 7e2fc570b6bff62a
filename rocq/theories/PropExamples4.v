(** Property C90, linear part: quadrotor_ex.cpp. *)
From Coq Require Import Bool Arith ZArith List Lia QArith Qcanon Ring Field.
From Verif Require Import Scalar Sums Mat Slice Builder LMPC LMPCRef SpecLMPC SpecQP LQP PropLMPC1 PropLMPC2 PropLMPC3 PropLMPC4 PropLMPC5 Wit ExampleQuad.
From Verif Require LUniq.
Import ListNotations.
Local Open Scope nat_scope.

Section Quad.
  Context {F : Type} {SO : ScalarOps F} {SL : ScalarLaws F}.
  Add Field SFquad : (@s_field F SO SL).
  Variables (junk : nat -> nat -> F) (ejunk : nat -> nat -> ext F) (H : nat).
  Variables (A B : nat -> nat -> F) (Wy Wu Wdu : nat -> F) (xlo xhi : nat -> ext F) (ulo uhi : nat -> F) (yref : nat -> F) (par : lparams F).
  Notation d := (quad_dims H).
  Notation setup := (quad_setup H A B Wy Wu Wdu xlo xhi ulo uhi yref par).
  Notation step := (l_step junk ejunk d).
  Notation reached := (reached junk ejunk d).
  Notation x0 := (quad_x0 (F := F)). Notation u0 := (quad_u0 (F := F)).
  Hypothesis P : 0 < H.
  (** what the constants of the program satisfy *)
  Hypothesis Wy0 : forall j, j < 12 -> (s0 <= Wy j)%S.
  Hypothesis Wu0 : forall j, j < 4 -> (s0 < Wu j)%S.
  Hypothesis Wdu0 : forall j, j < 4 -> (s0 <= Wdu j)%S.
  Hypothesis X0 : forall j, j < 12 -> within (xlo j) (xhi j) s0.
  Hypothesis U0 : forall j, j < 4 -> (ulo j <= s0)%S /\ (s0 <= uhi j)%S.

  (** the calls of the program before optimize() are defined and accepted *)
  Definition returns : list (ret F) := [RBool true; RBool true; RBool true; RBool true; RBool true; RBool true; RBool true; RVoid].
  Definition quad_h : list (lop F * ret F) := combine setup returns.
  Lemma play_returns ops : forall s s' h, l_play junk ejunk d s ops = Ok (s', h) -> map fst h = ops /\ Forall (fun e => exists s1 s2, step s1 (fst e) = Ok (s2, snd e)) h.
  Proof using.
    induction ops as [|op ops IH]; intros s s' h E; cbn [l_play] in E; [injection E as <- <-; split; [reflexivity|constructor]|].
    destruct (step s op) as [[s1 r]|] eqn:E1; [|discriminate E]. destruct (l_play junk ejunk d s1 ops) as [[s2 h2]|] eqn:E2; [|discriminate E]. injection E as <- <-.
    destruct (IH _ _ _ E2) as [A1 A2]. split; [cbn [map fst]; now rewrite A1|]. constructor; [exists s, s1; exact E1|exact A2].
  Qed.
  Lemma acc : slice_accepted H (all_steps H).
  Proof using P. right. cbn. lia. Qed.
  Lemma setup_history s h : reached s h -> map fst h = setup -> h = quad_h.
  Proof using P.
    intros (ops & _ & _ & E) M. destruct (play_returns _ _ _ _ E) as [_ G]. unfold quad_h, quad_setup in *. revert M G. 
    destruct h as [|[o1 r1] [|[o2 r2] [|[o3 r3] [|[o4 r4] [|[o5 r5] [|[o6 r6] [|[o7 r7] [|[o8 r8] [|]]]]]]]]]; cbn [map fst]; intros M G; try discriminate M.
    injection M as -> -> -> -> -> -> -> ->. cbn [combine returns].
    repeat match goal with G : Forall _ (_ :: _) |- _ => let s1 := fresh "s1" in let s2 := fresh "s2" in let E0 := fresh "E0" in inversion_clear G as [|? ? (s1 & s2 & E0) G']; rename G' into G; apply C10_return_values in E0; cbn [fst snd] in E0 end.
    repeat match goal with E : (_ /\ slice_accepted _ _) \/ (_ /\ ~ slice_accepted _ _ /\ _) |- _ => destruct E as [[-> _]|[_ [N _]]]; [|now destruct (N acc)] end.
    subst. reflexivity.
  Qed.
  Notation c := (cfg_run quad_h).
  Lemma c_steps k : k < H -> in_slice (all_steps H) k = true.
  Proof using P. intros Hk. unfold in_slice, all_steps. cbn [sl_start sl_end]. rewrite (proj2 (Z.leb_le _ _)), (proj2 (Z.ltb_lt _ _)) by lia. apply orb_true_r. Qed.
  Definition the_plant : plant F := mkPlant A B identity.
  Lemma c_plant : g_plant c = Some the_plant. Proof using. reflexivity. Qed.
  Lemma c_w k : k < H -> (forall j, g_wy c k j = Wy j) /\ (forall j, g_wu c k j = Wu j) /\ (forall j, g_wdu c k j = Wdu j).
  Proof using P. intros Hk. pose proof (c_steps k Hk) as E. repeat split; intros j; cbn; unfold put; rewrite E; reflexivity. Qed.
  Lemma c_x k : k < H -> (forall j, g_xlo c k j = xlo j) /\ (forall j, g_xhi c k j = xhi j).
  Proof using P. intros Hk. pose proof (c_steps k Hk) as E. split; intros j; cbn; unfold put; rewrite E; reflexivity. Qed.
  Lemma c_y k : k < H -> (forall j, g_ylo c k j = MInf) /\ (forall j, g_yhi c k j = PInf).
  Proof using P. intros Hk. pose proof (c_steps k Hk) as E. split; intros j; cbn; unfold put; rewrite E; reflexivity. Qed.
  Lemma c_u k : k < H -> (forall j, g_ulo c k j = Fin (ulo j)) /\ (forall j, g_uhi c k j = Fin (uhi j)).
  Proof using P. intros Hk. pose proof (c_steps k Hk) as E. split; intros j; cbn; unfold put; rewrite E; reflexivity. Qed.
  Lemma c_r k : k < H -> (forall j, g_yr c k j = yref j) /\ (forall j, g_ur c k j = s0) /\ (forall j, g_dur c k j = s0).
  Proof using P. intros Hk. pose proof (c_steps k Hk) as E. repeat split; intros j; cbn; unfold put; rewrite E; reflexivity. Qed.
  Lemma c_rest : (forall k j, g_d c k j = s0) /\ (forall k, g_slo c k = MInf) /\ (forall k, g_shi c k = PInf).
  Proof using. repeat split. Qed.
  Lemma c_nonneg : weights_nonneg d c.
  Proof using P Wy0 Wu0 Wdu0 SL. refine (conj _ (conj _ _)); intros k j Hk Hj; destruct (c_w k Hk) as (E1 & E2 & E3); [rewrite E1|rewrite E2|rewrite E3]; auto. apply slt_le. auto. Qed.
  Lemma c_weighted : commands_weighted d c.
  Proof using P Wu0. intros k j Hk Hj. left. destruct (c_w k Hk) as (E1 & E2 & E3). rewrite E2. auto. Qed.
  Lemma stp_lt i : i <= H -> stp i < H. Proof using P. unfold stp. lia. Qed.
  (** hovering: nothing moves *)
  Lemma hover_adm : admissible d the_plant c (vec x0) (vec u0) (fun _ _ => s0) (fun _ _ => s0).
  Proof using P X0 U0 SL.
    destruct c_rest as (D & S1 & S2). 
    assert (U : forall i j, ucmd (vec u0) (fun _ _ => s0) i j = (s0 : F)) by (intros [|i] j; reflexivity).
    refine (conj (conj _ _) (conj _ (conj _ (conj _ (conj _ _))))).
    - intros j Hj. reflexivity.
    - intros k j Hk Hj. rewrite !ssum_zero; [ring| | |]; intros l Hl; [rewrite D| |]; ring.
    - intros i j Hi Hj. destruct (c_x (stp i) (stp_lt i Hi)) as [-> ->]. auto.
    - intros i j Hi Hj. destruct (c_y (stp i) (stp_lt i Hi)) as [-> ->]. split; exact I.
    - intros i j Hi Hj. rewrite U. assert (L : Nat.min i (d_ph d - 1) < H) by (cbn [d_ph quad_dims]; lia). destruct (c_u _ L) as [-> ->]. destruct (U0 j Hj). split; assumption.
    - intros i j Hi Hi2 Hj. rewrite U. reflexivity.
    - intros i Hi. rewrite S1, S2. split; exact I.
  Qed.

  Lemma H_setup s h : reached s h -> map fst h = setup -> h = quad_h /\ g_plant (cfg_run h) = Some the_plant.
  Proof using P. intros R M. pose proof (setup_history s h R M) as ->. split; reflexivity. Qed.
  Lemma sx0 : sized x0 12 1. Proof using. split; reflexivity. Qed.
  Lemma su0 : sized u0 4 1. Proof using. split; reflexivity. Qed.

  Lemma quad_safe : (Z.of_nat H < 1073741824)%Z -> Forall (op_safe d) setup.
  Proof using P.
    intros small. unfold quad_setup. assert (SI : slice_int (all_steps H) /\ slice_safe (all_steps H)).
    { unfold slice_int, slice_safe, all_steps, is_int, int_min, int_max. cbn [sl_start sl_end].
      split; [split; [reflexivity|rewrite andb_true_iff, !Z.leb_le; lia]|right; right; lia]. }
    destruct SI as [SI SS]. repeat (constructor; [cbn [op_safe]; repeat (first [assumption | exact (proj1 SI) | exact (proj2 SI) | reflexivity | discriminate | split])|]). constructor.
  Qed.
  (** C90, quadrotor_ex.cpp: the calls before optimize() are defined, and every one is accepted; so is optimize(), unless setting up the
      solver fails *)
  Theorem C90_quadrotor_setup : (Z.of_nat H < 1073741824)%Z -> exists s h, reached s h /\ map fst h = setup /\ (forall op r, In (op, r) h -> r = RBool true \/ r = RVoid) /\
    forall a, a <> ASetupFailed -> exists s' r, step s (LOptimize x0 u0 a) = Ok (s', r).
  Proof using P SL.
    intros small. assert (L : H <= H) by lia. pose proof (quad_safe small) as Hs.
    pose proof (C13_safe_histories junk ejunk d setup P L small Hs) as N.
    destruct (l_play junk ejunk d (l_init junk ejunk d) setup) as [[s h]|] eqn:E; [|now destruct (N eq_refl)]. exists s, h.
    destruct (play_returns _ _ _ _ E) as [M _].
    assert (R : reached s h).
    { exists setup. refine (conj _ (conj _ E)).
      - unfold quad_setup. repeat (constructor; [cbn [op_sized]; repeat split; reflexivity|]). constructor.
      - unfold quad_setup. repeat (constructor; [unfold op_proper; cbn [slice_of]; try exact I; try (right; cbn; lia)|]). constructor. }
    refine (conj R (conj M (conj _ _))).
    2:{ intros a Ha. pose proof (C13_safe_histories junk ejunk d (setup ++ [LOptimize x0 u0 a]) P L small) as N2. rewrite l_play_app, E in N2. cbn [l_play] in N2.
        destruct (step s (LOptimize x0 u0 a)) as [[s' r]|]; [eauto|]. destruct N2; [|reflexivity]. apply Forall_app. split; [exact Hs|]. constructor; [|constructor]. cbn [op_safe]. repeat split; exact Ha. }
    rewrite (setup_history s h R M). intros op r I. unfold quad_h, quad_setup, returns in I. cbn [combine] in I.
    repeat (destruct I as [I|I]; [injection I as <- <-; auto|]). destruct I.
  Qed.
  (** ... hovering is an admissible plan, so a status "infeasible" is never right *)
  Theorem C90_quadrotor_feasible s h : reached s h -> map fst h = setup ->
    qp_feasible (l_call d s x0 u0) (z_of d (vec u0) (fun _ _ => s0) (fun _ _ => s0)) /\
    forall z yy code obj s' res y v, step s (LOptimize x0 u0 (ASolution z yy code obj)) = Ok (s', RResult res) -> certified (l_call d s x0 u0) code y v -> r_status res <> INFEASIBLE.
  Proof using P Wy0 Wu0 Wdu0 X0 U0 SL.
    intros R M. destruct (H_setup s h R M) as [Eh Ep]. split.
    - refine (proj1 (C01_admissible_represented junk ejunk d s h the_plant x0 u0 _ _ P R Ep sx0 su0 _)). rewrite Eh. exact hover_adm.
    - intros z yy code obj s' res y v E Ce St.
      refine (C58_status_infeasible_sound junk ejunk d s h the_plant x0 u0 z yy code obj s' res y v P R Ep sx0 su0 _ E Ce St _ _ _); rewrite Eh; [exact c_nonneg|exact hover_adm].
  Qed.
  (** ... whenever the answer satisfies the problem, the printed command is within the thrust limits, every predicted state is within its limits, and the printed
      outputs are the predicted states *)
  Theorem C90_quadrotor_limits s h z y code obj s' res : reached s h -> map fst h = setup -> step s (LOptimize x0 u0 (ASolution z y code obj)) = Ok (s', RResult res) ->
    qp_feasible (l_call d s x0 u0) z ->
    let X := ent (q_state (o_seq (l_o s'))) in let U := ent (q_input (o_seq (l_o s'))) in
    (forall j, j < 4 -> (ulo j <= vec (r_cmd res) j)%S /\ (vec (r_cmd res) j <= uhi j)%S) /\
    (forall i j, i <= H -> j < 4 -> (ulo j <= U i j)%S /\ (U i j <= uhi j)%S) /\
    (forall i j, i <= H -> j < 12 -> within (xlo j) (xhi j) (X i j)) /\
    (forall j, j < 12 -> X 0 j = s0) /\
    (forall i j, i < H -> j < 12 -> X (S i) j = (ssum 12 (fun l => A j l * X i l) + ssum 4 (fun l => B j l * U i l))%S) /\
    (forall i j, i <= H -> j < 12 -> ent (q_output (o_seq (l_o s'))) i j = X i j).
  Proof using P SL.
    intros R M E Hf X U. destruct (H_setup s h R M) as [Eh Ep].
    destruct (C14_sequences junk ejunk d s h the_plant x0 u0 z y code obj s' _ P R Ep sx0 su0 E) as (res' & Er & Q1 & Q2 & Q3 & Q4 & Q5 & _ & _ & _ & Ad).
    injection Er as <-. specialize (Ad Hf). rewrite Eh in Ad, Q4. destruct Ad as ((T1 & T2) & Sx & _ & Su & _ & _). destruct c_rest as (D & _ & _).
    assert (G : forall i j, i < H -> j < 4 -> (ulo j <= U i j)%S /\ (U i j <= uhi j)%S).
    { intros i j Hi Hj. assert (Hi' : S i <= H) by lia. specialize (Su (S i) j Hi' Hj). assert (L : Nat.min (S i) (d_ph d - 1) < H) by (cbn [d_ph quad_dims]; lia).
      destruct (c_u _ L) as [E1 E2]. rewrite E1, E2 in Su. exact Su. }
    assert (P1 : H - 1 < H) by lia.
    refine (conj _ (conj _ (conj _ (conj _ (conj _ _))))).
    - intros j Hj. rewrite Q5 by exact Hj. apply (G 0 j P Hj).
    - intros i j Hi Hj. destruct (Nat.eq_dec i H) as [->|N]; [|apply G; [lia|exact Hj]].
      pose proof (Q3 j Hj) as E3. pose proof (Q2 (H - 1) j P1 Hj) as E2. cbn [d_ph quad_dims] in E3, E2. unfold U. rewrite E3, <- E2. apply (G (H - 1) j P1 Hj).
    - intros i j Hi Hj. specialize (Sx i j Hi Hj). destruct (c_x _ (stp_lt i Hi)) as [E1 E2]. rewrite E1, E2 in Sx. exact Sx.
    - intros j Hj. exact (T1 j Hj).
    - intros i j Hi Hj. pose proof (T2 i j Hi Hj) as T. match type of T with _ = (_ + ?e)%S => assert (Z0 : e = s0) by (apply ssum_zero; intros l Hl; rewrite D; ring); rewrite Z0 in T end. cbn [the_plant pl_A pl_B d_nx d_nu quad_dims] in T. unfold X, U. rewrite T. ring.
    - intros i j Hi Hj. rewrite Q4 by assumption. unfold output. match goal with |- (_ + ?e)%S = _ => assert (Z0 : e = s0) by (apply ssum_zero; intros l Hl; rewrite D; ring); rewrite Z0 end.
      cbn [the_plant pl_C d_nx quad_dims]. rewrite (ssum_ext 12 _ (fun l => delta j l * X i l)%S); [rewrite ssum_delta_l by exact Hj; unfold X; ring|].
      intros l Hl. unfold identity, delta, X. reflexivity.
  Qed.
  (** ... and whenever the solver returns an optimum, the printed command and plan do not depend on which solver it is, and the plan costs no more than hovering *)
  Theorem C90_quadrotor_optimum s h z y code obj s1 r1 z' y' code' obj' s2 r2 : reached s h -> map fst h = setup ->
    qp_optimal (l_call d s x0 u0) z -> qp_optimal (l_call d s x0 u0) z' ->
    step s (LOptimize x0 u0 (ASolution z y code obj)) = Ok (s1, RResult r1) -> step s (LOptimize x0 u0 (ASolution z' y' code' obj')) = Ok (s2, RResult r2) ->
    (forall j, j < 4 -> vec (r_cmd r1) j = vec (r_cmd r2) j) /\
    (forall i j, i <= H -> j < 12 -> ent (q_state (o_seq (l_o s1))) i j = ent (q_state (o_seq (l_o s2))) i j) /\
    (tracking_cost d the_plant (cfg_run h) (vec u0) (z_state d z) (z_cmd d z) <= ssum (H + 1) (fun _ => ssum 12 (fun j => Wy j * (yref j * yref j))))%S.
  Proof using P Wy0 Wu0 Wdu0 X0 U0 SL.
    intros R M O1 O2 E1 E2. destruct (H_setup s h R M) as [Eh Ep].
    assert (N : weights_nonneg d (cfg_run h)) by (rewrite Eh; exact c_nonneg). assert (W : commands_weighted d (cfg_run h)) by (rewrite Eh; exact c_weighted).
    destruct (C54_solver_independent junk ejunk d s h the_plant x0 u0 z y code obj s1 r1 z' y' code' obj' s2 r2 P R Ep sx0 su0 N W O1 O2 E1 E2) as (G1 & G2 & _).
    refine (conj G1 (conj G2 _)).
    destruct (C15_optimality_transfer junk ejunk d s h the_plant x0 u0 z P R Ep sx0 su0 O1) as [_ Le].
    assert (Ad : admissible d the_plant (cfg_run h) (vec x0) (vec u0) (fun _ _ => s0) (fun _ _ => s0)) by (rewrite Eh; exact hover_adm).
    specialize (Le _ _ Ad). eapply sle_trans; [exact Le|]. rewrite Eh. destruct c_rest as (D & _ & _).
    match goal with |- (?a <= ?b)%S => assert (Eq : a = b); [|rewrite Eq; apply s_le_refl] end.
    assert (Uc : forall i j, ucmd (vec u0) (fun _ _ => s0) i j = (s0 : F)) by (intros [|i] j; reflexivity).
    unfold tracking_cost. match goal with |- (?a + ?b + ?c)%S = _ => assert (Zb : b = s0); [|assert (Zc : c = s0); [|rewrite Zb, Zc; transitivity a; [ring|]]] end.
    - apply ssum_zero. intros i Hi. apply ssum_zero. intros j Hj. destruct (c_r (stp i)) as (_ & V2 & _); [unfold stp; cbn [d_ph quad_dims] in Hi; lia|]. rewrite V2, Uc. unfold sq. ring.
    - apply ssum_zero. intros i Hi. apply ssum_zero. intros j Hj. assert (Hs : stp i < H) by (unfold stp; cbn [d_ph quad_dims] in Hi; lia). destruct (c_r (stp i) Hs) as (_ & _ & V3). rewrite V3. unfold dcmd. rewrite Uc. unfold sq. ring.
    - cbn [d_ph d_ny quad_dims]. apply ssum_ext. intros i Hi. apply ssum_ext. intros j Hj.
      assert (Li : i <= H) by lia. destruct (c_w _ (stp_lt i Li)) as (V1 & _). destruct (c_r _ (stp_lt i Li)) as (V2 & _). rewrite V1, V2. unfold output.
      rewrite !ssum_zero; [unfold sq; ring| |]; intros l Hl; [rewrite D; ring|ring].
  Qed.
  (** ... and if the reference were the origin in the states that have a weight, hovering would be the optimal plan and the printed command zero *)
  Theorem C90_quadrotor_origin s h : reached s h -> map fst h = setup -> (forall j, j < 12 -> Wy j = s0 \/ yref j = s0) ->
    qp_optimal (l_call d s x0 u0) (z_of d (vec u0) (fun _ _ => s0) (fun _ _ => s0)) /\
    forall z y code obj s' res, qp_optimal (l_call d s x0 u0) z -> step s (LOptimize x0 u0 (ASolution z y code obj)) = Ok (s', RResult res) -> forall j, j < 4 -> vec (r_cmd res) j = s0.
  Proof using P Wy0 Wu0 Wdu0 X0 U0 SL.
    intros R M Yr. destruct (H_setup s h R M) as [Eh Ep].
    assert (N : weights_nonneg d (cfg_run h)) by (rewrite Eh; exact c_nonneg). assert (W : commands_weighted d (cfg_run h)) by (rewrite Eh; exact c_weighted).
    assert (Rp : rest_point d the_plant (cfg_run h) (vec x0) (vec u0)).
    { rewrite Eh. destruct c_rest as (D & S1 & S2).
      assert (Out : forall k j, out_now d the_plant c k (vec x0) j = s0).
      { intros k j. unfold out_now. rewrite !ssum_zero; [ring| |]; intros l Hl; [rewrite D; ring|]. unfold vec, quad_x0, column. cbn [ent]. ring. }
      refine (conj _ (conj _ (conj _ (conj _ (conj _ (conj _ (conj _ _))))))); intros k.
      - intros j Hk Hj. unfold next_state. rewrite !ssum_zero; [unfold vec, quad_x0, column; cbn [ent]; ring| | |]; intros l Hl; [rewrite D; ring| |]; unfold vec, quad_x0, quad_u0, column; cbn [ent]; ring.
      - intros j Hk Hj. rewrite Out. destruct (c_w k Hk) as (-> & _). destruct (c_r k Hk) as (-> & _). destruct (Yr j Hj) as [E|E]; [left; exact E|right; rewrite E; reflexivity].
      - intros j Hk Hj. right. destruct (c_r k Hk) as (_ & -> & _). reflexivity.
      - intros j Hk Hj. right. apply c_r. unfold stp. cbn [d_ph quad_dims] in Hk. lia.
      - intros j Hk Hj. destruct (c_x k Hk) as [-> ->]. exact (X0 j Hj).
      - intros j Hk Hj. destruct (c_u k Hk) as [-> ->]. destruct (U0 j Hj). split; assumption.
      - intros j Hk Hj. rewrite Out. destruct (c_y k Hk) as [-> ->]. split; exact I.
      - intros Hk. rewrite S1, S2. split; exact I. }
    refine (conj (C55_rest_is_optimal junk ejunk d s h the_plant x0 u0 P R Ep sx0 su0 N Rp) _).
    intros z y code obj s' res O E j Hj. destruct (C55_rest_point_kept junk ejunk d s h the_plant x0 u0 z P R Ep sx0 su0 N W Rp O) as [K _].
    destruct (C14_sequences junk ejunk d s h the_plant x0 u0 z y code obj s' _ P R Ep sx0 su0 E) as (res' & Er & Q1 & Q2 & Q3 & Q4 & Q5 & _). injection Er as <-.
    rewrite Q5 by exact Hj. rewrite Q2 by assumption. rewrite K by assumption. reflexivity.
  Qed.
End Quad.

(** the constants of the program meet the assumptions *)
Lemma quad_constants : (forall j, j < 12 -> (s0 <= quad_Wy j)%S) /\ (forall j, j < 4 -> (s0 < quad_Wu j)%S) /\ (forall j, j < 4 -> (s0 <= quad_Wdu j)%S) /\
  (forall j, j < 12 -> within (quad_xlo j) (quad_xhi j) s0) /\ (forall j, j < 4 -> (quad_ulo j <= s0)%S /\ (s0 <= quad_uhi j)%S).
Proof.
  assert (T : forall n (f : nat -> bool), forallb f (seq 0 n) = true -> forall j, j < n -> f j = true).
  { intros n f E j Hj. rewrite forallb_forall in E. apply E, in_seq. lia. }
  refine (conj _ (conj _ (conj _ (conj _ _)))).
  - refine (T 12 (fun j => sleb s0 (quad_Wy j)) _). vm_compute. reflexivity.
  - refine (T 4 (fun j => sltb s0 (quad_Wu j)) _). vm_compute. reflexivity.
  - refine (T 4 (fun j => sleb s0 (quad_Wdu j)) _). vm_compute. reflexivity.
  - intros j Hj. apply within_b_ok. revert j Hj. refine (T 12 (fun j => within_b (quad_xlo j) (quad_xhi j) s0) _). vm_compute. reflexivity.
  - intros j Hj. split; revert j Hj; [refine (T 4 (fun j => sleb (quad_ulo j) s0) _)|refine (T 4 (fun j => sleb s0 (quad_uhi j)) _)]; vm_compute; reflexivity.
Qed.
(** the program itself: the object it builds, and a point that satisfies the problem it poses, which has an admissible plan *)
Definition quad_program : list (lop Qc) := quad_setup 10 quad_A quad_B quad_Wy quad_Wu quad_Wdu quad_xlo quad_xhi quad_ulo quad_uhi quad_yref quad_par.
Example C90_instance : exists s h, reached qj qej (quad_dims 10) s h /\ map fst h = quad_program /\
  exists z, qp_feasible (l_call (quad_dims 10) s quad_x0 quad_u0) z /\
  exists s' res, l_step qj qej (quad_dims 10) s (LOptimize quad_x0 quad_u0 (ASolution z (fun _ => 0%Qc) 1 (Fin 0%Qc))) = Ok (s', RResult res) /\ r_status res = SUCCESS.
Proof.
  destruct quad_constants as (W1 & W2 & W3 & X1 & U1). assert (P : 0 < 10) by lia.
  destruct (C90_quadrotor_setup qj qej 10 quad_A quad_B quad_Wy quad_Wu quad_Wdu quad_xlo quad_xhi quad_ulo quad_uhi quad_yref quad_par P) as (s & h & R & M & _ & D); [lia|].
  destruct (C90_quadrotor_feasible qj qej 10 quad_A quad_B quad_Wy quad_Wu quad_Wdu quad_xlo quad_xhi quad_ulo quad_uhi quad_yref quad_par P W1 W2 W3 X1 U1 s h R M) as [Fe _].
  exists s, h. refine (conj R (conj M _)). eexists. split; [exact Fe|].
  match goal with |- exists s' res, l_step _ _ _ _ (LOptimize _ _ ?a) = _ /\ _ => destruct (D a) as (s' & r & E); [discriminate|] end.
  destruct (opt_ok _ _ _ _ _ _ _ _ _ _ _ _ E) as [Es Er]. exists s'. eexists. split; [rewrite <- Er; exact E|]. rewrite Es. reflexivity.
Qed.

(** ... and an optimum: the program with the origin as its reference *)
Example C90_origin_instance : exists s h z, reached qj qej (quad_dims 10) s h /\
  map fst h = quad_setup 10 quad_A quad_B quad_Wy quad_Wu quad_Wdu quad_xlo quad_xhi quad_ulo quad_uhi (fun _ => 0%Qc) quad_par /\ qp_optimal (l_call (quad_dims 10) s quad_x0 quad_u0) z.
Proof.
  destruct quad_constants as (W1 & W2 & W3 & X1 & U1). assert (P : 0 < 10) by lia.
  destruct (C90_quadrotor_setup qj qej 10 quad_A quad_B quad_Wy quad_Wu quad_Wdu quad_xlo quad_xhi quad_ulo quad_uhi (fun _ => 0%Qc) quad_par P) as (s & h & R & M & _ & _); [lia|].
  destruct (C90_quadrotor_origin qj qej 10 quad_A quad_B quad_Wy quad_Wu quad_Wdu quad_xlo quad_xhi quad_ulo quad_uhi (fun _ => 0%Qc) quad_par P W1 W2 W3 X1 U1 s h R M) as [O _]; [intros j _; right; reflexivity|].
  exists s, h. eexists. exact (conj R (conj M O)).
Qed.
