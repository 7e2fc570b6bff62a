(** Property C92: what the horizons of the linear controller do to its problem. *)
From Coq Require Import Bool Arith ZArith List Lia QArith Qcanon Ring Field.
From Verif Require Import Scalar Sums Mat Slice Csc CscProof Builder BuilderEnt LMPC SpecLMPC SpecQP SpecCert LMPCRef LQP LRows LUniq Wit PropLMPC1 PropLMPC2 PropLMPC3 PropLMPC4 PropLMPC5 SpecLoop PropLoop SpecMeta PropMeta SpecTail PropTail SpecHorizon.
Import ListNotations.
Local Open Scope nat_scope.

Section Horizon.
  Context {F : Type} {SO : ScalarOps F} {SL : ScalarLaws F}.
  Add Field SFhor : (@s_field F SO SL).
  Variables (junk : nat -> nat -> F) (ejunk : nat -> nat -> ext F) (d : dims) (n m : nat).
  Notation nx := (d_nx d). Notation nu := (d_nu d). Notation ndu := (d_ndu d).
  Notation ny := (d_ny d). Notation ph := (d_ph d). Notation ch := (d_ch d).
  Notation d' := (with_horizons d n m).
  Implicit Types (s : lmpc F) (h : list (lop F * ret F)) (p : plant F) (z : nat -> F) (c : cfg F).

  Lemma agree_out p p' c c' x i j : 0 < n -> g_plant c = Some p -> g_plant c' = Some p' -> agree_upto d n c c' -> i <= n -> j < ny -> output d' p' c' x i j = output d p c x i j.
  Proof.
    intros P Gp Gp' A Hi Hj. assert (MP := proj1 (ag_model _ _ _ _ A)). rewrite Gp, Gp' in MP. destruct MP as (_ & _ & MC). pose proof (ag_model _ _ _ _ A) as (_ & _ & MD).
    unfold output. cbn [d_nx d_ndu with_horizons]. f_equal; apply ssum_ext; intros l Hl; [now rewrite (MC j l Hj Hl)|].
    now rewrite (MD j l Hj Hl), (ag_d _ _ _ _ A (stp i) l) by (unfold stp; lia || exact Hl).
  Qed.
  Lemma prefix_admissible p p' c c' x0 um x u : 0 < n -> n <= ph -> ch <= m -> g_plant c = Some p -> g_plant c' = Some p' -> agree_upto d n c c' -> (n < ph -> inputs_steady_at d n c) ->
    admissible d p c x0 um x u -> admissible d' p' c' x0 um x u.
  Proof.
    intros P Pn Cm Gp Gp' A IS ((T0 & T1) & BX & BY & BU & Fz & BS).
    assert (SP : forall i, i <= n -> stp i < n) by (intros; unfold stp; lia).
    assert (MP := proj1 (ag_model _ _ _ _ A)). rewrite Gp, Gp' in MP. destruct MP as (MA & MB & _). pose proof (ag_model _ _ _ _ A) as (_ & MD & _). destruct (ag_mult _ _ _ _ A) as [MX MU].
    refine (conj (conj T0 _) (conj _ (conj _ (conj _ (conj _ _))))); unfold state_ok, output_ok, input_ok, frozen, scalar_ok in *; cbn [d_nx d_nu d_ndu d_ny d_ph d_ch with_horizons].
    - intros k j Hk Hj. rewrite (T1 k j) by (lia || exact Hj). f_equal; [f_equal|]; apply ssum_ext; intros l Hl.
      + now rewrite (MA j l Hj Hl).
      + now rewrite (MB j l Hj Hl).
      + now rewrite (MD j l Hj Hl), (ag_d _ _ _ _ A k l Hk Hl).
    - intros i j Hi Hj. rewrite (ag_xlo _ _ _ _ A), (ag_xhi _ _ _ _ A) by (auto || exact Hj). apply BX; [lia|exact Hj].
    - intros i j Hi Hj. rewrite (ag_ylo _ _ _ _ A), (ag_yhi _ _ _ _ A) by (auto || exact Hj). rewrite (agree_out p p' c c') by assumption. apply BY; [lia|exact Hj].
    - intros i j Hi Hj. rewrite (ag_ulo _ _ _ _ A), (ag_uhi _ _ _ _ A) by (lia || exact Hj). pose proof (BU i j ltac:(lia) Hj) as B.
      destruct (Nat.eq_dec i n) as [->|N]; [|replace (Nat.min i (n - 1)) with (Nat.min i (ph - 1)) by lia; exact B].
      destruct (Nat.eq_dec n ph) as [E|N]; [replace (Nat.min n (n - 1)) with (Nat.min n (ph - 1)) by lia; exact B|].
      rewrite Nat.min_l in B by lia. destruct (IS ltac:(lia) j Hj) as [E1 E2]. rewrite E1, E2 in B. now rewrite Nat.min_r by lia.
    - intros i j Hi Hi' Hj. apply Fz; lia || exact Hj.
    - intros i Hi. rewrite (ag_slo _ _ _ _ A), (ag_shi _ _ _ _ A) by auto. eapply within_eq; [reflexivity|reflexivity| |exact (BS i ltac:(lia))].
      f_equal; apply ssum_ext; intros l Hl; [now rewrite (MX l Hl)|now rewrite (MU l Hl)].
  Qed.
  Lemma agree_cost p p' c c' um x u : 0 < n -> g_plant c = Some p -> g_plant c' = Some p' -> agree_upto d n c c' ->
    tracking_cost d' p' c' um x u = (ssum (n + 1) (st_y d p c x) + ssum (n + 1) (st_u d c um u) + ssum n (st_du d c um u))%S.
  Proof.
    intros P Gp Gp' A. assert (SP : forall i, i < n + 1 -> stp i < n) by (intros; unfold stp; lia).
    unfold tracking_cost. cbn [d_ph d_ny d_nu with_horizons]. f_equal; [f_equal|]; apply ssum_ext; intros i Hi; apply ssum_ext; intros j Hj.
    - rewrite (agree_out p p' c c') by (assumption || lia). now rewrite (ag_wy _ _ _ _ A), (ag_yr _ _ _ _ A) by (auto || exact Hj).
    - now rewrite (ag_wu _ _ _ _ A), (ag_ur _ _ _ _ A) by (auto || exact Hj).
    - rewrite (ag_wdu _ _ _ _ A) by (lia || exact Hj). rewrite (ag_dur _ _ _ _ A) by (try exact Hj; apply SP; lia). reflexivity.
  Qed.
  Lemma ssum_more (k l : nat) (f : nat -> F) : k <= l -> (forall i, i < l -> (s0 <= f i)%S) -> (ssum k f <= ssum l f)%S.
  Proof.
    intros H. induction H as [|l H IH]; intros N; [apply sle_refl|]. apply (sle_trans _ (ssum l f)); [apply IH; intros; apply N; lia|].
    cbn [ssum]. replace (ssum l f) with (ssum l f + s0)%S at 1 by ring. apply sle_add; [apply sle_refl|apply N; lia].
  Qed.
  Lemma prefix_cost p p' c c' um x u : 0 < n -> n <= ph -> g_plant c = Some p -> g_plant c' = Some p' -> agree_upto d n c c' -> weights_nonneg d c ->
    (tracking_cost d' p' c' um x u <= tracking_cost d p c um x u)%S.
  Proof.
    intros P Pn Gp Gp' A (W1 & W2 & W3). rewrite (agree_cost p p' c c') by assumption.
    change (tracking_cost d p c um x u) with (ssum (ph + 1) (st_y d p c x) + ssum (ph + 1) (st_u d c um u) + ssum ph (st_du d c um u))%S.
    assert (SP : forall i, i < ph + 1 -> stp i < ph) by (intros; unfold stp; lia).
    apply sle_add; [apply sle_add|]; (apply ssum_more; [lia|]); intros i Hi; apply ssum_nonneg; intros j Hj; (apply smul_nonneg; [|apply ssq_nonneg]); auto.
  Qed.

  Notation reached := (SpecLMPC.reached junk ejunk).
  (** C92: the first n steps of a plan of the longer horizon are a plan of the shorter one *)
  Theorem C92_prefix_feasible s h p s' h' p' x0 u0 z :
    0 < n -> n <= ph -> ch <= m -> reached d s h -> reached d' s' h' -> g_plant (cfg_run h) = Some p -> g_plant (cfg_run h') = Some p' ->
    agree_upto d n (cfg_run h) (cfg_run h') -> (n < ph -> inputs_steady_at d n (cfg_run h)) -> sized x0 nx 1 -> sized u0 nu 1 ->
    qp_feasible (l_call d s x0 u0) z ->
    exists z', qp_feasible (l_call d' s' x0 u0) z' /\
      (forall i j, i <= n -> j < nx -> z_state d' z' i j = z_state d z i j) /\ (forall k j, k < n -> j < nu -> z_cmd d' z' k j = z_cmd d z k j).
  Proof.
    intros P Pn Cm R R' G G' A IS X U Q. assert (P0 : 0 < ph) by lia.
    destruct (proj1 (C01_feasible_iff_admissible junk ejunk d s h p x0 u0 z P0 R G X U) Q) as [Ad _].
    pose proof (prefix_admissible p p' _ _ _ _ _ _ P Pn Cm G G' A IS Ad) as A'.
    destruct (C01_admissible_represented junk ejunk d' s' h' p' x0 u0 _ _ P R' G' X U A') as (Q' & ZX & ZU). eexists. exact (conj Q' (conj ZX ZU)).
  Qed.
  (** a longer prediction horizon, or a shorter control horizon, never decreases the optimal cost *)
  Theorem C92_optimal_cost s h p s' h' p' x0 u0 z z' :
    0 < n -> n <= ph -> ch <= m -> reached d s h -> reached d' s' h' -> g_plant (cfg_run h) = Some p -> g_plant (cfg_run h') = Some p' ->
    agree_upto d n (cfg_run h) (cfg_run h') -> (n < ph -> inputs_steady_at d n (cfg_run h)) -> sized x0 nx 1 -> sized u0 nu 1 -> weights_nonneg d (cfg_run h) ->
    qp_feasible (l_call d s x0 u0) z -> qp_optimal (l_call d' s' x0 u0) z' ->
    (tracking_cost d' p' (cfg_run h') (vec u0) (z_state d' z') (z_cmd d' z') <= tracking_cost d p (cfg_run h) (vec u0) (z_state d z) (z_cmd d z))%S.
  Proof.
    intros P Pn Cm R R' G G' A IS X U W Q O. assert (P0 : 0 < ph) by lia.
    destruct (proj1 (C01_feasible_iff_admissible junk ejunk d s h p x0 u0 z P0 R G X U) Q) as [Ad _].
    apply (sle_trans _ (tracking_cost d' p' (cfg_run h') (vec u0) (z_state d z) (z_cmd d z))); [|now apply prefix_cost].
    apply (proj2 (C15_optimality_transfer junk ejunk d' s' h' p' x0 u0 z' P R' G' X U O)). exact (prefix_admissible p p' _ _ _ _ _ _ P Pn Cm G G' A IS Ad).
  Qed.
End Horizon.

Section Saturate.
  Context {F : Type} {SO : ScalarOps F} {SL : ScalarLaws F}.
  Add Field SFsat : (@s_field F SO SL).
  Variables (junk : nat -> nat -> F) (ejunk : nat -> nat -> ext F) (d : dims) (m : nat).
  Notation nx := (d_nx d). Notation nu := (d_nu d). Notation ph := (d_ph d). Notation ch := (d_ch d).
  Notation d' := (with_horizons d ph m).
  Notation reached := (SpecLMPC.reached junk ejunk).
  Implicit Types (s : lmpc F) (h : list (lop F * ret F)) (p : plant F) (z : nat -> F).

  (** C92: from the last-but-one step on the control horizon has no effect: the same vectors solve both problems, with the same optima, ... *)
  Theorem C92_control_horizon_saturates s h p s' h' p' x0 u0 z :
    0 < ph -> ph <= ch + 1 -> ph <= m + 1 -> reached d s h -> reached d' s' h' -> g_plant (cfg_run h) = Some p -> g_plant (cfg_run h') = Some p' ->
    agree_upto d ph (cfg_run h) (cfg_run h') -> sized x0 nx 1 -> sized u0 nu 1 ->
    (qp_feasible (l_call d s x0 u0) z <-> qp_feasible (l_call d' s' x0 u0) z) /\ (qp_optimal (l_call d s x0 u0) z <-> qp_optimal (l_call d' s' x0 u0) z).
  Proof.
    intros P C1 C2 R R' G G' A X U.
    assert (AD : forall x u, admissible d p (cfg_run h) (vec x0) (vec u0) x u <-> admissible d' p' (cfg_run h') (vec x0) (vec u0) x u).
    { intros x u. assert (Fr : forall c : cfg F, forall e, d_ph e = ph -> ph <= d_ch e + 1 -> frozen e (vec u0) u) by (intros c e E1 E2 i j H1 H2 _; lia).
      split; intros Ad.
      - assert (Ad2 : admissible (with_horizons d ph (Nat.min ch m)) p (cfg_run h) (vec x0) (vec u0) x u).
        { destruct Ad as (T & B1 & B2 & B3 & _ & B4). refine (conj T (conj B1 (conj B2 (conj B3 (conj _ B4))))). apply (Fr (cfg_run h)); [reflexivity|cbn; lia]. }
        exact (prefix_admissible (with_horizons d ph (Nat.min ch m)) ph m p p' (cfg_run h) (cfg_run h') (vec x0) (vec u0) x u P (le_n _) ltac:(cbn; lia) G G'
                 ltac:(destruct A; constructor; assumption) ltac:(cbn; lia) Ad2).
      - destruct Ad as (T & B1 & B2 & B3 & _ & B4).
        assert (Ad2 : admissible (with_horizons d ph (Nat.min ch m)) p' (cfg_run h') (vec x0) (vec u0) x u).
        { refine (conj T (conj B1 (conj B2 (conj B3 (conj _ B4))))). apply (Fr (cfg_run h)); [reflexivity|cbn; lia]. }
        assert (A2 : agree_upto (with_horizons d ph (Nat.min ch m)) ph (cfg_run h') (cfg_run h)).
        { destruct A as [[Mp [Mb Md]] [Mx Mu] ? ? ? ? ? ? ? ? ? ? ? ? ? ? ?]. constructor; try (intros i j Hi Hj; symmetry; auto); try (intros i Hi; symmetry; auto).
          - refine (conj _ (conj _ _)); [|intros i j Hi Hj; symmetry; now apply Mb|intros i j Hi Hj; symmetry; now apply Md]. unfold same_plant in *. destruct (g_plant (cfg_run h)), (g_plant (cfg_run h')); try contradiction; try exact I.
            destruct Mp as (H1 & H2 & H3). refine (conj _ (conj _ _)); intros i j Hi Hj; symmetry; auto.
          - split; intros i Hi; symmetry; auto. }
        pose proof (prefix_admissible (with_horizons d ph (Nat.min ch m)) ph ch p' p (cfg_run h') (cfg_run h) (vec x0) (vec u0) x u P (le_n _) ltac:(cbn; lia) G' G A2 ltac:(cbn; lia) Ad2) as Z.
        destruct Z as (T' & Z1 & Z2 & Z3 & _ & Z4). refine (conj T' (conj Z1 (conj Z2 (conj Z3 (conj _ Z4))))). apply (Fr (cfg_run h)); [reflexivity|lia]. }
    assert (FS : forall y, qp_feasible (l_call d s x0 u0) y <-> qp_feasible (l_call d' s' x0 u0) y).
    { intros y. rewrite (C01_feasible_iff_admissible junk ejunk d s h p x0 u0 y P R G X U). rewrite (C01_feasible_iff_admissible junk ejunk d' s' h' p' x0 u0 y P R' G' X U).
      change (z_state d' y) with (z_state d y). change (z_cmd d' y) with (z_cmd d y). rewrite AD. reflexivity. }
    split; [apply FS|].
    destruct (C02_cost_is_tracking_cost junk ejunk d s h p x0 u0 P R G X U) as [K HK]. destruct (C02_cost_is_tracking_cost junk ejunk d' s' h' p' x0 u0 P R' G' X U) as [K' HK'].
    assert (EC : forall x u, tracking_cost d' p' (cfg_run h') (vec u0) x u = tracking_cost d p (cfg_run h) (vec u0) x u) by (intros x u; rewrite (agree_cost d ph m p p' (cfg_run h) (cfg_run h')) by assumption; reflexivity).
    assert (T : forall y, qp_feasible (l_call d s x0 u0) y -> z_tail d (vec u0) y) by (intros y Q; exact (proj2 (proj1 (C01_feasible_iff_admissible junk ejunk d s h p x0 u0 y P R G X U) Q))).
    assert (CO : forall y y', qp_feasible (l_call d s x0 u0) y -> qp_feasible (l_call d s x0 u0) y' ->
      ((qp_cost (l_call d s x0 u0) y <= qp_cost (l_call d s x0 u0) y')%S <-> (qp_cost (l_call d' s' x0 u0) y <= qp_cost (l_call d' s' x0 u0) y')%S)).
    { intros y y' Q Q'. pose proof (HK y (T y Q)) as E1. pose proof (HK y' (T y' Q')) as E2. pose proof (HK' y (T y Q)) as E3. pose proof (HK' y' (T y' Q')) as E4. rewrite EC in E3, E4.
      change (z_state d' y) with (z_state d y) in E3. change (z_cmd d' y) with (z_cmd d y) in E3. change (z_state d' y') with (z_state d y') in E4. change (z_cmd d' y') with (z_cmd d y') in E4. rewrite <- E1 in E3. rewrite <- E2 in E4.
      assert (DBL : forall a b : F, (a <= b)%S -> (s2 * a <= s2 * b)%S) by (intros a b L; unfold s2; replace ((1 + 1) * a)%S with (a + a)%S by ring; replace ((1 + 1) * b)%S with (b + b)%S by ring; now apply sle_add).
      split; intros L; apply le_half.
      - apply (sle_add_cancel _ _ K'). rewrite E3, E4. apply sle_add; [now apply DBL|apply sle_refl].
      - apply (sle_add_cancel _ _ K). rewrite <- E3, <- E4. apply sle_add; [now apply DBL|apply sle_refl]. }
    split; intros [Q O]; (split; [now apply FS|]); intros y Qy.
    - apply FS in Qy. apply (CO z y Q Qy). now apply O.
    - apply (CO z y); [now apply FS|exact Qy|]. apply O. now apply FS.
  Qed.
End Saturate.

(** *** Concrete case: the controllers of C91_instance, with control horizon 1: from state 5 and last command 0 the long one plans two increments of 1, the short one the first of them;
    with control horizon 2 the same vectors solve the problem. *)
Definition h_d : dims := mkDims 1 1 0 1 2 1.
Notation h_s := (wS h_d (t_ops [1; 1]%Z)).
Notation h_h := (wH h_d (t_ops [1; 1]%Z)).
Ltac agree n := constructor;
  [ refine (conj _ (conj _ _)); [rewrite !w_plant by (vm_compute; reflexivity); refine (conj _ (conj _ _)); intros i j Hi Hj; comp1 i Hi; comp1 j Hj; t_eq|intros i j _ Hj; cbn in Hj; lia|intros i j _ Hj; cbn in Hj; lia]
  | split; intros j Hj; comp1 j Hj; t_eq
  | intros k j Hk Hj; first [cbn in Hj; lia | comp1 j Hj; step2 k Hk; t_eq | comp1 j Hj; (destruct k as [|k]; [t_eq|lia])] ..
  | intros k Hk; first [step2 k Hk; t_eq | destruct k as [|k]; [t_eq|lia]]
  | intros k Hk; first [step2 k Hk; t_eq | destruct k as [|k]; [t_eq|lia]] ].
Example C92_instance : reached qj qej h_d h_s h_h /\ reached qj qej (with_horizons h_d 1 1) (e_s [1]%Z) (e_h [1]%Z) /\ reached qj qej (with_horizons h_d 2 2) (t_s [1; 1]%Z) (t_h [1; 1]%Z) /\
  agree_upto h_d 1 (cfg_run h_h) (cfg_run (e_h [1]%Z)) /\ inputs_steady_at h_d 1 (cfg_run h_h) /\ agree_upto h_d 2 (cfg_run h_h) (cfg_run (t_h [1; 1]%Z)) /\
  g_plant (cfg_run h_h) = Some (wp h_h) /\ weights_nonneg h_d (cfg_run h_h) /\ qp_feasible (l_call h_d h_s (qv [5]%Z) (qv [0]%Z)) (t_z 1 1) /\
  qp_optimal (l_call (with_horizons h_d 2 2) (t_s [1; 1]%Z) (qv [5]%Z) (qv [0]%Z)) (t_z 1 1) /\ z_cmd h_d (t_z 1 1) 0 0 = q 1.
Proof.
  assert (I : In 1%Z [1; 4]%Z) by now left. destruct (t_reached 1 I) as (R & G & R' & G').
  refine (conj _ (conj R' (conj R (conj _ (conj _ (conj _ (conj _ (conj _ (conj _ (conj (t_optimal 1 I) _)))))))))).
  - w_reach.
  - agree 1.
  - intros j Hj. comp1 j Hj. split; t_eq.
  - agree 2.
  - apply w_plant. vm_compute. reflexivity.
  - refine (conj _ (conj _ _)); intros k j Hk Hj; comp1 j Hj; step2 k Hk; vm_compute; reflexivity.
  - apply feasible_b_ok. vm_compute. reflexivity.
  - apply qc_eq. vm_compute. reflexivity.
Qed.
(** FINDING: the condition on the input bounds is needed, because they act one step late (C06): with the command of step 0 held at 0 and that of step 1 free, the long horizon lets the
    first command be 1 and the short one does not. *)
Definition b_ops (r : list Z) : list (lop Qc) := t_ops r ++ [LSetInputBounds (qe [0]%Z) (qe [0]%Z) (mkSlice 0 1)].
Theorem C92_input_bounds_needed :
  ~ (forall (d : dims) n m s h p s' h' p' (x0 u0 : mat Qc) z,
       0 < n -> n <= d_ph d -> d_ch d <= m -> reached qj qej d s h -> reached qj qej (with_horizons d n m) s' h' -> g_plant (cfg_run h) = Some p -> g_plant (cfg_run h') = Some p' ->
       agree_upto d n (cfg_run h) (cfg_run h') -> sized x0 (d_nx d) 1 -> sized u0 (d_nu d) 1 -> qp_feasible (l_call d s x0 u0) z ->
       exists z', qp_feasible (l_call (with_horizons d n m) s' x0 u0) z' /\ (forall k j, k < n -> j < d_nu d -> z_cmd (with_horizons d n m) z' k j = z_cmd d z k j)).
Proof.
  intros H.
  assert (R : reached qj qej h_d (wS h_d (b_ops [1; 1]%Z)) (wH h_d (b_ops [1; 1]%Z))) by w_reach.
  assert (R' : reached qj qej (with_horizons h_d 1 1) (wS (with_horizons h_d 1 1) (b_ops [1]%Z)) (wH (with_horizons h_d 1 1) (b_ops [1]%Z))) by w_reach.
  assert (G : g_plant (cfg_run (wH h_d (b_ops [1; 1]%Z))) = Some (wp (wH h_d (b_ops [1; 1]%Z)))) by (apply w_plant; vm_compute; reflexivity).
  assert (G' : g_plant (cfg_run (wH (with_horizons h_d 1 1) (b_ops [1]%Z))) = Some (wp (wH (with_horizons h_d 1 1) (b_ops [1]%Z)))) by (apply w_plant; vm_compute; reflexivity).
  assert (A : agree_upto h_d 1 (cfg_run (wH h_d (b_ops [1; 1]%Z))) (cfg_run (wH (with_horizons h_d 1 1) (b_ops [1]%Z)))) by agree 1.
  assert (Q : qp_feasible (l_call h_d (wS h_d (b_ops [1; 1]%Z)) (qv [5]%Z) (qv [0]%Z)) (t_z 1 1)) by (apply feasible_b_ok; vm_compute; reflexivity).
  destruct (H h_d 1 1 _ _ _ _ _ _ (qv [5]%Z) (qv [0]%Z) _ ltac:(lia) ltac:(cbn; lia) ltac:(cbn; lia) R R' G G' A ltac:(repeat split) ltac:(repeat split) Q) as (z' & Q' & E).
  destruct (proj1 (C01_feasible_iff_admissible qj qej (with_horizons h_d 1 1) _ _ _ (qv [5]%Z) (qv [0]%Z) z' ltac:(cbn; lia) R' G' ltac:(repeat split) ltac:(repeat split)) Q') as [(_ & _ & _ & BU & _) _].
  pose proof (BU 1 0 ltac:(cbn; lia) ltac:(cbn; lia)) as B. cbn [ucmd] in B. rewrite (E 0 0 ltac:(lia) ltac:(cbn; lia)) in B. revert B. apply within_dec_false. vm_compute. reflexivity.
Qed.
Print Assumptions C92_prefix_feasible. Print Assumptions C92_optimal_cost. Print Assumptions C92_control_horizon_saturates. Print Assumptions C92_input_bounds_needed.
