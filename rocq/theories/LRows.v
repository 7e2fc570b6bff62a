(** Groups of rows of the program handed to the solver, and further consequences of [LQP]. *)
From Coq Require Import Bool Arith ZArith List Lia Ring Field.
From Verif Require Import Scalar Sums Mat Slice Csc CscProof Builder BuilderEnt BuilderRows LMPC SpecLMPC SpecQP LMPCRef LQP.
Import ListNotations.

Section LRows.
  Context {F : Type} {SO : ScalarOps F} {SL : ScalarLaws F}.
  Add Field SFr : s_field.
  Variable junk : nat -> nat -> F.
  Variable ejunk : nat -> nat -> ext F.
  Variable d : dims.
  Notation nx := (d_nx d). Notation nu := (d_nu d). Notation ndu := (d_ndu d).
  Notation ny := (d_ny d). Notation ph := (d_ph d). Notation ch := (d_ch d).
  Notation w := (nu + nx).
  Notation N1 := ((ph + 1) * (nu + nx)).
  Hypothesis ph_pos : 0 < ph.
  Variables (s : lmpc F) (c : cfg F) (p : plant F) (x0 u0 : mat F).
  Hypothesis HR : R junk ejunk d s c.
  Hypothesis Hpl : g_plant c = Some p.
  Hypothesis Hx0 : sized x0 nx 1.
  Hypothesis Hu0 : sized u0 nu 1.
  Notation cl := (l_call d s x0 u0).
  Notation um := (vec u0).
  Notation X z := (z_state d z). Notation U z := (z_cmd d z).

  Ltac ea L := eapply L; eassumption.
  Lemma row_holds_ok z r : r < n_con d -> row_holds cl r z <-> rowok d s x0 u0 z r.
  Proof.
    intros Hr. unfold row_holds, rowok.
    erewrite cl_l_eq, cl_u_eq, qp_row_eq by eassumption. reflexivity.
  Qed.
  Lemma z_tail_iff z : z_tail d um z <-> z_consistent d u0 z.
  Proof. unfold z_tail, z_consistent, zx, zdu. cbn [Nat.mul Nat.add]. reflexivity. Qed.
  Lemma dcmd_eq (a b e : F) : (a = b + e)%S <-> e = (a - b)%S.
  Proof. split; intros ->; ring. Qed.

  (** *** equality rows *)
  Theorem eq_rows_iff z : (forall r, r < N1 -> row_holds cl r z) <->
    trajectory d p c (vec x0) (X z) (U z) /\ z_tail d um z.
  Proof.
    assert (EQ : (forall r, r < N1 -> row_holds cl r z) <-> (forall r, r < N1 -> rowok d s x0 u0 z r)).
    { split; intros H r Hr; specialize (H r Hr); apply row_holds_ok in H || apply row_holds_ok; try assumption; unfold n_con, n_eq; lia. }
    rewrite EQ, z_tail_iff. clear EQ.
    assert (SP : (forall r, r < N1 -> rowok d s x0 u0 z r) <->
      (forall a, a < nx -> rowok d s x0 u0 z a) /\ (forall a, a < nu -> rowok d s x0 u0 z (nx + a)) /\
      (forall i a, i < ph -> a < nx -> rowok d s x0 u0 z (S i * w + a)) /\
      (forall i a, i < ph -> a < nu -> rowok d s x0 u0 z (S i * w + (nx + a)))).
    { split.
      - intros H. refine (conj _ (conj _ (conj _ _))); intros; apply H.
        + pose proof (blk_lt 0 (ph + 1) w a ltac:(lia) ltac:(lia)); lia.
        + pose proof (blk_lt 0 (ph + 1) w (nx + a) ltac:(lia) ltac:(lia)); lia.
        + pose proof (blk_lt (S i) (ph + 1) w a ltac:(lia) ltac:(lia)); lia.
        + pose proof (blk_lt (S i) (ph + 1) w (nx + a) ltac:(lia) ltac:(lia)); lia.
      - intros (H1 & H2 & H3 & H4) r Hr. destruct (blk_split r (ph + 1) w Hr) as (i & a & Hi & Ha & ->).
        destruct (Nat.lt_ge_cases a nx) as [B|B].
        * destruct i as [|i]; [now apply H1|]. apply H3; lia.
        * replace a with (nx + (a - nx)) by lia. destruct i as [|i]; [apply H2; lia|apply H4; lia]. }
    rewrite SP. clear SP. unfold trajectory, z_consistent. split.
    - intros (H1 & H2 & H3 & H4).
      assert (U0 : forall a, a < nu -> zx d z 0 (nx + a) = um a).
      { intros a Ha. eapply eq0_u; eauto. }
      assert (UC : forall i a, a < nu -> ucmd um (U z) i a = zx d z i (nx + a)).
      { intros i a Ha. now apply ucmd_zx. }
      assert (DU : forall i a, i < ph -> a < nu -> zdu d z i a = dcmd um (U z) i a).
      { intros i a Hi Ha. unfold dcmd. rewrite UC by assumption. apply dcmd_eq.
        change (U z i a) with (zx d z (S i) (nx + a)). eapply eqS_u; eauto. }
      refine (conj (conj _ _) (conj U0 DU)).
      + intros j Hj. eapply (eq0_x junk ejunk d); eauto.
      + intros k j Hk Hj.
        assert (E : rowok d s x0 u0 z (S k * w + j)) by now apply H3.
        rewrite (eqS_x junk ejunk d) in E by eassumption. rewrite E.
        f_equal. f_equal. apply ssum_ext. intros l Hl. f_equal.
        rewrite DU by assumption. unfold dcmd. rewrite UC by assumption. ring.
    - intros ((T0 & TS) & U0 & DU).
      assert (UC : forall i a, a < nu -> ucmd um (U z) i a = zx d z i (nx + a)).
      { intros i a Ha. now apply ucmd_zx. }
      refine (conj _ (conj _ (conj _ _))); intros.
      + eapply (eq0_x junk ejunk d); eauto.
      + eapply (eq0_u junk ejunk d); eauto.
      + eapply (eqS_x junk ejunk d); try eassumption. rewrite TS by assumption. f_equal. f_equal. apply ssum_ext. intros l Hl.
        f_equal. rewrite DU by assumption. unfold dcmd. rewrite UC by assumption. ring.
      + eapply (eqS_u junk ejunk d); try eassumption. rewrite DU by assumption. unfold dcmd. rewrite UC by assumption.
        change (U z i a) with (zx d z (S i) (nx + a)). ring.
  Qed.

  (** *** inequality rows, one group at a time *)
  Theorem state_rows_iff z :
    (forall i j, i <= ph -> j < nx -> row_holds cl (N1 + (i * w + j)) z) <-> state_ok d c (X z).
  Proof.
    unfold state_ok. split; intros H i j Hi Hj; specialize (H i j Hi Hj);
      pose proof (blk_lt i (ph + 1) w j ltac:(lia) ltac:(lia)).
    - apply row_holds_ok in H; [|unfold n_con, n_eq, n_ineq; lia]. eapply in_x in H; try eassumption; lia.
    - apply row_holds_ok; [unfold n_con, n_eq, n_ineq; lia|]. eapply in_x; try eassumption; lia.
  Qed.
  Theorem output_rows_iff z :
    (forall i j, i <= ph -> j < ny -> row_holds cl (N1 + (N1 + (i * ny + j))) z) <-> output_ok d p c (X z).
  Proof.
    unfold output_ok. split; intros H i j Hi Hj; specialize (H i j Hi Hj);
      pose proof (blk_lt i (ph + 1) ny j ltac:(lia) ltac:(lia)).
    - apply row_holds_ok in H; [|unfold n_con, n_eq, n_ineq; lia]. eapply in_y in H; try eassumption; lia.
    - apply row_holds_ok; [unfold n_con, n_eq, n_ineq; lia|]. eapply in_y; try eassumption; lia.
  Qed.
  Theorem input_rows_iff z : z_tail d um z ->
    (forall i j, i <= ph -> j < nu -> row_holds cl (N1 + (i * w + (nx + j))) z) <-> input_ok d c um (U z).
  Proof.
    intros [U0 _]. unfold input_ok. split; intros H i j Hi Hj; specialize (H i j Hi Hj);
      pose proof (blk_lt i (ph + 1) w (nx + j) ltac:(lia) ltac:(lia)).
    - apply row_holds_ok in H; [|unfold n_con, n_eq, n_ineq; lia]. eapply in_u in H; try eassumption; [|lia].
      rewrite (ucmd_zx d u0 z i j); [exact H|exact U0|exact Hj].
    - rewrite (ucmd_zx d u0 z i j) in H; [|exact U0|exact Hj].
      apply row_holds_ok; [unfold n_con, n_eq, n_ineq; lia|]. eapply in_u; try eassumption; lia.
  Qed.
  Theorem increment_rows_iff z : z_tail d um z ->
    (forall i j, i < ph -> j < nu -> row_holds cl (N1 + (N1 + (ph + 1) * ny + (i * nu + j))) z) <-> frozen d um (U z).
  Proof.
    intros [_ DU]. unfold frozen. split.
    - intros H i j Hc Hi Hj. specialize (H i j Hi Hj). pose proof (blk_lt i ph nu j ltac:(lia) ltac:(lia)).
      apply row_holds_ok in H; [|unfold n_con, n_eq, n_ineq; lia]. eapply in_du in H; try eassumption.
      unfold zdu in H. rewrite DU in H by assumption. unfold dcmd in H.
      transitivity (U z i j - ucmd um (U z) i j + ucmd um (U z) i j)%S; [ring|]. rewrite H. ring.
    - intros H i j Hi Hj. pose proof (blk_lt i ph nu j ltac:(lia) ltac:(lia)).
      apply row_holds_ok; [unfold n_con, n_eq, n_ineq; lia|]. eapply in_du; try eassumption.
      intros Hc. unfold zdu. rewrite DU by assumption. unfold dcmd. rewrite (H i j) at 1 by assumption. ring.
  Qed.
  Theorem scalar_rows_iff z : z_tail d um z ->
    (forall i, i <= ph -> row_holds cl (N1 + (N1 + (ph + 1) * ny + ph * nu + i)) z) <-> scalar_ok d c um (X z) (U z).
  Proof.
    intros [U0 _]. unfold scalar_ok. split; intros H i Hi; specialize (H i Hi).
    - apply row_holds_ok in H; [|unfold n_con, n_eq, n_ineq; lia]. eapply in_s in H; try eassumption; [|lia].
      rewrite (ssum_ext nu _ (fun l => (g_sU c l * zx d z i (nx + l))%S)); [exact H|].
      intros l Hl. rewrite (ucmd_zx d u0 z i l); [reflexivity|exact U0|exact Hl].
    - rewrite (ssum_ext nu _ (fun l => (g_sU c l * zx d z i (nx + l))%S)) in H.
      2:{ intros l Hl. rewrite (ucmd_zx d u0 z i l); [reflexivity|exact U0|exact Hl]. }
      apply row_holds_ok; [unfold n_con, n_eq, n_ineq; lia|]. eapply in_s; try eassumption. lia.
  Qed.

  (** *** bounds as numbers *)
  Lemma eadd_0 (a : ext F) : eadd a s0 = a.
  Proof. destruct a; cbn; try reflexivity. f_equal. ring. Qed.
  Lemma bound_in r : r < n_ineq d -> r < N1 \/ N1 + (ph + 1) * ny <= r ->
    nth (N1 + r) (cl_l cl) PInf = ent (b_lineq (l_b s)) r 0 /\ nth (N1 + r) (cl_u cl) MInf = ent (b_uineq (l_b s)) r 0.
  Proof.
    intros Hr Ho. erewrite cl_l_eq, cl_u_eq by (eassumption || (unfold n_con, n_eq; lia)).
    destruct (ge_l _ _ _ _ _ _ _ _ _ (Gent junk ejunk d ph_pos s c x0 u0 HR Hx0 Hu0) r Hr) as (o & -> & -> & H0 & _).
    rewrite H0 by assumption. now rewrite !eadd_0.
  Qed.
  Notation RL := (rb_lim _ _ _ _ _ (r_b _ _ _ _ _ HR)).
  Theorem bound_x i a : i <= ph -> a < nx ->
    nth (N1 + (i * w + a)) (cl_l cl) PInf = g_xlo c (stp i) a /\ nth (N1 + (i * w + a)) (cl_u cl) MInf = g_xhi c (stp i) a.
  Proof.
    intros Hi Ha. pose proof (blk_lt i (ph + 1) w a ltac:(lia) ltac:(lia)) as B.
    destruct (bound_in (i * w + a)) as [-> ->]; [unfold n_ineq; lia|lia|].
    rewrite (ie_x _ _ _ _ _ _ _ (ineqL junk ejunk d s c HR)), (ie_x _ _ _ _ _ _ _ (ineqU junk ejunk d s c HR)) by lia.
    destruct RL as (L1 & L2 & _). rewrite L1, L2 by lia. split; reflexivity.
  Qed.
  Theorem bound_u i a : i <= ph -> a < nu ->
    nth (N1 + (i * w + (nx + a))) (cl_l cl) PInf = g_ulo c (Nat.min i (ph - 1)) a /\
    nth (N1 + (i * w + (nx + a))) (cl_u cl) MInf = g_uhi c (Nat.min i (ph - 1)) a.
  Proof.
    intros Hi Ha. pose proof (blk_lt i (ph + 1) w (nx + a) ltac:(lia) ltac:(lia)) as B.
    destruct (bound_in (i * w + (nx + a))) as [-> ->]; [unfold n_ineq; lia|lia|].
    rewrite (ie_u _ _ _ _ _ _ _ (ineqL junk ejunk d s c HR)), (ie_u _ _ _ _ _ _ _ (ineqU junk ejunk d s c HR)) by lia.
    destruct RL as (_ & _ & _ & _ & L5 & L6 & _).
    replace (if i =? ph then i - 1 else i) with (Nat.min i (ph - 1)) by (destruct (Nat.eqb_spec i ph); lia).
    rewrite L5, L6 by lia. split; reflexivity.
  Qed.
  Theorem bound_y i a : i <= ph -> a < ny -> exists o,
    nth (N1 + (N1 + (i * ny + a))) (cl_l cl) PInf = eadd (g_ylo c (stp i) a) o /\
    nth (N1 + (N1 + (i * ny + a))) (cl_u cl) MInf = eadd (g_yhi c (stp i) a) o.
  Proof.
    intros Hi Ha. pose proof (blk_lt i (ph + 1) ny a ltac:(lia) ltac:(lia)) as B.
    erewrite cl_l_eq, cl_u_eq by (eassumption || (unfold n_con, n_eq, n_ineq; lia)).
    destruct (ge_l _ _ _ _ _ _ _ _ _ (Gent junk ejunk d ph_pos s c x0 u0 HR Hx0 Hu0) (N1 + (i * ny + a))) as (o & -> & -> & _ & _);
      [unfold n_ineq; lia|]. exists o.
    rewrite (ie_y _ _ _ _ _ _ _ (ineqL junk ejunk d s c HR)), (ie_y _ _ _ _ _ _ _ (ineqU junk ejunk d s c HR)) by lia.
    destruct RL as (_ & _ & L3 & L4 & _). rewrite L3, L4 by lia. split; reflexivity.
  Qed.
  Theorem bound_s i : i <= ph ->
    nth (N1 + (N1 + (ph + 1) * ny + ph * nu + i)) (cl_l cl) PInf = g_slo c (stp i) /\
    nth (N1 + (N1 + (ph + 1) * ny + ph * nu + i)) (cl_u cl) MInf = g_shi c (stp i).
  Proof.
    intros Hi. destruct (bound_in (N1 + (ph + 1) * ny + ph * nu + i)) as [-> ->]; [unfold n_ineq; lia|lia|].
    rewrite (ie_s _ _ _ _ _ _ _ (ineqL junk ejunk d s c HR)), (ie_s _ _ _ _ _ _ _ (ineqU junk ejunk d s c HR)) by lia.
    destruct RL as (_ & _ & _ & _ & _ & _ & L7 & L8 & _). rewrite L7, L8 by lia. split; reflexivity.
  Qed.
  Lemma bound_du i a : i < ph -> a < nu ->
    nth (N1 + (N1 + (ph + 1) * ny + (i * nu + a))) (cl_l cl) PInf = (if ch <? i then Fin s0 else MInf) /\
    nth (N1 + (N1 + (ph + 1) * ny + (i * nu + a))) (cl_u cl) MInf = (if ch <? i then Fin s0 else PInf).
  Proof.
    intros Hi Ha. pose proof (blk_lt i ph nu a Hi Ha).
    destruct (bound_in (N1 + (ph + 1) * ny + (i * nu + a))) as [-> ->]; [unfold n_ineq; lia|lia|].
    rewrite (ie_du _ _ _ _ _ _ _ (ineqL junk ejunk d s c HR)), (ie_du _ _ _ _ _ _ _ (ineqU junk ejunk d s c HR)) by lia.
    split; reflexivity.
  Qed.
  Lemma bound_eq r : r < N1 -> nth r (cl_u cl) MInf = nth r (cl_l cl) PInf /\ exists v, nth r (cl_l cl) PInf = Fin v.
  Proof.
    intros Hr. erewrite cl_l_eq, cl_u_eq by (eassumption || (unfold n_con, n_eq; lia)).
    pose proof (Gent junk ejunk d ph_pos s c x0 u0 HR Hx0 Hu0) as G. split; [now apply (ge_ul _ _ _ _ _ _ _ _ _ G)|].
    destruct (blk_split r (ph + 1) w Hr) as (i & a & Hi & Ha & ->). destruct i as [|i].
    - cbn [Nat.mul Nat.add]. destruct (Nat.lt_ge_cases a nx).
      + rewrite (ge_0x _ _ _ _ _ _ _ _ _ G) by assumption. eauto.
      + replace a with (nx + (a - nx)) by lia. rewrite (ge_0u _ _ _ _ _ _ _ _ _ G) by lia. eauto.
    - rewrite (ge_eq _ _ _ _ _ _ _ _ _ G) by lia. eauto.
  Qed.
  Lemma ele_eadd (a b : ext F) o : ele (eadd a o) (eadd b o) <-> ele a b.
  Proof. destruct a, b; cbn; try tauto. apply sle_add_cancel. Qed.

  (** the solver accepts the bounds iff every configured pair is ordered *)
  Theorem bounds_ordered_iff : bounds_ordered cl <->
    (forall i j, i < ph -> j < nx -> ele (g_xlo c i j) (g_xhi c i j)) /\
    (forall i j, i < ph -> j < ny -> ele (g_ylo c i j) (g_yhi c i j)) /\
    (forall i j, i < ph -> j < nu -> ele (g_ulo c i j) (g_uhi c i j)) /\
    (forall i, i < ph -> ele (g_slo c i) (g_shi c i)).
  Proof.
    unfold bounds_ordered. erewrite (fun H => proj2 (cl_dims junk ejunk d H s c x0 u0 HR Hx0 Hu0)) by assumption.
    rewrite (row_groups d ph_pos). split.
    - intros (_ & _ & _ & _ & H5 & H6 & H7 & _ & H9). refine (conj _ (conj _ (conj _ _))).
      + intros i j Hi Hj. specialize (H5 (S i) j ltac:(lia) Hj). destruct (bound_x (S i) j) as [E1 E2]; try lia.
        rewrite E1, E2 in H5. exact H5.
      + intros i j Hi Hj. specialize (H7 (S i) j ltac:(lia) Hj). destruct (bound_y (S i) j) as (o & E1 & E2); try lia.
        rewrite E1, E2, ele_eadd in H7. exact H7.
      + intros i j Hi Hj. specialize (H6 i j ltac:(lia) Hj). destruct (bound_u i j) as [E1 E2]; try lia.
        rewrite E1, E2 in H6. rewrite Nat.min_l in H6 by lia. exact H6.
      + intros i Hi. specialize (H9 (S i) ltac:(lia)). destruct (bound_s (S i)) as [E1 E2]; try lia.
        rewrite E1, E2 in H9. exact H9.
    - intros (HX & HY & HU & HS).
      assert (EQ : forall r, r < N1 -> ele (nth r (cl_l cl) PInf) (nth r (cl_u cl) MInf)).
      { intros r Hr. destruct (bound_eq r Hr) as [-> (v & ->)]. cbn. apply sle_refl. }
      refine (conj _ (conj _ (conj _ (conj _ (conj _ (conj _ (conj _ (conj _ _)))))))); intros.
      + apply EQ. pose proof (blk_lt 0 (ph + 1) w a ltac:(lia) ltac:(lia)); lia.
      + apply EQ. pose proof (blk_lt 0 (ph + 1) w (nx + a) ltac:(lia) ltac:(lia)); lia.
      + apply EQ. pose proof (blk_lt (S i) (ph + 1) w a ltac:(lia) ltac:(lia)); lia.
      + apply EQ. pose proof (blk_lt (S i) (ph + 1) w (nx + a) ltac:(lia) ltac:(lia)); lia.
      + destruct (bound_x i a) as [-> ->]; try lia. apply HX; unfold stp; lia.
      + destruct (bound_u i a) as [-> ->]; try lia. apply HU; lia.
      + destruct (bound_y i a) as (o & -> & ->); try lia. rewrite ele_eadd. apply HY; unfold stp; lia.
      + destruct (bound_du i a) as [-> ->]; try lia. destruct (ch <? i); cbn; [apply sle_refl|exact I].
      + destruct (bound_s i) as [-> ->]; try lia. apply HS. unfold stp; lia.
  Qed.

  (** *** a negative increment weight makes the quadratic form indefinite *)
  Theorem quad_form_neg i a : i < ph -> a < nu -> (g_wdu c i a < s0)%S ->
    (quad_form cl (fun r => if (r =? N1 + (i * nu + a))%nat then s1 else s0) < s0)%S.
  Proof.
    intros Hi Ha Hw. set (z := fun r => _). unfold quad_form.
    erewrite (fun H => proj1 (cl_dims junk ejunk d H s c x0 u0 HR Hx0 Hu0)) by assumption.
    pose proof (blk_lt i ph nu a Hi Ha) as B.
    set (k := N1 + (i * nu + a)) in *. assert (K : k < n_var d) by (unfold k, n_var; lia).
    rewrite (ssum_single _ k) by (try assumption; intros j Hj N; unfold z; rewrite (proj2 (Nat.eqb_neq j k)) by congruence; ring).
    rewrite (ssum_single _ k) by (try assumption; intros j Hj N; unfold z; rewrite (proj2 (Nat.eqb_neq j k)) by congruence; ring).
    unfold z. rewrite Nat.eqb_refl.
    erewrite qp_P_eq by eassumption. erewrite pP_eq by eassumption.
    destruct (rb_sz _ _ _ _ _ (r_b _ _ _ _ _ HR)).
    unfold k. rewrite (build_P_uu d (b_ss (l_b s)) (b_w (l_b s))) by assumption.
    rewrite Nat.eqb_refl, Nat.eqb_refl. cbn [andb].
    erewrite w_du by eassumption. replace (1 * (g_wdu c i a * 1))%S with (g_wdu c i a) by ring. exact Hw.
  Qed.
End LRows.
