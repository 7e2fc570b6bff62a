(** Convex quadratic programs: residuals, certificates (proofs; no reference to the code). *)
From Coq Require Import Bool Arith ZArith List Lia Ring Field.
From Verif Require Import Scalar Sums Mat Slice Csc CscProof Builder LMPC SpecLMPC SpecQP NLSlope2 SpecCert.
Import ListNotations.

Section LCert.
  Context {F : Type} {SO : ScalarOps F} {SL : ScalarLaws F}.
  Add Field SFcert : (@s_field F SO SL).
  Local Open Scope S_scope.
  Variable c : call F.
  Notation n := (cl_n c). Notation m := (cl_m c).
  Definition dot (k : nat) (a b : nat -> F) : F := ssum k (fun i => a i * b i).
  Definition Pv (z : nat -> F) (i : nat) : F := ssum n (fun j => qp_P c i j * z j).
  Definition qv_ (i : nat) : F := nth i (cl_q c) s0.

  Lemma P_sym i j : qp_P c i j = qp_P c j i.
  Proof. unfold qp_P. now rewrite (Nat.min_comm i j), (Nat.max_comm i j). Qed.
  Lemma dot_Pv_sym a b : dot n a (Pv b) = dot n b (Pv a).
  Proof.
    unfold dot, Pv. rewrite (ssum_ext n _ (fun i => ssum n (fun j => a i * (qp_P c i j * b j)))) by (intros; now rewrite <- ssum_mul_l).
    rewrite ssum_swap. apply ssum_ext. intros j Hj. rewrite <- ssum_mul_l. apply ssum_ext. intros i Hi. rewrite (P_sym i j). ring.
  Qed.
  Lemma cost2_dot z : qp_cost2 c z = dot n z (Pv z) + s2 * dot n qv_ z. Proof. reflexivity. Qed.
  Lemma quad_dot z : quad_form c z = dot n z (Pv z). Proof. reflexivity. Qed.
  Lemma Pv_add a b i : Pv (fun k => a k + b k) i = Pv a i + Pv b i.
  Proof. unfold Pv. rewrite <- ssum_add. apply ssum_ext. intros; ring. Qed.
  Lemma Pv_scal t a i : Pv (fun k => t * a k) i = t * Pv a i.
  Proof. unfold Pv. rewrite <- ssum_mul_l. apply ssum_ext. intros; ring. Qed.
  Lemma dot_add_l k a b e : dot k (fun i => a i + b i) e = dot k a e + dot k b e.
  Proof. unfold dot. rewrite <- ssum_add. apply ssum_ext. intros; ring. Qed.
  Lemma dot_add_r k a b e : dot k e (fun i => a i + b i) = dot k e a + dot k e b.
  Proof. unfold dot. rewrite <- ssum_add. apply ssum_ext. intros; ring. Qed.
  Lemma dot_scal_l k t a b : dot k (fun i => t * a i) b = t * dot k a b.
  Proof. unfold dot. rewrite <- ssum_mul_l. apply ssum_ext. intros; ring. Qed.
  Lemma dot_scal_r k t a b : dot k a (fun i => t * b i) = t * dot k a b.
  Proof. unfold dot. rewrite <- ssum_mul_l. apply ssum_ext. intros; ring. Qed.
  Lemma dot_ext k a b a' b' : (forall i, (i < k)%nat -> a i = a' i) -> (forall i, (i < k)%nat -> b i = b' i) -> dot k a b = dot k a' b'.
  Proof. intros A B. apply ssum_ext. intros i Hi. now rewrite A, B. Qed.
  Lemma dot_comm k a b : dot k a b = dot k b a. Proof. apply ssum_ext. intros; ring. Qed.

  (** second-order expansion along v *)
  Lemma cost2_along z v t : qp_cost2 c (fun i => z i + t * v i) = qp_cost2 c z + s2 * t * dot n v (qp_grad c z) + t * t * quad_form c v.
  Proof.
    rewrite !cost2_dot, quad_dot.
    rewrite (dot_ext n (fun i => z i + t * v i) (Pv (fun i => z i + t * v i)) (fun i => z i + t * v i) (fun i => Pv z i + t * Pv v i));
      [|reflexivity|intros i _; now rewrite Pv_add, Pv_scal].
    rewrite dot_add_l, !dot_add_r, !dot_scal_l, !dot_scal_r, (dot_Pv_sym z v).
    replace (dot n v (qp_grad c z)) with (dot n v (Pv z) + dot n qv_ v).
    2:{ rewrite (dot_comm n qv_ v), <- dot_add_r. reflexivity. }
    unfold s2. ring.
  Qed.

  Lemma row_add r z v t : qp_row c r (fun i => z i + t * v i) = qp_row c r z + t * qp_row c r v.
  Proof. unfold qp_row. rewrite <- ssum_mul_l, <- ssum_add. apply ssum_ext. intros; ring. Qed.
  Lemma row_sub r z z' : qp_row c r (fun i => z' i - z i) = qp_row c r z' - qp_row c r z.
  Proof. unfold qp_row. rewrite <- ssum_sub. apply ssum_ext. intros; ring. Qed.
  Lemma At_dot y v : dot n (qp_At c y) v = dot m y (fun r => qp_row c r v).
  Proof.
    unfold dot, qp_At, qp_row.
    rewrite (ssum_ext n _ (fun i => ssum m (fun r => csc_val (cl_A c) r i * y r * v i))) by (intros; now rewrite <- ssum_mul_r).
    rewrite ssum_swap. apply ssum_ext. intros r Hr. rewrite <- ssum_mul_l. apply ssum_ext. intros; ring.
  Qed.
  Lemma ssum_le k f g : (forall i, (i < k)%nat -> f i <= g i) -> ssum k f <= ssum k g.
  Proof. intros H. apply sle_sub_0. rewrite <- ssum_sub. apply ssum_nonneg. intros i Hi. now apply (proj1 (sle_sub_0 _ _)), H. Qed.
  Lemma dot_abs k e a b : (forall i, (i < k)%nat -> sabs (a i) <= e) -> - (e * norm1 k b) <= dot k a b.
  Proof.
    intros H. unfold norm1. rewrite <- ssum_mul_l. rewrite <- ssum_opp. apply ssum_le. intros i Hi.
    assert (K : sabs (a i * b i) <= e * sabs (b i)).
    { rewrite sabs_mul. replace (sabs (a i) * sabs (b i)) with (sabs (b i) * sabs (a i)) by ring. replace (e * sabs (b i)) with (sabs (b i) * e) by ring.
      apply smul_le_l; [apply NLSlope.sabs_nonneg|now apply H]. }
    apply sabs_le in K. tauto.
  Qed.

  Hypothesis convex : forall v, s0 <= quad_form c v.

  (** every feasible point is worse up to the residuals *)
  Lemma kkt_bound ep ed z w y z' : kkt ep ed c z w y -> qp_feasible c z' ->
    qp_cost c z <= qp_cost c z' + ed * norm1 n (fun i => z' i - z i) + ep * norm1 m y.
  Proof.
    intros [HR HG] HF.
    set (v := fun i => z' i - z i).
    assert (E : qp_cost2 c z' = qp_cost2 c z + s2 * dot n v (qp_grad c z) + quad_form c v).
    { transitivity (qp_cost2 c (fun i => z i + s1 * v i)).
      - unfold qp_cost2. f_equal; [apply ssum_ext; intros i _; rewrite (ssum_ext n (fun j => qp_P c i j * z' j) (fun j => qp_P c i j * (z j + s1 * v j)))|f_equal; apply ssum_ext; intros i _]; unfold v; try (intros; f_equal; ring); ring.
      - rewrite cost2_along. ring. }
    assert (G : dot n v (qp_grad c z) = dot n (fun i => qp_grad c z i + qp_At c y i) v - dot m y (fun r => qp_row c r v)).
    { rewrite dot_add_l, At_dot, (dot_comm n (qp_grad c z) v). ring. }
    assert (B1 : - (ed * norm1 n v) <= dot n (fun i => qp_grad c z i + qp_At c y i) v) by (apply dot_abs; exact HG).
    assert (B2 : dot m y (fun r => qp_row c r v) <= ep * norm1 m y).
    { unfold norm1. rewrite <- ssum_mul_l. apply ssum_le. intros r Hr. destruct (HR r Hr) as (W & Rz & M1 & M2). unfold v. rewrite row_sub.
      pose proof (HF r Hr) as W'. unfold row_holds in W'. fold (lo_of c r) (hi_of c r) in W'.
      replace (y r * (qp_row c r z' - qp_row c r z)) with (y r * (qp_row c r z' - w r) + y r * (w r - qp_row c r z)) by ring.
      replace (ep * sabs (y r)) with (s0 + sabs (y r) * ep) by ring. apply sle_add.
      - destruct (sltb s0 (y r)) eqn:Y1.
        + rewrite (M1 Y1) in W'. destruct W' as [_ W']. cbn in W'. apply sle_sub_0.
          replace (s0 - y r * (qp_row c r z' - w r)) with (y r * (w r - qp_row c r z')) by ring.
          apply smul_nonneg; [exact (slt_le _ _ Y1)|]. now apply (proj1 (sle_sub_0 _ _)).
        + destruct (sltb (y r) s0) eqn:Y2.
          * rewrite (M2 Y2) in W'. destruct W' as [W' _]. cbn in W'. apply sle_sub_0.
            replace (s0 - y r * (qp_row c r z' - w r)) with (- y r * (qp_row c r z' - w r)) by ring.
            apply smul_nonneg; [|now apply (proj1 (sle_sub_0 _ _))]. pose proof (sle_opp _ _ (slt_le _ _ Y2)) as K. now replace (- s0) with (s0 : F) in K by ring.
          * assert (Z : y r = s0).
            { rewrite s_lt_le in Y1, Y2. apply negb_false_iff in Y1, Y2. now apply sle_antisym. }
            rewrite Z. replace (s0 * (qp_row c r z' - w r)) with (s0 : F) by ring. apply sle_refl.
      - apply sle_trans with (sabs (y r * (w r - qp_row c r z))); [apply sabs_self|]. rewrite sabs_mul. apply smul_le_l; [apply NLSlope.sabs_nonneg|].
        replace (w r - qp_row c r z) with (- (qp_row c r z - w r)) by ring. rewrite sabs_opp. exact Rz. }
    unfold qp_cost. apply sle_sub_0.
    replace (qp_cost2 c z' / s2 + ed * norm1 n v + ep * norm1 m y - qp_cost2 c z / s2)
      with (quad_form c v / s2 + ((dot n (fun i => qp_grad c z i + qp_At c y i) v + ed * norm1 n v) + (ep * norm1 m y - dot m y (fun r => qp_row c r v)))).
    2:{ rewrite E, G. unfold s2. field. exact (s2_neq_0 (F := F)). }
    replace (s0 : F) with (s0 + (s0 + s0) : F) by ring. apply sle_add; [|apply sle_add].
    - apply (smul_le_cancel s2); [exact (slt_add_l_nonneg _ _ s01 s01_lt)|]. replace (s2 * s0) with (s0 : F) by ring.
      replace (s2 * (quad_form c v / s2)) with (quad_form c v); [apply convex|]. unfold s2; field. exact (s2_neq_0 (F := F)).
    - apply sle_sub_0 in B1. now replace (dot n (fun i => qp_grad c z i + qp_At c y i) v - - (ed * norm1 n v)) with (dot n (fun i => qp_grad c z i + qp_At c y i) v + ed * norm1 n v) in B1 by ring.
    - now apply (proj1 (sle_sub_0 _ _)).
  Qed.
  Lemma kkt_feasible ed z w y : kkt s0 ed c z w y -> qp_feasible c z.
  Proof.
    intros [HR _] r Hr. destruct (HR r Hr) as (W & Rz & _). unfold row_holds. fold (lo_of c r) (hi_of c r).
    assert (E : qp_row c r z = w r); [|now rewrite E].
    apply sabs_le_0 in Rz. transitivity (w r + (qp_row c r z - w r)); [ring|]. rewrite Rz. ring.
  Qed.
  Lemma kkt_optimal z w y : kkt s0 s0 c z w y -> qp_optimal c z.
  Proof.
    intros H. split; [exact (kkt_feasible _ _ _ _ H)|]. intros z' HF. pose proof (kkt_bound _ _ _ _ _ z' H HF) as B.
    now replace (qp_cost c z' + s0 * norm1 n (fun i => z' i - z i) + s0 * norm1 m y) with (qp_cost c z') in B by ring.
  Qed.
End LCert.

Section Infeasible.
  Context {F : Type} {SO : ScalarOps F} {SL : ScalarLaws F}.
  Add Field SFcert2 : (@s_field F SO SL).
  Local Open Scope S_scope.
  Lemma primal_certificate_sound (c : call F) y z : primal_certificate c y -> qp_feasible c z -> False.
  Proof.
    intros [HA (t & HS & HN)] HF.
    assert (Z : dot (cl_m c) y (fun r => qp_row c r z) = s0).
    { rewrite <- At_dot. unfold dot. apply ssum_zero. intros i Hi. rewrite HA by exact Hi. ring. }
    assert (L : dot (cl_m c) y (fun r => qp_row c r z) <= ssum (cl_m c) t).
    { apply ssum_le. intros r Hr. pose proof (HS r Hr) as S. pose proof (HF r Hr) as W. unfold row_holds in W. fold (lo_of c r) (hi_of c r) in W. destruct W as [W1 W2].
      unfold support in S. destruct (sltb s0 (y r)) eqn:Y1.
      - destruct (hi_of c r) as [v| |]; [|discriminate S|discriminate S]. injection S as <-. cbn in W2. replace (v * y r) with (y r * v) by ring.
        apply smul_le_l; [exact (slt_le _ _ Y1)|exact W2].
      - destruct (sltb (y r) s0) eqn:Y2.
        + destruct (lo_of c r) as [v| |]; [|discriminate S|discriminate S]. injection S as <-. cbn in W1. apply sle_sub_0.
          replace (v * y r - y r * qp_row c r z) with (- y r * (qp_row c r z - v)) by ring.
          apply smul_nonneg; [|now apply (proj1 (sle_sub_0 _ _))]. pose proof (sle_opp _ _ (slt_le _ _ Y2)) as K. now replace (- s0) with (s0 : F) in K by ring.
        + injection S as <-. rewrite s_lt_le in Y1, Y2. apply negb_false_iff in Y1, Y2. rewrite (sle_antisym _ _ Y1 Y2).
          replace (s0 * qp_row c r z) with (s0 : F) by ring. apply sle_refl. }
    rewrite Z in L. apply slt_nle in HN. exact (HN L).
  Qed.
  (** the cost decreases without bound along a certificate of dual infeasibility *)
  Lemma dual_certificate_descent (c : call F) v z (b : F) : dual_certificate c v -> exists t, s0 <= t /\ qp_cost2 c (fun i => z i + t * v i) < b.
  Proof.
    intros (HP & HQ & _).
    assert (PZ : forall i, (i < cl_n c)%nat -> Pv c v i = s0) by exact HP.
    set (g := dot (cl_n c) (qv_ c) v). assert (Hg : g < s0) by exact HQ.
    assert (Gn : s2 * g <> s0). { intros E. apply smul_integral in E as [E|E]; [exact (s2_neq_0 E)|]. exact (slt_neq _ _ Hg E). }
    assert (C : forall t, qp_cost2 c (fun i => z i + t * v i) = qp_cost2 c z + t * (s2 * g)).
    { intros t. rewrite cost2_along, quad_dot.
      replace (dot (cl_n c) v (Pv c v)) with (s0 : F) by (symmetry; apply ssum_zero; intros i Hi; rewrite PZ by exact Hi; ring).
      replace (dot (cl_n c) v (qp_grad c z)) with (dot (cl_n c) v (Pv c z) + g).
      2:{ unfold g. rewrite (dot_comm (cl_n c) (qv_ c) v), <- dot_add_r. reflexivity. }
      rewrite dot_Pv_sym. replace (dot (cl_n c) z (Pv c v)) with (s0 : F) by (symmetry; apply ssum_zero; intros i Hi; rewrite PZ by exact Hi; ring). unfold s2. ring. }
    assert (N : forall k, k <= s0 -> s0 <= k / (s2 * g)).
    { intros k Hk. assert (Hg2 : s0 < s2 * - g).
      { apply slt_iff. split.
        - apply smul_nonneg; [exact (slt_le _ _ (slt_add_l_nonneg _ _ s01 s01_lt))|]. pose proof (sle_opp _ _ (slt_le _ _ Hg)) as K. now replace (- s0) with (s0 : F) in K by ring.
        - intros E. apply Gn. transitivity (- (s2 * - g)); [ring|]. rewrite <- E. ring. }
      apply (smul_le_cancel (s2 * - g)); [exact Hg2|]. replace (s2 * - g * s0) with (s0 : F) by ring.
      replace (s2 * - g * (k / (s2 * g))) with (- k). 2:{ field. split; intros E; apply Gn; rewrite E; ring. }
      pose proof (sle_opp _ _ Hk) as K. now replace (- s0) with (s0 : F) in K by ring. }
    destruct (sle_total (b - s1 - qp_cost2 c z) s0) as [K|K].
    - exists ((b - s1 - qp_cost2 c z) / (s2 * g)). split; [now apply N|]. rewrite C.
      replace (qp_cost2 c z + (b - s1 - qp_cost2 c z) / (s2 * g) * (s2 * g)) with (b - s1). 2:{ field. split; intros E; apply Gn; rewrite E; ring. }
      apply slt_nle. intros A. apply sle_sub_0 in A. replace (b - s1 - b) with (- s1 : F) in A by ring. apply sle_opp in A. replace (- - s1) with (s1 : F) in A by ring.
      replace (- s0) with (s0 : F) in A by ring. pose proof (s01_lt (F := F)) as O. apply slt_nle in O. exact (O A).
    - exists s0. split; [apply sle_refl|]. rewrite C. replace (qp_cost2 c z + s0 * (s2 * g)) with (qp_cost2 c z) by ring.
      apply slt_nle. intros A. pose proof (sle_add _ _ _ _ K A) as B. apply sle_sub_0 in B.
      replace (b - s1 - qp_cost2 c z + qp_cost2 c z - (s0 + b)) with (- s1 : F) in B by ring.
      apply sle_opp in B. replace (- - s1) with (s1 : F) in B by ring. replace (- s0) with (s0 : F) in B by ring.
      pose proof (s01_lt (F := F)) as O. apply slt_nle in O. exact (O B).
  Qed.
End Infeasible.
