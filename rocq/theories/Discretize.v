(** The discretisation helpers (include/mpc/Utils.hpp); property C41.  Real arithmetic (Coq.Reals, Coquelicot). *)
From Coq Require Import Arith Lia Reals Lra.
From Coquelicot Require Import Coquelicot.
Local Open Scope R_scope.

(** *** Model.  A matrix is its entry function; the sizes are the template arguments. *)
Definition matrix := nat -> nat -> R.
Fixpoint rsum (n : nat) (f : nat -> R) : R := match n with O => 0 | S k => rsum k f + f k end.
Definition idm : matrix := fun i j => if Nat.eqb i j then 1 else 0.
Fixpoint mpow (n : nat) (M : matrix) (k : nat) : matrix :=
  match k with O => idm | S k' => fun i j => rsum n (fun l => M i l * mpow n M k' l j) end.
(** Eigen's MatrixBase::exp() (unsupported/Eigen/MatrixFunctions, used at Utils.hpp:42 and 89), idealised: the limit of the power series, entry by entry.  Simplification: Eigen computes it by scaling and squaring of a Pade approximant, with rounding. *)
Definition mexp (n : nat) (M : matrix) : matrix := fun i j => Series (fun k => mpow n M k i j / INR (fact k)).
(** Utils.hpp:23-47 *)
Definition discretization (nx nu : nat) (A B : matrix) (Ts : R) : matrix * matrix :=
  let AB : matrix := fun i j => if Nat.ltb j nx then A i j else B i (j - nx)%nat in
  let AB : matrix := fun i j => AB i j * Ts in
  let res : matrix := fun i j => if Nat.ltb i nx then AB i j else 0 in
  let res := mexp (nx + nu) res in
  ((fun i j => res i j), (fun i j => res i (nx + j)%nat)).
(** Utils.hpp:65-95 *)
Definition discretization_dist (nx nu nud : nat) (A B Be : matrix) (Ts : R) : matrix * matrix * matrix :=
  let ABBe : matrix := fun i j => if Nat.ltb j nx then A i j else if Nat.ltb j (nx + nu) then B i (j - nx)%nat else Be i (j - (nx + nu))%nat in
  let ABBe : matrix := fun i j => ABBe i j * Ts in
  let res : matrix := fun i j => if Nat.ltb i nx then ABBe i j else 0 in
  let res := mexp (nx + nu + nud) res in
  ((fun i j => res i j), (fun i j => res i (nx + j)%nat), (fun i j => res i (nx + nu + j)%nat)).
(** Utils.hpp:114-124.  Dd is declared mat<nx,nu> and assigned from D : mat<ny,nu>: with fixed sizes the overload is rejected at compile time unless ny = nx. *)
Definition discretization_out (nx nu ny : nat) (A B C D : matrix) (Ts : R) : option (matrix * matrix * matrix * matrix) :=
  if Nat.eqb ny nx then let (Ad, Bd) := discretization nx nu A B Ts in Some (Ad, Bd, C, D) else None.

(** *** Specification *)
(** z is a solution of z' = A z + B u (+ Be d) for the constant input u on the interval [0, T] *)
Definition solves (nx nu : nat) (A B : matrix) (u : nat -> R) (T : R) (z : nat -> R -> R) : Prop :=
  forall i, (i < nx)%nat ->
    (forall t, 0 < t < T -> is_derive (z i) t (rsum nx (fun l => A i l * z l t) + rsum nu (fun l => B i l * u l))) /\
    (forall t, 0 <= t <= T -> continuous (z i) t).
Definition solves_dist (nx nu nud : nat) (A B Be : matrix) (u d : nat -> R) (T : R) (z : nat -> R -> R) : Prop :=
  forall i, (i < nx)%nat ->
    (forall t, 0 < t < T -> is_derive (z i) t (rsum nx (fun l => A i l * z l t) + rsum nu (fun l => B i l * u l) + rsum nud (fun l => Be i l * d l))) /\
    (forall t, 0 <= t <= T -> continuous (z i) t).

(** *** Sums *)
Lemma rsum_ext n f g : (forall i, (i < n)%nat -> f i = g i) -> rsum n f = rsum n g.
Proof. induction n as [|n IH]; intros H; [reflexivity|]. cbn. rewrite IH by (intros; apply H; lia). now rewrite H by lia. Qed.
Lemma rsum_plus n f g : rsum n (fun i => f i + g i) = rsum n f + rsum n g.
Proof. induction n as [|n IH]; cbn; [lra|]. rewrite IH. lra. Qed.
Lemma rsum_scal n c f : rsum n (fun i => c * f i) = c * rsum n f.
Proof. induction n as [|n IH]; cbn; [lra|]. rewrite IH. lra. Qed.
Lemma rsum_0 n f : (forall i, (i < n)%nat -> f i = 0) -> rsum n f = 0.
Proof. intros H. rewrite (rsum_ext n f (fun _ => 0) H). clear. induction n; cbn; lra. Qed.
Lemma rsum_app n m f : rsum (n + m) f = rsum n f + rsum m (fun i => f (n + i)%nat).
Proof. induction m as [|m IH]; [rewrite Nat.add_0_r; cbn; lra|]. rewrite Nat.add_succ_r. cbn. rewrite IH. lra. Qed.
Lemma rsum_swap n m (f : nat -> nat -> R) : rsum n (fun i => rsum m (fun j => f i j)) = rsum m (fun j => rsum n (fun i => f i j)).
Proof. induction n as [|n IH]; cbn; [symmetry; apply rsum_0; reflexivity|]. now rewrite IH, <- rsum_plus. Qed.
Lemma rsum_single n i f : (i < n)%nat -> (forall j, (j < n)%nat -> j <> i -> f j = 0) -> rsum n f = f i.
Proof.
  intros Hi H. induction n as [|n IH]; [lia|]. cbn. destruct (Nat.eq_dec i n) as [->|Ne].
  - rewrite rsum_0; [lra|]. intros j Hj. apply H; lia.
  - rewrite IH; [|lia|intros; apply H; lia]. rewrite (H n) by lia. lra.
Qed.
Lemma rsum_bound n f c : (forall i, (i < n)%nat -> Rabs (f i) <= c) -> Rabs (rsum n f) <= INR n * c.
Proof.
  induction n as [|n IH]; intros H; [cbn; rewrite Rabs_R0; lra|]. cbn [rsum]. rewrite S_INR.
  eapply Rle_trans; [apply Rabs_triang|]. assert (Rabs (rsum n f) <= INR n * c) by (apply IH; intros; apply H; lia).
  assert (Rabs (f n) <= c) by (apply H; lia). lra.
Qed.
Lemma idm_same i : idm i i = 1. Proof. unfold idm. now rewrite Nat.eqb_refl. Qed.
Lemma idm_diff i j : i <> j -> idm i j = 0. Proof. intros H. unfold idm. now rewrite (proj2 (Nat.eqb_neq i j) H). Qed.

(** *** Powers *)
Lemma mpow_comm n M k i j : (i < n)%nat -> (j < n)%nat -> mpow n M (S k) i j = rsum n (fun l => mpow n M k i l * M l j).
Proof.
  revert i. induction k as [|k IH]; intros i Hi Hj.
  - cbn. rewrite (rsum_single n j) by (try exact Hj; intros l _ Ne; rewrite idm_diff by congruence; ring).
    rewrite (rsum_single n i) by (try exact Hi; intros l _ Ne; rewrite idm_diff by congruence; ring). rewrite !idm_same. ring.
  - change (mpow n M (S (S k)) i j) with (rsum n (fun l => M i l * mpow n M (S k) l j)).
    rewrite (rsum_ext n _ (fun l => rsum n (fun h => M i l * (mpow n M k l h * M h j)))) by (intros l Hl; rewrite (IH l Hl Hj); symmetry; apply rsum_scal).
    rewrite rsum_swap. apply rsum_ext. intros h Hh. cbn [mpow].
    rewrite (rsum_ext n _ (fun l => M h j * (M i l * mpow n M k l h))) by (intros; ring). rewrite rsum_scal. ring.
Qed.
Lemma mpow_scal n c M k i j : mpow n (fun a b => M a b * c) k i j = c ^ k * mpow n M k i j.
Proof.
  revert i. induction k as [|k IH]; intros i; cbn; [ring|]. rewrite <- rsum_scal. apply rsum_ext. intros l _. rewrite IH. ring.
Qed.
Lemma mpow_ext n M M' k i j : (forall a b, (a < n)%nat -> (b < n)%nat -> M a b = M' a b) -> (i < n)%nat -> mpow n M k i j = mpow n M' k i j.
Proof.
  intros H. revert i. induction k as [|k IH]; intros i Hi; [reflexivity|]. cbn. apply rsum_ext. intros l Hl. rewrite H, IH by assumption. reflexivity.
Qed.
Fixpoint rmax (n : nat) (f : nat -> R) : R := match n with O => 0 | S k => Rmax (rmax k f) (f k) end.
Lemma rmax_le n f i : (i < n)%nat -> f i <= rmax n f.
Proof. induction n as [|n IH]; intros H; [lia|]. cbn. destruct (Nat.eq_dec i n) as [->|]; [apply Rmax_r|]. eapply Rle_trans; [apply IH; lia|apply Rmax_l]. Qed.
Lemma rmax_pos n f : 0 <= rmax n f. Proof. induction n; cbn; [lra|]. eapply Rle_trans; [exact IHn|apply Rmax_l]. Qed.
Lemma entries_bounded n (M : matrix) : exists c, 0 <= c /\ forall i j, (i < n)%nat -> (j < n)%nat -> Rabs (M i j) <= c.
Proof.
  exists (rmax n (fun i => rmax n (fun j => Rabs (M i j)))). split; [apply rmax_pos|]. intros i j Hi Hj.
  eapply Rle_trans; [apply (rmax_le n (fun j => Rabs (M i j)) j Hj)|]. apply (rmax_le n (fun i => rmax n (fun j => Rabs (M i j))) i Hi).
Qed.
Lemma mpow_bound n M : exists c, 0 <= c /\ forall k i j, (i < n)%nat -> (j < n)%nat -> Rabs (mpow n M k i j) <= c ^ k.
Proof.
  destruct (entries_bounded n M) as [c [Hc H]]. exists (INR n * c). assert (0 <= INR n) by apply pos_INR.
  split; [now apply Rmult_le_pos|]. intros k. induction k as [|k IH]; intros i j Hi Hj.
  - cbn. unfold idm. destruct (Nat.eqb i j); [rewrite Rabs_R1|rewrite Rabs_R0]; lra.
  - cbn [mpow]. eapply Rle_trans.
    + apply (rsum_bound n _ (c * (INR n * c) ^ k)). intros l Hl. rewrite Rabs_mult. apply Rmult_le_compat; try apply Rabs_pos; [now apply H|now apply IH].
    + cbn. right. ring.
Qed.

(** *** Entire power series *)
Definition entire (a : nat -> R) : Prop := forall x, Rbar_lt (Rabs x) (CV_radius a).
Lemma entire_bound a c : (forall k, Rabs (a k) <= c ^ k / INR (fact k)) -> entire a.
Proof.
  intros H x.
  assert (Hc : 0 <= Rabs (Rabs x + 1)) by apply Rabs_pos.
  assert (B : Rbar_le (Rabs x + 1) (CV_radius a)).
  { apply (proj1 (CV_radius_bounded a)).
    destruct (maj_by_pos (fun n => (Rabs c * Rabs (Rabs x + 1)) ^ n / INR (fact n))) as [l [_ Hl]].
    { exists 0. apply cv_speed_pow_fact. }
    exists l. intros n. eapply Rle_trans; [|apply Hl]. rewrite Rabs_mult, <- RPow_abs.
    assert (Fp : 0 < INR (fact n)) by (apply INR_fact_lt_0).
    rewrite (Rabs_right ((Rabs c * Rabs (Rabs x + 1)) ^ n / INR (fact n))).
    2:{ apply Rle_ge. apply Rmult_le_pos; [apply pow_le; apply Rmult_le_pos; apply Rabs_pos|left; now apply Rinv_0_lt_compat]. }
    rewrite Rpow_mult_distr. replace (Rabs c ^ n * Rabs (Rabs x + 1) ^ n / INR (fact n)) with (Rabs c ^ n / INR (fact n) * Rabs (Rabs x + 1) ^ n) by (field; lra).
    apply Rmult_le_compat_r; [now apply pow_le|]. eapply Rle_trans; [apply H|]. apply Rmult_le_compat_r; [left; now apply Rinv_0_lt_compat|].
    rewrite RPow_abs. apply Rle_abs. }
  destruct (CV_radius a) as [r| |]; cbn in *; [lra|exact I|exact B].
Qed.
Lemma entire_ex a x : entire a -> ex_pseries a x. Proof. intros H. apply CV_radius_inside, H. Qed.

(** *** The exponential of t A *)
Section Exp.
  Variables (n : nat) (A : matrix).
  Definition ecoef (i j k : nat) : R := mpow n A k i j / INR (fact k).
  Definition et (i j : nat) (t : R) : R := PSeries (ecoef i j) t.
  Lemma fact_pos k : 0 < INR (fact k). Proof. apply INR_fact_lt_0. Qed.
  Lemma ecoef_entire i j : (i < n)%nat -> (j < n)%nat -> entire (ecoef i j).
  Proof.
    intros Hi Hj. destruct (mpow_bound n A) as [c [Hc H]]. apply (entire_bound _ c). intros k. unfold ecoef, Rdiv.
    rewrite Rabs_mult, (Rabs_right (/ INR (fact k))) by (left; apply Rinv_0_lt_compat, fact_pos).
    apply Rmult_le_compat_r; [left; apply Rinv_0_lt_compat, fact_pos|]. now apply H.
  Qed.
  Lemma mexp_scal t i j : mexp n (fun a b => A a b * t) i j = et i j t.
  Proof. unfold mexp, et, PSeries, ecoef. apply Series_ext. intros k. rewrite mpow_scal. unfold Rdiv. ring. Qed.
  Lemma PSeries_rsum m (a : nat -> nat -> R) (c : nat -> R) x : (forall l, (l < m)%nat -> entire (a l)) ->
    ex_pseries (fun k => rsum m (fun l => c l * a l k)) x /\ PSeries (fun k => rsum m (fun l => c l * a l k)) x = rsum m (fun l => c l * PSeries (a l) x).
  Proof.
    induction m as [|m IH]; intros H.
    - cbn. split; [|apply PSeries_const_0]. apply CV_radius_inside. rewrite CV_radius_const_0. exact I.
    - destruct IH as [IH1 IH2]; [intros; apply H; lia|]. cbn [rsum].
      assert (E : ex_pseries (PS_scal (c m) (a m)) x). { apply ex_pseries_scal; [intros; apply Rmult_comm|]. apply entire_ex, H. lia. }
      split.
      + apply (ex_pseries_ext (PS_plus (fun k => rsum m (fun l => c l * a l k)) (PS_scal (c m) (a m)))); [reflexivity|].
        now apply ex_pseries_plus.
      + rewrite <- IH2, <- PSeries_scal, <- PSeries_plus by assumption. apply PSeries_ext. reflexivity.
  Qed.
  Lemma et_derive_l i j t : (i < n)%nat -> (j < n)%nat -> is_derive (et i j) t (rsum n (fun l => A i l * et l j t)).
  Proof.
    intros Hi Hj. unfold et. destruct (PSeries_rsum n (fun l => ecoef l j) (A i) t) as [_ E].
    { intros l Hl. now apply ecoef_entire. }
    rewrite <- E. rewrite (PSeries_ext _ (PS_derive (ecoef i j))).
    - apply is_derive_PSeries, ecoef_entire; assumption.
    - intros k. unfold PS_derive, ecoef. cbn [mpow]. unfold Rdiv.
      rewrite (rsum_ext n _ (fun l => / INR (fact k) * (A i l * mpow n A k l j))) by (intros; ring). rewrite rsum_scal.
      assert (K : INR (fact (S k)) = INR (S k) * INR (fact k)) by (rewrite fact_simpl; apply mult_INR).
      rewrite K. field. split; [apply Rgt_not_eq, fact_pos|apply not_0_INR; lia].
  Qed.
  Lemma et_derive_r i j t : (i < n)%nat -> (j < n)%nat -> is_derive (et i j) t (rsum n (fun l => et i l t * A l j)).
  Proof.
    intros Hi Hj. unfold et. destruct (PSeries_rsum n (fun l => ecoef i l) (fun l => A l j) t) as [_ E].
    { intros l Hl. now apply ecoef_entire. }
    rewrite (rsum_ext n (fun l => PSeries (ecoef i l) t * A l j) (fun l => A l j * PSeries (ecoef i l) t)) by (intros; ring).
    rewrite <- E. rewrite (PSeries_ext _ (PS_derive (ecoef i j))).
    - apply is_derive_PSeries, ecoef_entire; assumption.
    - intros k. unfold PS_derive, ecoef. rewrite mpow_comm by assumption. unfold Rdiv.
      rewrite (rsum_ext n _ (fun l => / INR (fact k) * (mpow n A k i l * A l j))) by (intros; ring). rewrite rsum_scal.
      assert (K : INR (fact (S k)) = INR (S k) * INR (fact k)) by (rewrite fact_simpl; apply mult_INR).
      rewrite K. field. split; [apply Rgt_not_eq, fact_pos|apply not_0_INR; lia].
  Qed.
  Lemma et_0 i j : et i j 0 = idm i j.
  Proof. unfold et. rewrite PSeries_0. unfold ecoef. cbn. field. Qed.
  (** the integral of the exponential *)
  Definition icoef (i j k : nat) : R := match k with O => 0 | S k' => mpow n A k' i j / INR (fact k) end.
  Definition it (i j : nat) (t : R) : R := PSeries (icoef i j) t.
  Lemma icoef_entire i j : (i < n)%nat -> (j < n)%nat -> entire (icoef i j).
  Proof.
    intros Hi Hj. destruct (mpow_bound n A) as [c [Hc H]]. apply (entire_bound _ (c + 1)). intros k.
    destruct k as [|k].
    - cbn. rewrite Rabs_R0. lra.
    - unfold icoef, Rdiv. rewrite Rabs_mult, (Rabs_right (/ INR (fact (S k)))) by (left; apply Rinv_0_lt_compat, fact_pos).
      apply Rmult_le_compat_r; [left; apply Rinv_0_lt_compat, fact_pos|]. eapply Rle_trans; [now apply H|].
      assert (c ^ k <= (c + 1) ^ k) by (apply pow_incr; lra). assert (0 <= c ^ k) by now apply pow_le. cbn.
      assert (0 <= c * (c + 1) ^ k) by (apply Rmult_le_pos; lra). lra.
  Qed.
  Lemma it_derive i j t : (i < n)%nat -> (j < n)%nat -> is_derive (it i j) t (et i j t).
  Proof.
    intros Hi Hj. unfold it, et. rewrite (PSeries_ext _ (PS_derive (icoef i j))).
    - apply is_derive_PSeries, icoef_entire; assumption.
    - intros k. unfold PS_derive, ecoef, icoef.
      assert (K : INR (fact (S k)) = INR (S k) * INR (fact k)) by (rewrite fact_simpl; apply mult_INR).
      rewrite K. field. split; [apply Rgt_not_eq, fact_pos|apply not_0_INR; lia].
  Qed.
  Lemma it_0 i j : it i j 0 = 0. Proof. unfold it. rewrite PSeries_0. reflexivity. Qed.
  Lemma it_RInt i j T : (i < n)%nat -> (j < n)%nat -> is_RInt (et i j) 0 T (it i j T).
  Proof.
    intros Hi Hj. replace (it i j T) with (minus (it i j T) (it i j 0)) by (rewrite it_0; unfold minus, plus, opp; cbn; ring).
    apply (is_RInt_derive (V := R_CompleteNormedModule) (it i j) (et i j) 0 T).
    - intros x _. now apply it_derive.
    - intros x _. apply (ex_derive_continuous (V := R_NormedModule) (et i j) x). eexists. now apply et_derive_l.
  Qed.
  (** A it + I = et *)
  Lemma it_et i j t : (i < n)%nat -> (j < n)%nat -> et i j t = idm i j + rsum n (fun l => A i l * it l j t).
  Proof.
    intros Hi Hj. unfold et. rewrite PSeries_decr_1 by (apply entire_ex, ecoef_entire; assumption).
    replace (ecoef i j 0) with (idm i j) by (unfold ecoef; cbn; field). f_equal.
    rewrite (rsum_ext n _ (fun l => t * (A i l * PSeries (PS_decr_1 (icoef l j)) t))).
    2:{ intros l Hl. unfold it. rewrite PSeries_decr_1 by (apply entire_ex, icoef_entire; assumption). cbn [icoef]. ring. }
    rewrite rsum_scal. f_equal.
    destruct (PSeries_rsum n (fun l => PS_decr_1 (icoef l j)) (A i) t) as [_ E].
    { intros l Hl x. rewrite CV_radius_decr_1. now apply icoef_entire. }
    rewrite <- E. apply PSeries_ext. intros k. unfold PS_decr_1, ecoef, icoef. cbn [mpow]. unfold Rdiv.
    rewrite Rmult_comm, <- rsum_scal. apply rsum_ext. intros; ring.
  Qed.
End Exp.

(** *** The augmented matrix *)
Section Aug.
  Variables (nx m : nat) (A B M : matrix).
  Hypothesis MA : forall i j, (i < nx)%nat -> (j < nx)%nat -> M i j = A i j.
  Hypothesis MB : forall i j, (i < nx)%nat -> (j < m)%nat -> M i (nx + j)%nat = B i j.
  Hypothesis MZ : forall i j, (nx <= i < nx + m)%nat -> (j < nx + m)%nat -> M i j = 0.
  Lemma aug_low k i j : (nx <= i < nx + m)%nat -> mpow (nx + m) M k i j = match k with O => idm i j | S _ => 0 end.
  Proof. intros Hi. destruct k; [reflexivity|]. cbn. apply rsum_0. intros l Hl. rewrite MZ by assumption. ring. Qed.
  Lemma aug_split k i j : (i < nx)%nat -> mpow (nx + m) M (S k) i j
    = rsum nx (fun l => A i l * mpow (nx + m) M k l j) + rsum m (fun l => B i l * mpow (nx + m) M k (nx + l)%nat j).
  Proof.
    intros Hi. cbn [mpow]. rewrite rsum_app. f_equal; apply rsum_ext; intros l Hl; [now rewrite MA|now rewrite MB].
  Qed.
  Lemma aug_A k i j : (i < nx)%nat -> (j < nx)%nat -> mpow (nx + m) M k i j = mpow nx A k i j.
  Proof.
    intros Hi Hj. revert i Hi. induction k as [|k IH]; intros i Hi; [reflexivity|]. rewrite aug_split by exact Hi.
    rewrite (rsum_0 m) by (intros l Hl; rewrite aug_low by lia; destruct k; [rewrite idm_diff by lia|]; ring).
    rewrite Rplus_0_r. cbn [mpow]. apply rsum_ext. intros l Hl. now rewrite IH.
  Qed.
  Lemma aug_B k i j : (i < nx)%nat -> (j < m)%nat -> mpow (nx + m) M (S k) i (nx + j)%nat = rsum nx (fun l => B l j * mpow nx A k i l).
  Proof.
    intros Hi Hj. revert i Hi. induction k as [|k IH]; intros i Hi; rewrite aug_split by exact Hi.
    - rewrite (rsum_0 nx) by (intros l Hl; cbn; rewrite idm_diff by lia; ring).
      rewrite (rsum_single m j) by (try exact Hj; intros l Hl Ne; cbn; rewrite idm_diff by lia; ring).
      rewrite (rsum_single nx i) by (try exact Hi; intros l Hl Ne; cbn; rewrite idm_diff by lia; ring). cbn. rewrite !idm_same. ring.
    - rewrite (rsum_0 m) by (intros l Hl; rewrite aug_low by lia; ring). rewrite Rplus_0_r.
      rewrite (rsum_ext nx (fun l => A i l * mpow (nx + m) M (S k) l (nx + j)%nat) (fun l => rsum nx (fun h => A i l * (B h j * mpow nx A k l h)))).
      2:{ intros l Hl. rewrite (IH l Hl). symmetry. apply rsum_scal. }
      rewrite rsum_swap. apply rsum_ext. intros h Hh. cbn [mpow]. rewrite <- rsum_scal. apply rsum_ext. intros; ring.
  Qed.
  Lemma aug_exp_A Ts i j : (i < nx)%nat -> (j < nx)%nat -> mexp (nx + m) (fun a b => M a b * Ts) i j = et nx A i j Ts.
  Proof. intros Hi Hj. rewrite mexp_scal. unfold et. apply PSeries_ext. intros k. unfold ecoef. now rewrite aug_A. Qed.
  Lemma aug_exp_B Ts i j : (i < nx)%nat -> (j < m)%nat -> mexp (nx + m) (fun a b => M a b * Ts) i (nx + j)%nat = rsum nx (fun l => B l j * it nx A i l Ts).
  Proof.
    intros Hi Hj. rewrite mexp_scal. unfold et, it.
    destruct (PSeries_rsum nx (fun l => icoef nx A i l) (fun l => B l j) Ts) as [_ E].
    { intros l Hl. now apply icoef_entire. }
    rewrite <- E. apply PSeries_ext. intros [|k].
    - unfold ecoef. cbn. rewrite idm_diff by lia. rewrite rsum_0 by (intros; ring). field.
    - unfold ecoef, icoef. rewrite aug_B by assumption. unfold Rdiv. rewrite Rmult_comm, <- rsum_scal. apply rsum_ext. intros; ring.
  Qed.
End Aug.
Lemma mexp_ext n M M' i j : (forall a b, (a < n)%nat -> (b < n)%nat -> M a b = M' a b) -> (i < n)%nat -> mexp n M i j = mexp n M' i j.
Proof. intros H Hi. unfold mexp. apply Series_ext. intros k. now rewrite (mpow_ext n M M' k i j H Hi). Qed.

(** the two overloads in terms of the exponential of t A and its integral *)
Definition hcat (n : nat) (A B : matrix) : matrix := fun i j => if Nat.ltb j n then A i j else B i (j - n)%nat.
Definition top (n : nat) (M : matrix) : matrix := fun i j => if Nat.ltb i n then M i j else 0.
Lemma hcat_l n A B i j : (j < n)%nat -> hcat n A B i j = A i j. Proof. intros H. unfold hcat. now rewrite (proj2 (Nat.ltb_lt _ _) H). Qed.
Lemma hcat_r n A B i j : hcat n A B i (n + j)%nat = B i j.
Proof. unfold hcat. rewrite (proj2 (Nat.ltb_ge _ _)) by lia. f_equal. lia. Qed.
Lemma top_l n M i j : (i < n)%nat -> top n M i j = M i j. Proof. intros H. unfold top. now rewrite (proj2 (Nat.ltb_lt _ _) H). Qed.
Lemma top_z n M i j : (n <= i)%nat -> top n M i j = 0. Proof. intros H. unfold top. now rewrite (proj2 (Nat.ltb_ge _ _) H). Qed.

Lemma disc_A nx nu A B Ts i j : (i < nx)%nat -> (j < nx)%nat -> fst (discretization nx nu A B Ts) i j = et nx A i j Ts.
Proof.
  intros Hi Hj. unfold discretization, fst. rewrite (mexp_ext _ _ (fun a b => top nx (hcat nx A B) a b * Ts)); [|intros a b Ha Hb|lia].
  - apply (aug_exp_A nx nu A B); try assumption.
    + intros a b Ha Hb. now rewrite top_l, hcat_l.
    + intros a b Ha Hb. now rewrite top_l, hcat_r.
    + intros a b Ha Hb. apply top_z. lia.
  - unfold top, hcat. destruct (Nat.ltb a nx); ring.
Qed.
Lemma disc_B nx nu A B Ts i j : (i < nx)%nat -> (j < nu)%nat -> snd (discretization nx nu A B Ts) i j = rsum nx (fun l => B l j * it nx A i l Ts).
Proof.
  intros Hi Hj. unfold discretization, snd. rewrite (mexp_ext _ _ (fun a b => top nx (hcat nx A B) a b * Ts)); [|intros a b Ha Hb|lia].
  - apply (aug_exp_B nx nu A B); try assumption.
    + intros a b Ha Hb. now rewrite top_l, hcat_l.
    + intros a b Ha Hb. now rewrite top_l, hcat_r.
    + intros a b Ha Hb. apply top_z. lia.
  - unfold top, hcat. destruct (Nat.ltb a nx); ring.
Qed.
Lemma disc_dist nx nu nud A B Be Ts i : (i < nx)%nat ->
  (forall j, (j < nx)%nat -> fst (fst (discretization_dist nx nu nud A B Be Ts)) i j = et nx A i j Ts) /\
  (forall j, (j < nu)%nat -> snd (fst (discretization_dist nx nu nud A B Be Ts)) i j = rsum nx (fun l => B l j * it nx A i l Ts)) /\
  (forall j, (j < nud)%nat -> snd (discretization_dist nx nu nud A B Be Ts) i j = rsum nx (fun l => Be l j * it nx A i l Ts)).
Proof.
  intros Hi.
  assert (E : forall j, (if Nat.ltb i nx then 1 else 0) * mexp (nx + nu + nud)
     (fun i j => if Nat.ltb i nx then (if Nat.ltb j nx then A i j else if Nat.ltb j (nx + nu) then B i (j - nx)%nat else Be i (j - (nx + nu))%nat) * Ts else 0) i j
     = mexp (nx + (nu + nud)) (fun a b => top nx (hcat nx A (hcat nu B Be)) a b * Ts) i j).
  { intros j. rewrite (proj2 (Nat.ltb_lt _ _) Hi), Rmult_1_l, Nat.add_assoc. apply mexp_ext; [|lia]. intros a b Ha Hb. unfold top, hcat.
    destruct (Nat.ltb a nx); [|ring]. destruct (Nat.ltb b nx) eqn:E1; [reflexivity|]. apply Nat.ltb_ge in E1.
    destruct (Nat.ltb b (nx + nu)) eqn:E2.
    - apply Nat.ltb_lt in E2. now rewrite (proj2 (Nat.ltb_lt (b - nx) nu)) by lia.
    - apply Nat.ltb_ge in E2. rewrite (proj2 (Nat.ltb_ge (b - nx) nu)) by lia. do 2 f_equal. lia. }
  rewrite (proj2 (Nat.ltb_lt _ _) Hi) in E.
  assert (H1 : forall a b, (a < nx)%nat -> (b < nx)%nat -> top nx (hcat nx A (hcat nu B Be)) a b = A a b) by (intros a b Ha Hb; now rewrite top_l, hcat_l).
  assert (H2 : forall a b, (a < nx)%nat -> (b < nu + nud)%nat -> top nx (hcat nx A (hcat nu B Be)) a (nx + b)%nat = hcat nu B Be a b) by (intros a b Ha Hb; now rewrite top_l, hcat_r).
  assert (H3 : forall a b, (nx <= a < nx + (nu + nud))%nat -> (b < nx + (nu + nud))%nat -> top nx (hcat nx A (hcat nu B Be)) a b = 0) by (intros a b Ha Hb; apply top_z; lia).
  unfold discretization_dist, fst, snd. split; [|split]; intros j Hj; rewrite <- Rmult_1_l at 1; rewrite E.
  - now rewrite (aug_exp_A nx (nu + nud) A (hcat nu B Be) _ H1 H2 H3 Ts i j Hi Hj).
  - rewrite (aug_exp_B nx (nu + nud) A (hcat nu B Be) _ H1 H2 H3 Ts i j Hi) by lia. apply rsum_ext. intros l Hl. now rewrite hcat_l.
  - rewrite <- Nat.add_assoc, (aug_exp_B nx (nu + nud) A (hcat nu B Be) _ H1 H2 H3 Ts i (nu + j)%nat Hi) by lia. apply rsum_ext. intros l Hl. now rewrite hcat_r.
Qed.

(** *** Calculus *)
Lemma der_eq (f : R -> R) (t a b : R) : is_derive f t a -> a = b -> is_derive f t b. Proof. now intros H <-. Qed.
Lemma der_rsum m (f : nat -> R -> R) (d : nat -> R) t : (forall l, (l < m)%nat -> is_derive (f l) t (d l)) -> is_derive (fun s => rsum m (fun l => f l s)) t (rsum m d).
Proof.
  induction m as [|m IH]; intros H; cbn [rsum]; [exact (is_derive_const (V := R_NormedModule) 0 t)|].
  apply (is_derive_plus (V := R_NormedModule) (fun s => rsum m (fun l => f l s)) (f m)); [apply IH; intros; apply H; lia|apply H; lia].
Qed.
Lemma der_mult (f g : R -> R) t a b : is_derive f t a -> is_derive g t b -> is_derive (fun s => f s * g s) t (a * g t + f t * b).
Proof. intros Hf Hg. apply (is_derive_mult f g t a b Hf Hg). intros; apply Rmult_comm. Qed.
Lemma der_sub T (s : R) : is_derive (fun s : R => T - s) s (-1).
Proof. auto_derive; [exact I|ring]. Qed.
Lemma der_shift T (s : R) : is_derive (fun s : R => s + T) s 1.
Proof. auto_derive; [exact I|ring]. Qed.
Lemma der_rev (f : R -> R) T s a : is_derive f (T - s) a -> is_derive (fun s => f (T - s)) s (- a).
Proof.
  intros H. eapply der_eq.
  - apply (is_derive_comp (V := R_NormedModule) f (fun s => T - s) s a (-1) H). apply der_sub.
  - unfold scal; cbn; unfold mult; cbn. ring.
Qed.
Lemma der_cmul (f : R -> R) c t a : is_derive f t a -> is_derive (fun s => f s * c) t (a * c).
Proof.
  intros H. eapply der_eq; [apply (der_mult f (fun _ => c) t a 0 H); exact (is_derive_const (V := R_NormedModule) c t)|ring].
Qed.
Lemma cont_rsum m (f : nat -> R -> R) t : (forall l, (l < m)%nat -> continuous (f l) t) -> continuous (fun s => rsum m (fun l => f l s)) t.
Proof.
  induction m as [|m IH]; intros H; cbn [rsum]; [apply (continuous_const (V := R_UniformSpace) 0)|].
  apply (continuous_plus (V := R_NormedModule) (fun s => rsum m (fun l => f l s)) (f m)); [apply IH; intros; apply H; lia|apply H; lia].
Qed.
Lemma der_cont (f : R -> R) t a : is_derive f t a -> continuous f t.
Proof. intros H. apply (ex_derive_continuous (V := R_NormedModule) f t). now exists a. Qed.

(** variation of constants for z' = A z + w *)
Lemma zoh n A (w : nat -> R) T (z : nat -> R -> R) : 0 <= T ->
  (forall i, (i < n)%nat -> (forall t, 0 < t < T -> is_derive (z i) t (rsum n (fun l => A i l * z l t) + w i)) /\ (forall t, 0 <= t <= T -> continuous (z i) t)) ->
  forall i, (i < n)%nat -> z i T = rsum n (fun l => et n A i l T * z l 0) + rsum n (fun l => it n A i l T * w l).
Proof.
  intros HT H i Hi.
  pose (g := fun s => rsum n (fun l => et n A i l (T - s) * z l s) + rsum n (fun l => it n A i l (T - s) * w l)).
  assert (G : g T = g 0).
  { destruct (MVT_gen g 0 T (fun _ => 0)) as [c [_ E]].
    - rewrite Rmin_left, Rmax_right by exact HT. intros s Hs. unfold g.
      eapply der_eq.
      + apply (is_derive_plus (V := R_NormedModule) (fun s => rsum n (fun l => et n A i l (T - s) * z l s)) (fun s => rsum n (fun l => it n A i l (T - s) * w l))).
        * apply der_rsum. intros l Hl. apply der_mult; [apply der_rev, et_derive_r; assumption|apply (proj1 (H l Hl) s Hs)].
        * apply der_rsum. intros l Hl. apply der_cmul, der_rev, it_derive; assumption.
      + unfold plus; cbn. rewrite <- rsum_plus.
        rewrite (rsum_ext n _ (fun l => (-1) * (z l s * rsum n (fun h => et n A i h (T - s) * A h l)) + et n A i l (T - s) * rsum n (fun h => A l h * z h s))) by (intros; ring).
        rewrite rsum_plus, rsum_scal.
        rewrite (rsum_ext n (fun l => z l s * rsum n (fun h => et n A i h (T - s) * A h l)) (fun l => rsum n (fun h => z l s * (et n A i h (T - s) * A h l)))) by (intros; symmetry; apply rsum_scal).
        rewrite (rsum_ext n (fun l => et n A i l (T - s) * rsum n (fun h => A l h * z h s)) (fun l => rsum n (fun h => et n A i l (T - s) * (A l h * z h s)))) by (intros; symmetry; apply rsum_scal).
        rewrite rsum_swap. rewrite (rsum_ext n _ (fun j => rsum n (fun h => et n A i j (T - s) * (A j h * z h s)))); [ring|].
        intros j Hj. apply rsum_ext. intros; ring.
    - rewrite Rmin_left, Rmax_right by exact HT. intros s Hs. apply continuity_pt_filterlim. unfold g.
      apply (continuous_plus (V := R_NormedModule) (fun s => rsum n (fun l => et n A i l (T - s) * z l s)) (fun s => rsum n (fun l => it n A i l (T - s) * w l))).
      + apply cont_rsum. intros l Hl. apply (continuous_mult (K := R_AbsRing) (fun s => et n A i l (T - s)) (z l)); [|apply (proj2 (H l Hl) s Hs)].
        eapply der_cont, der_rev, et_derive_r; assumption.
      + apply cont_rsum. intros l Hl. eapply der_cont, der_cmul, der_rev, it_derive; assumption.
    - lra. }
  unfold g in G. rewrite Rminus_0_r in G. rewrite <- G. rewrite Rminus_eq_0.
  rewrite (rsum_single n i) by (try exact Hi; intros l Hl Ne; rewrite et_0, idm_diff by congruence; ring).
  rewrite (rsum_0 n) by (intros l Hl; rewrite it_0; ring). rewrite et_0, idm_same. ring.
Qed.

(** *** C41 *)
(** the series of Eigen's exponential converges absolutely for every matrix, so the ideal exponential is defined *)
Theorem C41_exp_converges n M i j : (i < n)%nat -> (j < n)%nat -> ex_series (fun k => mpow n M k i j / INR (fact k)).
Proof.
  intros Hi Hj. apply (ex_series_ext (fun k => ecoef n M i j k * 1 ^ k)).
  - intros k. unfold ecoef. rewrite pow1. apply Rmult_1_r.
  - apply ex_pseries_R. apply entire_ex, ecoef_entire; assumption.
Qed.
(** Ad = exp(A Ts), Bd = (integral of exp(A s) over [0,Ts]) B *)
Theorem C41_blocks nx nu A B Ts i : (i < nx)%nat ->
  (forall j, (j < nx)%nat -> fst (discretization nx nu A B Ts) i j = mexp nx (fun a b => A a b * Ts) i j) /\
  (forall j, (j < nu)%nat -> snd (discretization nx nu A B Ts) i j = rsum nx (fun l => RInt (fun s => mexp nx (fun a b => A a b * s) i l) 0 Ts * B l j)).
Proof.
  intros Hi. split; intros j Hj.
  - rewrite disc_A, mexp_scal by assumption. reflexivity.
  - rewrite disc_B by assumption. apply rsum_ext. intros l Hl. rewrite Rmult_comm. f_equal. symmetry.
    rewrite (RInt_ext _ (et nx A i l)) by (intros; apply mexp_scal). apply is_RInt_unique, it_RInt; assumption.
Qed.
(** zero-order hold: whatever solution the plant follows under the constant input u, its state after Ts is Ad x(0) + Bd u *)
Theorem C41_zero_order_hold nx nu A B Ts u z : 0 <= Ts -> solves nx nu A B u Ts z -> forall i, (i < nx)%nat ->
  z i Ts = rsum nx (fun l => fst (discretization nx nu A B Ts) i l * z l 0) + rsum nu (fun l => snd (discretization nx nu A B Ts) i l * u l).
Proof.
  intros HT S i Hi. rewrite (zoh nx A (fun i => rsum nu (fun l => B i l * u l)) Ts z HT S i Hi). f_equal.
  - apply rsum_ext. intros l Hl. now rewrite disc_A.
  - rewrite (rsum_ext nu _ (fun l => rsum nx (fun h => u l * (B h l * it nx A i h Ts)))) by (intros l Hl; rewrite disc_B by assumption; rewrite Rmult_comm; symmetry; apply rsum_scal).
    rewrite rsum_swap. apply rsum_ext. intros h Hh. rewrite <- rsum_scal. apply rsum_ext. intros; ring.
Qed.
Definition hold (nx nu : nat) (A B : matrix) (x0 u : nat -> R) (i : nat) (t : R) : R :=
  rsum nx (fun l => fst (discretization nx nu A B t) i l * x0 l) + rsum nu (fun l => snd (discretization nx nu A B t) i l * u l).
(** such a solution exists from every initial state, and the helper evaluated at every t gives it *)
Theorem C41_solution_exists nx nu A B x0 u T : solves nx nu A B u T (hold nx nu A B x0 u) /\ (forall i, (i < nx)%nat -> hold nx nu A B x0 u i 0 = x0 i).
Proof.
  assert (E : forall i t, (i < nx)%nat -> hold nx nu A B x0 u i t = rsum nx (fun l => et nx A i l t * x0 l) + rsum nx (fun l => it nx A i l t * rsum nu (fun h => B l h * u h))).
  { intros i t Hi. unfold hold. f_equal.
    - apply rsum_ext. intros l Hl. now rewrite disc_A.
    - rewrite (rsum_ext nu _ (fun l => rsum nx (fun h => u l * (B h l * it nx A i h t)))) by (intros l Hl; rewrite disc_B by assumption; rewrite Rmult_comm; symmetry; apply rsum_scal).
      rewrite rsum_swap. apply rsum_ext. intros h Hh. rewrite <- rsum_scal. apply rsum_ext. intros; ring. }
  assert (D : forall i t, (i < nx)%nat -> is_derive (hold nx nu A B x0 u i) t (rsum nx (fun l => A i l * hold nx nu A B x0 u l t) + rsum nu (fun l => B i l * u l))).
  { intros i t Hi. apply (is_derive_ext (fun t => rsum nx (fun l => et nx A i l t * x0 l) + rsum nx (fun l => it nx A i l t * rsum nu (fun h => B l h * u h)))); [intros; symmetry; now apply E|].
    eapply der_eq.
    - apply (is_derive_plus (V := R_NormedModule) (fun t => rsum nx (fun l => et nx A i l t * x0 l)) (fun t => rsum nx (fun l => it nx A i l t * rsum nu (fun h => B l h * u h)))).
      + apply der_rsum. intros l Hl. apply der_cmul, et_derive_l; assumption.
      + apply der_rsum. intros l Hl. apply der_cmul, it_derive; assumption.
    - unfold plus; cbn.
      rewrite (rsum_ext nx (fun l => A i l * hold nx nu A B x0 u l t) (fun l => rsum nx (fun h => A i l * (et nx A l h t * x0 h)) + rsum nx (fun h => A i l * (it nx A l h t * rsum nu (fun m => B h m * u m))))).
      2:{ intros l Hl. rewrite (E l t Hl), !rsum_scal. ring. }
      rewrite rsum_plus. rewrite (rsum_swap nx nx (fun l h => A i l * (et nx A l h t * x0 h))), (rsum_swap nx nx (fun l h => A i l * (it nx A l h t * rsum nu (fun m => B h m * u m)))).
      rewrite Rplus_assoc. f_equal.
      + apply rsum_ext. intros h Hh. rewrite (Rmult_comm _ (x0 h)), <- rsum_scal. apply rsum_ext. intros; ring.
      + rewrite (rsum_ext nx (fun l => et nx A i l t * rsum nu (fun h => B l h * u h)) (fun l => idm i l * rsum nu (fun h => B l h * u h) + rsum nx (fun h => A i h * (it nx A h l t * rsum nu (fun m => B l m * u m))))).
        2:{ intros l Hl. rewrite (it_et nx A i l t Hi Hl). rewrite (rsum_ext nx (fun h => A i h * (it nx A h l t * rsum nu (fun m => B l m * u m))) (fun h => rsum nu (fun m => B l m * u m) * (A i h * it nx A h l t))) by (intros; ring).
            rewrite rsum_scal. ring. }
        rewrite rsum_plus. rewrite (rsum_single nx i (fun l => idm i l * _)) by (try exact Hi; intros l Hl Ne; rewrite idm_diff by congruence; ring). rewrite idm_same. ring. }
  split.
  - intros i Hi. split; intros t Ht; [now apply D|]. eapply der_cont, D, Hi.
  - intros i Hi. rewrite (E i 0 Hi). rewrite (rsum_single nx i) by (try exact Hi; intros l Hl Ne; rewrite et_0, idm_diff by congruence; ring).
    rewrite et_0, idm_same. rewrite rsum_0 by (intros; rewrite it_0; ring). ring.
Qed.
(** the overload with a disturbance input *)
Theorem C41_zero_order_hold_disturbance nx nu nud A B Be Ts u d z : 0 <= Ts -> solves_dist nx nu nud A B Be u d Ts z -> forall i, (i < nx)%nat ->
  let '(Ad, Bd, Bed) := discretization_dist nx nu nud A B Be Ts in
  z i Ts = rsum nx (fun l => Ad i l * z l 0) + rsum nu (fun l => Bd i l * u l) + rsum nud (fun l => Bed i l * d l).
Proof.
  intros HT S i Hi. destruct (disc_dist nx nu nud A B Be Ts i Hi) as [E1 [E2 E3]].
  destruct (discretization_dist nx nu nud A B Be Ts) as [[Ad Bd] Bed]. cbn [fst snd] in *.
  rewrite (zoh nx A (fun i => rsum nu (fun l => B i l * u l) + rsum nud (fun l => Be i l * d l)) Ts z HT).
  3:exact Hi.
  2:{ intros k Hk. destruct (S k Hk) as [S1 S2]. split; [|exact S2]. intros t Ht. rewrite <- Rplus_assoc. now apply S1. }
  rewrite Rplus_assoc. f_equal; [apply rsum_ext; intros l Hl; now rewrite E1|].
  assert (K : forall m (D : matrix) (v : nat -> R) (Dd : nat -> R), (forall j, (j < m)%nat -> Dd j = rsum nx (fun l => D l j * it nx A i l Ts)) ->
      rsum m (fun l => Dd l * v l) = rsum nx (fun l => it nx A i l Ts * rsum m (fun h => D l h * v h))).
  { intros m D v Dd HD. rewrite (rsum_ext m _ (fun l => rsum nx (fun h => v l * (D h l * it nx A i h Ts)))) by (intros l Hl; rewrite HD by assumption; rewrite Rmult_comm; symmetry; apply rsum_scal).
    rewrite rsum_swap. apply rsum_ext. intros h Hh. rewrite <- rsum_scal. apply rsum_ext. intros; ring. }
  rewrite (K nu B u (Bd i) E2), (K nud Be d (Bed i) E3), <- rsum_plus. apply rsum_ext. intros; ring.
Qed.
(** the disturbance overload agrees with the plain one on Ad and Bd *)
Theorem C41_overloads_agree nx nu nud A B Be Ts i : (i < nx)%nat ->
  (forall j, (j < nx)%nat -> fst (fst (discretization_dist nx nu nud A B Be Ts)) i j = fst (discretization nx nu A B Ts) i j) /\
  (forall j, (j < nu)%nat -> snd (fst (discretization_dist nx nu nud A B Be Ts)) i j = snd (discretization nx nu A B Ts) i j) /\
  (forall j, (j < nud)%nat -> snd (discretization_dist nx nu nud A B Be Ts) i j = snd (discretization nx nud A Be Ts) i j).
Proof.
  intros Hi. destruct (disc_dist nx nu nud A B Be Ts i Hi) as [E1 [E2 E3]]. split; [|split]; intros j Hj.
  - now rewrite E1, disc_A.
  - now rewrite E2, disc_B.
  - now rewrite E3, disc_B.
Qed.
(** two sampling periods in a row are one period of the summed length *)
Theorem C41_semigroup nx nu A B s t i : 0 <= s -> 0 <= t -> (i < nx)%nat ->
  (forall j, (j < nx)%nat -> fst (discretization nx nu A B (s + t)) i j = rsum nx (fun l => fst (discretization nx nu A B s) i l * fst (discretization nx nu A B t) l j)) /\
  (forall j, (j < nu)%nat -> snd (discretization nx nu A B (s + t)) i j
     = rsum nx (fun l => fst (discretization nx nu A B s) i l * snd (discretization nx nu A B t) l j) + snd (discretization nx nu A B s) i j).
Proof.
  intros Hs Ht Hi.
  assert (K : forall x0 u, hold nx nu A B x0 u i (s + t) = rsum nx (fun l => fst (discretization nx nu A B s) i l * hold nx nu A B x0 u l t) + rsum nu (fun l => snd (discretization nx nu A B s) i l * u l)).
  { intros x0 u. pose proof (C41_solution_exists nx nu A B x0 u (s + t)) as [S _].
    pose (z := fun k r => hold nx nu A B x0 u k (r + t)).
    replace (hold nx nu A B x0 u i (s + t)) with (z i s) by reflexivity.
    rewrite (C41_zero_order_hold nx nu A B s u z Hs).
    3:exact Hi.
    2:{ intros k Hk. destruct (C41_solution_exists nx nu A B x0 u (s + t + 1)) as [S' _]. destruct (S' k Hk) as [D C].
        assert (Sh : forall r, is_derive (fun r => r + t) r 1) by (intros r; apply der_shift).
        split; intros r Hr.
        - eapply der_eq; [apply (is_derive_comp (V := R_NormedModule) (hold nx nu A B x0 u k) (fun r => r + t) r (rsum nx (fun l => A k l * hold nx nu A B x0 u l (r + t)) + rsum nu (fun l => B k l * u l)) 1); [apply D; lra|apply Sh]|].
          unfold scal; cbn; unfold mult; cbn. unfold z. ring.
        - apply (continuous_comp (fun r => r + t) (hold nx nu A B x0 u k)); [eapply der_cont, Sh|apply C; lra]. }
    f_equal. apply rsum_ext. intros l Hl. unfold z. now rewrite Rplus_0_l. }
  split; intros j Hj.
  - specialize (K (fun l => idm l j) (fun _ => 0)). unfold hold in K.
    rewrite (rsum_0 nu) in K by (intros; ring). rewrite (rsum_0 nu) in K by (intros; ring).
    rewrite (rsum_single nx j) in K by (try exact Hj; intros l Hl Ne; rewrite idm_diff by congruence; ring). rewrite idm_same in K.
    rewrite Rmult_1_r, !Rplus_0_r in K. rewrite K. apply rsum_ext. intros l Hl. f_equal.
    rewrite (rsum_0 nu) by (intros; ring). rewrite (rsum_single nx j) by (try exact Hj; intros h Hh Ne; rewrite idm_diff by congruence; ring). rewrite idm_same. ring.
  - specialize (K (fun _ => 0) (fun l => idm l j)). unfold hold in K.
    rewrite (rsum_0 nx) in K by (intros; ring).
    assert (Z : forall f : nat -> R, rsum nu (fun l => f l * idm l j) = f j).
    { intros f. rewrite (rsum_single nu j) by (try exact Hj; intros l Hl Ne; rewrite idm_diff by congruence; ring). rewrite idm_same. ring. }
    rewrite !Z, Rplus_0_l in K. rewrite K. f_equal. apply rsum_ext. intros l Hl. f_equal.
    rewrite Z, (rsum_0 nx) by (intros; ring). ring.
Qed.
(** the overload that also takes the output map leaves it unchanged; it exists only for square output maps *)
Theorem C41_output_overload nx nu ny A B C D Ts :
  (ny = nx -> discretization_out nx nu ny A B C D Ts = Some (fst (discretization nx nu A B Ts), snd (discretization nx nu A B Ts), C, D)) /\
  (ny <> nx -> discretization_out nx nu ny A B C D Ts = None).
Proof.
  unfold discretization_out. split; intros H.
  - rewrite (proj2 (Nat.eqb_eq _ _) H). now destruct (discretization nx nu A B Ts).
  - now rewrite (proj2 (Nat.eqb_neq _ _) H).
Qed.
(** instance: the double integrator, where both blocks are polynomials in Ts *)
Definition di_A : matrix := fun i j => if andb (Nat.eqb i 0) (Nat.eqb j 1) then 1 else 0.
Definition di_B : matrix := fun i j => if Nat.eqb i 1 then 1 else 0.
Definition di_z (x0 v0 u : R) (i : nat) (t : R) : R := match i with O => x0 + v0 * t + u * (t * t) / 2 | _ => v0 + u * t end.
Example C41_instance_solution x0 v0 u T : solves 2 1 di_A di_B (fun _ => u) T (di_z x0 v0 u).
Proof.
  assert (D : forall i, (i < 2)%nat -> forall t, is_derive (di_z x0 v0 u i) t (rsum 2 (fun l => di_A i l * di_z x0 v0 u l t) + rsum 1 (fun l => di_B i l * u))).
  { assert (D0 : forall t : R, is_derive (fun t : R => x0 + v0 * t + u * (t * t) / 2) t (v0 + u * t)) by (intros t; auto_derive; [exact I|field]).
    assert (D1 : forall t : R, is_derive (fun t : R => v0 + u * t) t u) by (intros t; auto_derive; [exact I|ring]).
    intros i Hi t. destruct i as [|[|i]]; [| |lia]; cbn [rsum]; unfold di_A, di_B; cbn [Nat.eqb andb di_z].
    - eapply der_eq; [apply D0|]. ring.
    - eapply der_eq; [apply D1|]. ring. }
  intros i Hi. split; intros t Ht; [now apply D|]. eapply der_cont, D, Hi.
Qed.
(** ... hence Ad = [1 Ts; 0 1] and Bd = [Ts^2/2; Ts] *)
Example C41_instance Ts : 0 <= Ts ->
  let (Ad, Bd) := discretization 2 1 di_A di_B Ts in
  Ad 0%nat 0%nat = 1 /\ Ad 0%nat 1%nat = Ts /\ Ad 1%nat 0%nat = 0 /\ Ad 1%nat 1%nat = 1 /\ Bd 0%nat 0%nat = Ts * Ts / 2 /\ Bd 1%nat 0%nat = Ts.
Proof.
  intros HT.
  assert (K : forall x0 v0 u i, (i < 2)%nat -> di_z x0 v0 u i Ts = rsum 2 (fun l => fst (discretization 2 1 di_A di_B Ts) i l * di_z x0 v0 u l 0) + rsum 1 (fun l => snd (discretization 2 1 di_A di_B Ts) i l * u)).
  { intros x0 v0 u i Hi. apply (C41_zero_order_hold 2 1 di_A di_B Ts (fun _ => u) (di_z x0 v0 u) HT (C41_instance_solution x0 v0 u Ts) i Hi). }
  destruct (discretization 2 1 di_A di_B Ts) as [Ad Bd]. cbn [fst snd rsum] in K.
  pose proof (K 1 0 0 0%nat ltac:(lia)) as A1. pose proof (K 0 1 0 0%nat ltac:(lia)) as A2. pose proof (K 1 0 0 1%nat ltac:(lia)) as A3.
  pose proof (K 0 1 0 1%nat ltac:(lia)) as A4. pose proof (K 0 0 1 0%nat ltac:(lia)) as A5. pose proof (K 0 0 1 1%nat ltac:(lia)) as A6.
  unfold di_z in *. repeat split; lra.
Qed.
Print Assumptions C41_zero_order_hold.
