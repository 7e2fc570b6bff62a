(** IEEE 754 binary64 numbers as scalars: the C++ `double` (include/mpc/Types.hpp:41-56, `Eigen::Matrix<double, ..>`) with
    rounding to nearest even, signed zeros, infinities and NaN, through the executable specification of the Coq standard
    library (Coq.Floats.SpecFloat, no axiom).  Simplifications: one NaN (payloads and signs of NaN are not represented); no
    extended precision and no fused multiply-add; a sum of several terms is taken from left to right, whereas Eigen may
    associate it otherwise, so no theorem about doubles depends on the rounding of a sum of two nonzero terms of a dot product. *)
From Coq Require Import Bool Arith ZArith Lia.
From Coq Require Import Floats.SpecFloat.
From Verif Require Import Scalar.

Definition dbl : Type := spec_float.
Definition d_one : dbl := S754_finite false 4503599627370496 (-52).
#[global] Instance dbl_ops : ScalarOps dbl := {
  s0 := S754_zero false; s1 := d_one;
  sadd := SFadd 53 1024; smul := SFmul 53 1024; ssub := SFsub 53 1024; sopp := SFopp; sdiv := SFdiv 53 1024; sinv := SFdiv 53 1024 d_one;
  sleb := SFleb; sltb := SFltb }.
#[global] Instance dbl_mild : ScalarMild dbl.
Proof. split; vm_compute; reflexivity. Qed.

Definition is_nan (x : dbl) : bool := match x with S754_nan => true | _ => false end.
Definition is_inf (x : dbl) : bool := match x with S754_infinity _ => true | _ => false end.
Definition is_zero (x : dbl) : bool := match x with S754_zero _ => true | _ => false end.
Definition is_fin (x : dbl) : bool := negb (is_nan x) && negb (is_inf x).
(** equal as bit patterns, except that +0 and -0 are identified *)
Definition dsame (x y : dbl) : Prop := x = y \/ (is_zero x = true /\ is_zero y = true).

(** NaN is contagious *)
Lemma dmul_nan_r x : smul x S754_nan = S754_nan :> dbl. Proof. now destruct x. Qed.
Lemma dmul_nan_l x : smul S754_nan x = S754_nan :> dbl. Proof. now destruct x. Qed.
Lemma dadd_nan_r x : sadd x S754_nan = S754_nan :> dbl. Proof. now destruct x. Qed.
Lemma dadd_nan_l x : sadd S754_nan x = S754_nan :> dbl. Proof. now destruct x. Qed.
Lemma dsub_nan_l x : ssub S754_nan x = S754_nan :> dbl. Proof. now destruct x. Qed.
Lemma dsub_nan_r x : ssub x S754_nan = S754_nan :> dbl. Proof. now destruct x. Qed.
Lemma ddiv_nan_l x : sdiv S754_nan x = S754_nan :> dbl. Proof. now destruct x. Qed.
Lemma ddiv_nan_r x : sdiv x S754_nan = S754_nan :> dbl. Proof. now destruct x. Qed.
(** 0 * inf *)
Lemma dmul_zero_inf x y : is_zero x = true -> is_inf y = true -> smul x y = S754_nan :> dbl.
Proof. destruct x, y; cbn; congruence. Qed.
(** 0 * finite is a zero *)
Lemma dmul_zero_fin x y : is_zero x = true -> is_fin y = true -> is_zero (smul x y) = true.
Proof. destruct x, y; cbn; congruence. Qed.
Lemma dadd_zero_zero x y : is_zero x = true -> is_zero y = true -> is_zero (sadd x y) = true.
Proof. destruct x as [[]| | |], y as [[]| | |]; cbn; congruence. Qed.
(** adding a zero to anything *)
Lemma dadd_zero_l x y : is_zero x = true -> dsame (sadd x y) y.
Proof. destruct x as [[]| | |], y as [[]|[]| |[]]; cbn; try congruence; intros _; try (left; reflexivity); right; auto. Qed.
Lemma dadd_zero_r x y : is_zero y = true -> dsame (sadd x y) x.
Proof. destruct y as [[]| | |], x as [[]|[]| |[]]; cbn; try congruence; intros _; try (left; reflexivity); right; auto. Qed.
Lemma dsame_refl x : dsame x x. Proof. now left. Qed.
Lemma dsame_sym x y : dsame x y -> dsame y x.
Proof. intros [->|[A B]]; [now left|right; auto]. Qed.
Lemma dsame_trans x y z : dsame x y -> dsame y z -> dsame x z.
Proof. intros [->|[A B]] [->|[A' B']]; [now left|right; auto|right; auto|right; auto]. Qed.
Lemma dsame_nan x : dsame x S754_nan -> x = S754_nan.
Proof. intros [E|[_ B]]; [exact E|discriminate B]. Qed.
Lemma dsame_zero x y : is_zero y = true -> dsame x y -> is_zero x = true.
Proof. intros H [->|[A _]]; assumption. Qed.

From Verif Require Import Sums.
Lemma dsum_nan n (f : nat -> dbl) i : i < n -> f i = S754_nan -> ssum n f = S754_nan.
Proof.
  induction n as [|n IH]; intros Hi E; [lia|]. cbn [ssum]. destruct (Nat.eq_dec i n) as [->|Hn].
  - rewrite E. apply dadd_nan_r.
  - rewrite IH by (assumption || lia). apply dadd_nan_l.
Qed.
Lemma dsum_zero n (f : nat -> dbl) : (forall i, i < n -> is_zero (f i) = true) -> is_zero (ssum n f) = true.
Proof. induction n as [|n IH]; intros H; [reflexivity|]. cbn [ssum]. apply dadd_zero_zero; [apply IH; intros; apply H; lia|apply H; lia]. Qed.
(** a sum with at most one nonzero term is that term *)
Lemma dsum_single n (f : nat -> dbl) i : i < n -> (forall k, k < n -> k <> i -> is_zero (f k) = true) -> dsame (ssum n f) (f i).
Proof.
  induction n as [|n IH]; intros Hi H; [lia|]. cbn [ssum]. destruct (Nat.eq_dec i n) as [->|Hn].
  - apply dadd_zero_l, dsum_zero. intros k Hk. apply H; lia.
  - eapply dsame_trans; [apply dadd_zero_r, H; lia|]. apply IH; [lia|]. intros k Hk Hne. apply H; lia.
Qed.
(** [ssum] in any association gives the same for these sums; the order of the terms is immaterial *)
(** comparisons with NaN are false *)
Lemma dlt_nan_r x : sltb x S754_nan = false :> bool. Proof. now destruct x as [[]|[]| |[]]. Qed.
Lemma dlt_nan_l x : sltb S754_nan x = false :> bool. Proof. now destruct x as [[]|[]| |[]]. Qed.

(** ** Multiplying and dividing by 1 is exact *)
(** a genuine double: the significand is normalised, or the number is subnormal *)
Definition is_double (x : dbl) : bool := valid_binary 53 1024 x.

Lemma round_shift1 s m e : bounded 53 1024 m e = true -> binary_round_aux 53 1024 s (Zpos m) e loc_Exact = S754_finite s m e.
Proof.
  unfold bounded, canonical_mantissa. rewrite andb_true_iff. intros [A B]. apply Zeq_bool_eq in A.
  unfold binary_round_aux, shr_fexp. cbn [Zdigits2]. rewrite A, Z.sub_diag. cbn [shr shr_record_of_loc shr_m loc_of_shr_record round_nearest_even Zdigits2].
  rewrite A, Z.sub_diag. cbn [shr shr_record_of_loc shr_m]. now rewrite B.
Qed.
Lemma round_shift s m e k : bounded 53 1024 m e = true ->
  binary_round_aux 53 1024 s (Zpos (Pos.iter xO m k)) (e - Zpos k) loc_Exact = S754_finite s m e.
Proof.
  intros HB. pose proof HB as HB'. unfold bounded, canonical_mantissa in HB'. rewrite andb_true_iff in HB'. destruct HB' as [A B]. apply Zeq_bool_eq in A.
  unfold binary_round_aux at 1. unfold shr_fexp at 1.
  assert (D : forall p, Zdigits2 (Zpos (Pos.iter xO m p)) = (Zdigits2 (Zpos m) + Zpos p)%Z).
  { intros p. induction p as [|p IH] using Pos.peano_ind; [cbn; lia|]. rewrite Pos.iter_succ. cbn [Zdigits2 digits2_pos] in *. lia. }
  rewrite D. replace (Zdigits2 (Zpos m) + Zpos k + (e - Zpos k))%Z with (Zpos (digits2_pos m) + e)%Z by (cbn [Zdigits2]; lia).
  rewrite A. replace (e - (e - Zpos k))%Z with (Zpos k) by lia. cbn [shr shr_record_of_loc].
  assert (I : forall A (f : A -> A) p x, iter_pos f p x = Pos.iter f x p).
  { intros A' f. induction p as [p IH|p IH|]; intros x; cbn [iter_pos Pos.iter]; [|now rewrite !IH|reflexivity].
    rewrite !IH. now rewrite <- !Pos.iter_swap. }
  rewrite I.
  assert (R : Pos.iter shr_1 {| shr_m := Zpos (Pos.iter xO m k); shr_r := false; shr_s := false |} k = {| shr_m := Zpos m; shr_r := false; shr_s := false |}).
  { clear. revert m. induction k as [|k IH] using Pos.peano_ind; intros m; [reflexivity|].
    rewrite Pos.iter_succ_r. rewrite Pos.iter_succ. cbn [shr_1 orb]. apply IH. }
  rewrite R. cbn [shr_m loc_of_shr_record round_nearest_even]. replace (e - Zpos k + Zpos k)%Z with e by lia.
  unfold shr_fexp. cbn [Zdigits2]. rewrite A, Z.sub_diag. cbn [shr shr_record_of_loc shr_m]. now rewrite B.
Qed.

Lemma dmul_one x : is_double x = true -> smul s1 x = x :> dbl.
Proof.
  destruct x as [s|s| |s m e]; cbn [is_double valid_binary]; intros H; [now destruct s|now destruct s|reflexivity|].
  change (smul s1 (S754_finite s m e)) with (binary_round_aux 53 1024 (xorb false s) (Zpos (4503599627370496 * m)) (-52 + e) loc_Exact).
  replace (xorb false s) with s by now destruct s.
  change (4503599627370496 * m)%positive with (Pos.iter xO m 52). replace (-52 + e)%Z with (e - Zpos 52)%Z by lia. now apply round_shift.
Qed.
Lemma dmul_one_r x : is_double x = true -> smul x s1 = x :> dbl.
Proof.
  intros H. rewrite <- (dmul_one x H) at 2. destruct x as [s|s| |s m e]; try (destruct s; reflexivity); try reflexivity.
  change (smul (S754_finite s m e) s1) with (binary_round_aux 53 1024 (xorb s false) (Zpos (m * 4503599627370496)) (e + -52) loc_Exact).
  change (smul s1 (S754_finite s m e)) with (binary_round_aux 53 1024 (xorb false s) (Zpos (4503599627370496 * m)) (-52 + e) loc_Exact).
  now rewrite Pos.mul_comm, Z.add_comm, xorb_comm.
Qed.
Lemma ddiv_one x : is_double x = true -> sdiv x s1 = x :> dbl.
Proof.
  destruct x as [s|s| |s m e]; cbn [is_double valid_binary]; intros H; [now destruct s|now destruct s|reflexivity|].
  change (sdiv (S754_finite s m e) s1) with (let '(mz, ez, lz) := SFdiv_core_binary 53 1024 (Zpos m) e 4503599627370496 (-52) in
     binary_round_aux 53 1024 (xorb s false) mz ez lz).
  replace (xorb s false) with s by now destruct s.
  pose proof H as HB'. unfold bounded, canonical_mantissa in HB'. rewrite andb_true_iff in HB'. destruct HB' as [A B]. apply Zeq_bool_eq in A.
  unfold SFdiv_core_binary. cbn [Zdigits2].
  change (Zpos (digits2_pos 4503599627370496)) with 53%Z. replace (Zpos (digits2_pos m) + e - (53 + -52))%Z with (Zpos (digits2_pos m) + e - 1)%Z by lia.
  assert (E : fexp 53 1024 (Zpos (digits2_pos m) + e - 1) = e \/ fexp 53 1024 (Zpos (digits2_pos m) + e - 1) = (e - 1)%Z).
  { unfold fexp, SpecFloat.emin in *. lia. }
  assert (Q : forall k, Z.div_eucl (Zpos m * 2 ^ Z.of_nat k * 4503599627370496) 4503599627370496 = (Zpos m * 2 ^ Z.of_nat k, 0)%Z).
  { intros k. pose proof (Z_div_mult_full (Zpos m * 2 ^ Z.of_nat k) 4503599627370496 ltac:(lia)) as D1.
    pose proof (Z_mod_mult (Zpos m * 2 ^ Z.of_nat k) 4503599627370496) as D2. unfold Z.div in D1. unfold Z.modulo in D2.
    destruct (Z.div_eucl _ _) as [a b]. now subst. }
  destruct E as [E|E]; rewrite E.
  - replace (Z.min e (e - -52)) with e by lia. replace (e - -52 - e)%Z with 52%Z by lia.
    rewrite Z.shiftl_mul_pow2 by lia. specialize (Q 0). cbn [Z.of_nat] in Q. rewrite Z.pow_0_r, Z.mul_1_r in Q.
    change (2 ^ 52)%Z with 4503599627370496%Z. rewrite Q. cbn [new_location Z.even new_location_even Zeq_bool Z.compare]. now apply round_shift1.
  - replace (Z.min (e - 1) (e - -52)) with (e - 1)%Z by lia. replace (e - -52 - (e - 1))%Z with 53%Z by lia.
    rewrite Z.shiftl_mul_pow2 by lia. specialize (Q 1). change (2 ^ Z.of_nat 1)%Z with 2%Z in Q.
    replace (Zpos m * 2 ^ 53)%Z with (Zpos m * 2 * 4503599627370496)%Z by lia. rewrite Q.
    cbn [new_location Z.even new_location_even Zeq_bool Z.compare].
    replace (Zpos m * 2)%Z with (Zpos (Pos.iter xO m 1)) by (cbn; lia). now apply (round_shift s m e 1).
Qed.
