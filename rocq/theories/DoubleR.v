(** IEEE doubles as approximations of real numbers: the operations of [Double.v] are the exact ones followed by rounding to nearest even (Flocq's
    BinarySingleNaN), hence accurate to half a unit in the last place as long as nothing overflows. *)
From Coq Require Import Bool Arith ZArith Lia Reals Lra.
From Coq Require Import Floats.SpecFloat.
From Flocq Require Import Core Relative BinarySingleNaN.
From Verif Require Import Scalar Double.

Local Open Scope R_scope.
(** the real number denoted by a double (0 for infinities and NaN) *)
Definition rval (x : dbl) : R := SF2R radix2 x.
(** a finite double of magnitude at most B *)
Definition okd (B : R) (x : dbl) : Prop := is_double x = true /\ Double.is_fin x = true /\ Rabs (rval x) <= B.

Local Instance Hprec : FLX.Prec_gt_0 53 := eq_refl _.
Local Instance Hmax : Prec_lt_emax 53 1024 := eq_refl _.
Notation bin := (binary_float 53 1024).

Lemma round_ne_eq s m l : round_nearest_even m l = choice_mode mode_NE s m l.
Proof. case l; [reflexivity|intro c]. case c; [|reflexivity..]. now simpl; unfold Round.cond_incr; case Z.even. Qed.
Lemma round_aux_eq sx mx ex lx : SpecFloat.binary_round_aux 53 1024 sx mx ex lx = BinarySingleNaN.binary_round_aux 53 1024 mode_NE sx mx ex lx.
Proof.
  unfold SpecFloat.binary_round_aux, binary_round_aux. set (mrse' := shr_fexp _ _ _). case mrse'; intros mrs' e'; simpl.
  now rewrite (round_ne_eq sx).
Qed.
Lemma round_eq s m e : SpecFloat.binary_round 53 1024 s m e = BinarySingleNaN.binary_round 53 1024 mode_NE s m e.
Proof. unfold SpecFloat.binary_round, binary_round, shl_align_fexp. set (mez := shl_align _ _ _); case mez as [mz ez]. apply round_aux_eq. Qed.
Lemma normalize_eq m e z : SpecFloat.binary_normalize 53 1024 m e z = B2SF (BinarySingleNaN.binary_normalize 53 1024 Hprec Hmax mode_NE m e z).
Proof. case m as [|p|p]; [now simpl| |]; simpl; rewrite B2SF_SF2B; apply round_eq. Qed.
Lemma add_eq (x y : bin) : SFadd 53 1024 (B2SF x) (B2SF y) = B2SF (Bplus mode_NE x y).
Proof.
  case x as [sx|sx| |sx mx ex Bx]; case y as [sy|sy| |sy my ey By]; [now (trivial || simpl; case Bool.eqb)..|]. apply normalize_eq.
Qed.
Lemma sub_eq (x y : bin) : SFsub 53 1024 (B2SF x) (B2SF y) = B2SF (Bminus mode_NE x y).
Proof.
  case x as [sx|sx| |sx mx ex Bx]; case y as [sy|sy| |sy my ey By]; [now (trivial || simpl; case Bool.eqb)..|].
  simpl. unfold Zminus. rewrite <- cond_Zopp_negb. apply normalize_eq.
Qed.
Lemma mul_eq (x y : bin) : SFmul 53 1024 (B2SF x) (B2SF y) = B2SF (Bmult mode_NE x y).
Proof.
  case x as [sx|sx| |sx mx ex Bx]; case y as [sy|sy| |sy my ey By]; [now trivial..|]. simpl. rewrite B2SF_SF2B. apply round_aux_eq.
Qed.

Lemma as_bin x : is_double x = true -> exists b : bin, x = B2SF b.
Proof. intros H. exists (SF2B x H). now rewrite B2SF_SF2B. Qed.
Lemma bin_double (b : bin) : is_double (B2SF b) = true.
Proof. apply valid_binary_B2SF. Qed.
Lemma bin_fin (b : bin) : is_fin (B2SF b) = is_finite b.
Proof. now destruct b. Qed.
Lemma bin_val (b : bin) : rval (B2SF b) = B2R b.
Proof. apply SF2R_B2SF. Qed.

(** unit roundoff and half the smallest subnormal *)
Definition uro : R := bpow radix2 (-53).
Definition eta0 : R := bpow radix2 (-1075).
Lemma uro_pos : 0 < uro. Proof. apply bpow_gt_0. Qed.
Lemma eta_pos : 0 < eta0. Proof. apply bpow_gt_0. Qed.
Lemma eta_uro : eta0 <= uro * uro. Proof. unfold eta0, uro. rewrite <- bpow_plus. apply bpow_le. lia. Qed.
Lemma uro_small : uro <= / 9000000000000000.
Proof. unfold uro. simpl. apply Rinv_le; [lra|]. apply IZR_le. vm_compute. discriminate. Qed.
Lemma rnd_err v : Rabs (round radix2 (SpecFloat.fexp 53 1024) (round_mode mode_NE) v - v) <= uro * Rabs v + eta0.
Proof.
  destruct (error_N_FLT radix2 (-1074) 53 eq_refl (fun x => negb (Z.even x)) v) as (eps & eta & He & Ht & _ & E).
  change (round radix2 (SpecFloat.fexp 53 1024) (round_mode mode_NE) v) with (round radix2 (FLT_exp (-1074) 53) (Znearest (fun x => negb (Z.even x))) v).
  rewrite E. replace (v * (1 + eps) + eta - v) with (eps * v + eta) by ring.
  assert (E1 : / 2 * bpow radix2 (-53 + 1) = uro). { unfold uro. replace (/ 2) with (bpow radix2 (-1)) by (simpl; lra). rewrite <- bpow_plus. f_equal. }
  assert (E2 : / 2 * bpow radix2 (-1074) = eta0). { unfold eta0. replace (/ 2) with (bpow radix2 (-1)) by (simpl; lra). rewrite <- bpow_plus. f_equal. }
  assert (He' : Rabs eps <= uro) by (rewrite <- E1; exact He). assert (Ht' : Rabs eta <= eta0) by (rewrite <- E2; exact Ht). clear He Ht. eapply Rle_trans; [apply Rabs_triang|]. apply Rplus_le_compat; [|exact Ht']. rewrite Rabs_mult. apply Rmult_le_compat_r; [apply Rabs_pos|exact He'].
Qed.
Definition big0 : R := bpow radix2 1000.
Lemma big0_ge1 : 1 <= big0. Proof. unfold big0. change 1 with (bpow radix2 0). apply bpow_le. lia. Qed.
Lemma rnd_noflow v : Rabs v <= 4 * big0 -> Rlt_bool (Rabs (round radix2 (SpecFloat.fexp 53 1024) (round_mode mode_NE) v)) (bpow radix2 1024) = true.
Proof.
  intros H. apply Rlt_bool_true. pose proof (rnd_err v) as E. pose proof (Rabs_triang_inv (round radix2 (SpecFloat.fexp 53 1024) (round_mode mode_NE) v) v).
  assert (16 * big0 < bpow radix2 1024). { unfold big0. change 16 with (bpow radix2 4). rewrite <- bpow_plus. apply bpow_lt. lia. }
  pose proof big0_ge1. pose proof uro_small. pose proof uro_pos. pose proof eta_uro. pose proof (Rabs_pos v).
  assert (uro * Rabs v <= 1 * (4 * big0)) by (apply Rmult_le_compat; lra). assert (uro * uro <= 1 * 1) by (apply Rmult_le_compat; lra). lra.
Qed.

Lemma dadd_acc x y B : okd B x -> okd B y -> Rabs (rval x + rval y) <= 4 * big0 ->
  is_double (sadd x y) = true /\ is_fin (sadd x y) = true /\ Rabs (rval (sadd x y) - (rval x + rval y)) <= uro * Rabs (rval x + rval y) + eta0.
Proof.
  intros (Dx & Fx & _) (Dy & Fy & _) H. destruct (as_bin x Dx) as [a ->]. destruct (as_bin y Dy) as [b ->]. rewrite bin_fin in Fx, Fy. rewrite !bin_val in *.
  change (sadd (B2SF a) (B2SF b)) with (SFadd 53 1024 (B2SF a) (B2SF b)). rewrite add_eq, bin_double, bin_fin, bin_val.
  pose proof (Bplus_correct 53 1024 _ _ mode_NE a b Fx Fy) as C. rewrite (rnd_noflow _ H) in C. destruct C as (-> & -> & _). split; [reflexivity|split; [reflexivity|apply rnd_err]].
Qed.
Lemma dsub_acc x y B : okd B x -> okd B y -> Rabs (rval x - rval y) <= 4 * big0 ->
  is_double (ssub x y) = true /\ is_fin (ssub x y) = true /\ Rabs (rval (ssub x y) - (rval x - rval y)) <= uro * Rabs (rval x - rval y) + eta0.
Proof.
  intros (Dx & Fx & _) (Dy & Fy & _) H. destruct (as_bin x Dx) as [a ->]. destruct (as_bin y Dy) as [b ->]. rewrite bin_fin in Fx, Fy. rewrite !bin_val in *.
  change (ssub (B2SF a) (B2SF b)) with (SFsub 53 1024 (B2SF a) (B2SF b)). rewrite sub_eq, bin_double, bin_fin, bin_val.
  pose proof (Bminus_correct 53 1024 _ _ mode_NE a b Fx Fy) as C. rewrite (rnd_noflow _ H) in C. destruct C as (-> & -> & _). split; [reflexivity|split; [reflexivity|apply rnd_err]].
Qed.
Lemma dmul_acc x y B : okd B x -> okd B y -> Rabs (rval x * rval y) <= 4 * big0 ->
  is_double (smul x y) = true /\ is_fin (smul x y) = true /\ Rabs (rval (smul x y) - (rval x * rval y)) <= uro * Rabs (rval x * rval y) + eta0.
Proof.
  intros (Dx & Fx & _) (Dy & Fy & _) H. destruct (as_bin x Dx) as [a ->]. destruct (as_bin y Dy) as [b ->]. rewrite bin_fin in Fx, Fy. rewrite !bin_val in *.
  change (smul (B2SF a) (B2SF b)) with (SFmul 53 1024 (B2SF a) (B2SF b)). rewrite mul_eq, bin_double, bin_fin, bin_val.
  pose proof (Bmult_correct 53 1024 _ _ mode_NE a b) as C. rewrite (rnd_noflow _ H) in C. destruct C as (-> & -> & _). rewrite Fx, Fy. split; [reflexivity|split; [reflexivity|apply rnd_err]].
Qed.
Lemma dleb_R x y : is_double x = true -> is_double y = true -> is_fin x = true -> is_fin y = true -> sleb x y = Rle_bool (rval x) (rval y).
Proof.
  intros Dx Dy Fx Fy. destruct (as_bin x Dx) as [a ->]. destruct (as_bin y Dy) as [b ->]. rewrite bin_fin in Fx, Fy. rewrite !bin_val.
  exact (Bleb_correct 53 1024 a b Fx Fy).
Qed.
Lemma dltb_R x y : is_double x = true -> is_double y = true -> is_fin x = true -> is_fin y = true -> sltb x y = Rlt_bool (rval x) (rval y).
Proof.
  intros Dx Dy Fx Fy. destruct (as_bin x Dx) as [a ->]. destruct (as_bin y Dy) as [b ->]. rewrite bin_fin in Fx, Fy. rewrite !bin_val.
  exact (Bltb_correct 53 1024 a b Fx Fy).
Qed.
Lemma dopp_R x : is_double x = true -> is_double (sopp x) = true /\ is_fin (sopp x) = is_fin x /\ rval (sopp x) = - rval x.
Proof.
  intros Dx. destruct (as_bin x Dx) as [a ->]. change (sopp (B2SF a)) with (SFopp (B2SF a)). replace (SFopp (B2SF a)) with (B2SF (Bopp a)) by now destruct a.
  rewrite bin_double, !bin_fin, !bin_val, is_finite_Bopp, B2R_Bopp. auto.
Qed.
Lemma rval_0 : rval s0 = 0. Proof. reflexivity. Qed.
Lemma rval_1 : rval s1 = 1.
Proof. unfold rval. cbn [s1 dbl_ops d_one SF2R cond_Zopp]. unfold F2R. simpl. lra. Qed.
