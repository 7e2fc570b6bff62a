(** Finite differences in IEEE doubles: how far `x + dx`, `(x + dx) - dx`, ... end up from x. *)
From Coq Require Import Bool Arith ZArith Lia Reals Lra.
From Coq Require Import Floats.SpecFloat.
From Flocq Require Import Core BinarySingleNaN.
From Verif Require Import Scalar Double DoubleR NLFun SpecTrace.
Local Open Scope R_scope.

Ltac uros := pose proof uro_small; pose proof uro_pos; pose proof eta_uro; pose proof eta_pos.

Lemma okd_mono B C x : B <= C -> okd B x -> okd C x.
Proof. intros H (a & b & c). refine (conj a (conj b _)). lra. Qed.
Lemma okd_abs B x : okd B x -> - B <= rval x <= B.
Proof. intros (_ & _ & c). now apply Rabs_le_inv. Qed.
Lemma okd_of B x : is_double x = true -> is_fin x = true -> - B <= rval x <= B -> okd B x.
Proof. intros a b c. refine (conj a (conj b _)). now apply Rabs_le. Qed.
Lemma eta_le A : 1 <= A -> eta0 <= /1000 * (uro * A).
Proof. intros H. uros. assert (uro * uro <= uro * (/1000 * A)) by (apply Rmult_le_compat_l; lra). lra. Qed.
(** an accuracy bound in the form used below *)
Lemma err_bound A v w : 1 <= A -> Rabs v <= A -> Rabs (w - v) <= uro * Rabs v + eta0 -> - (101/100 * (uro * A)) <= w - v <= 101/100 * (uro * A).
Proof.
  intros H1 Hv Hw. apply Rabs_le_inv. pose proof (eta_le A H1). uros. assert (uro * Rabs v <= uro * A) by (apply Rmult_le_compat_l; lra).
  assert (0 < uro * A) by (apply Rmult_lt_0_compat; lra). lra.
Qed.
Lemma uroB B : 1 <= B -> 0 < uro * B /\ uro * B <= / 9000000000000000 * B.
Proof. intros H. uros. split; [apply Rmult_lt_0_compat; lra|apply Rmult_le_compat_r; lra]. Qed.

Lemma add_ok A B x y : 1 <= A <= 4 * big0 -> okd B x -> okd B y -> - A <= rval x + rval y <= A ->
  is_double (sadd x y) = true /\ is_fin (sadd x y) = true /\ - (101/100 * (uro * A)) <= rval (sadd x y) - (rval x + rval y) <= 101/100 * (uro * A).
Proof.
  intros [H1 H2] Hx Hy H. apply Rabs_le in H. destruct (dadd_acc x y B Hx Hy) as (a & b & c); [lra|]. refine (conj a (conj b _)). now apply err_bound.
Qed.
Lemma sub_ok A B x y : 1 <= A <= 4 * big0 -> okd B x -> okd B y -> - A <= rval x - rval y <= A ->
  is_double (ssub x y) = true /\ is_fin (ssub x y) = true /\ - (101/100 * (uro * A)) <= rval (ssub x y) - (rval x - rval y) <= 101/100 * (uro * A).
Proof.
  intros [H1 H2] Hx Hy H. apply Rabs_le in H. destruct (dsub_acc x y B Hx Hy) as (a & b & c); [lra|]. refine (conj a (conj b _)). now apply err_bound.
Qed.
Lemma mul_ok A B x y : 1 <= A <= 4 * big0 -> okd B x -> okd B y -> - A <= rval x * rval y <= A ->
  is_double (smul x y) = true /\ is_fin (smul x y) = true /\ - (101/100 * (uro * A)) <= rval (smul x y) - (rval x * rval y) <= 101/100 * (uro * A).
Proof.
  intros [H1 H2] Hx Hy H. apply Rabs_le in H. destruct (dmul_acc x y B Hx Hy) as (a & b & c); [lra|]. refine (conj a (conj b _)). now apply err_bound.
Qed.

Lemma zero_d : is_double (s0 : dbl) = true /\ is_fin (s0 : dbl) = true. Proof. now split. Qed.
Lemma one_d : is_double (s1 : dbl) = true /\ is_fin (s1 : dbl) = true. Proof. split; vm_compute; reflexivity. Qed.
Lemma one_ok B : 1 <= B -> okd B s1.
Proof. intros H. apply okd_of; [apply one_d|apply one_d|]. rewrite rval_1. lra. Qed.
Lemma abs_ok B x : okd B x -> okd B (sabs x) /\ rval (sabs x) = Rabs (rval x).
Proof.
  intros H. destruct H as (a & b & c). unfold sabs. rewrite (dleb_R s0 x (proj1 zero_d) a (proj2 zero_d) b), rval_0.
  destruct (Rle_bool_spec 0 (rval x)) as [L|L].
  - split; [exact (conj a (conj b c))|]. now rewrite Rabs_pos_eq.
  - destruct (dopp_R x a) as (a' & b' & c'). rewrite c'. split; [refine (conj a' (conj _ _)); [congruence|rewrite c', Rabs_Ropp; exact c]|]. rewrite Rabs_left; [reflexivity|exact L].
Qed.
Lemma max_ok B x y : okd B x -> okd B y -> okd B (smax x y) /\ rval (smax x y) = Rmax (rval x) (rval y).
Proof.
  intros (a & b & c) (a' & b' & c'). unfold smax. rewrite (dltb_R x y a a' b b'). destruct (Rlt_bool_spec (rval x) (rval y)).
  - split; [exact (conj a' (conj b' c'))|]. rewrite Rmax_right; lra.
  - split; [exact (conj a (conj b c))|]. rewrite Rmax_left; lra.
Qed.
Lemma mag_ok B v : 1 <= B -> okd B v -> okd B (mag v) /\ rval (mag v) = Rmax (Rabs (rval v)) 1.
Proof.
  intros HB H. unfold mag. destruct (abs_ok B v H) as [H1 E1]. destruct (max_ok B _ _ H1 (one_ok B HB)) as [H2 E2]. now rewrite E1, rval_1 in E2.
Qed.

(** the increments *)
Lemma dv_obj_val : okd 1 (dv_obj : dbl) /\ rval (dv_obj : dbl) = 4722366482869645 / 4722366482869645213696.
Proof.
  assert (E : (dv_obj : dbl) = S754_finite false 4722366482869645 (-72)) by (vm_compute; reflexivity).
  assert (V : rval (dv_obj : dbl) = 4722366482869645 / 4722366482869645213696).
  { rewrite E. unfold rval. cbn [SF2R cond_Zopp]. unfold F2R. simpl. reflexivity. }
  split; [apply okd_of; [rewrite E; vm_compute; reflexivity|rewrite E; reflexivity|rewrite V; lra]|exact V].
Qed.
Lemma dv_con_val : okd 1 (dv_con : dbl) /\ rval (dv_con : dbl) = / 67108864.
Proof.
  assert (E : (dv_con : dbl) = S754_finite false 4503599627370496 (-78)) by (vm_compute; reflexivity).
  assert (V : rval (dv_con : dbl) = / 67108864).
  { rewrite E. unfold rval. cbn [SF2R cond_Zopp]. unfold F2R. simpl. lra. }
  split; [apply okd_of; [rewrite E; vm_compute; reflexivity|rewrite E; reflexivity|rewrite V; lra]|exact V].
Qed.
Lemma two_ok B : 2 <= B -> okd B (s2 : dbl) /\ rval (s2 : dbl) = 2.
Proof.
  intros H. assert (E : (s2 : dbl) = S754_finite false 4503599627370496 (-51)) by (vm_compute; reflexivity).
  assert (V : rval (s2 : dbl) = 2). { rewrite E. unfold rval. cbn [SF2R cond_Zopp]. unfold F2R. simpl. lra. }
  split; [apply okd_of; [rewrite E; vm_compute; reflexivity|rewrite E; reflexivity|rewrite V; lra]|exact V].
Qed.

Lemma uro_val : uro = / 9007199254740992.
Proof. unfold uro. simpl. reflexivity. Qed.

Section Steps.
  Variable B : R.
  Hypothesis HB : 1 <= B <= big0.
  (** a finite double within D of a real number *)
  Definition nearr (D : R) (x : dbl) (y : R) : Prop := is_double x = true /\ is_fin x = true /\ - D <= rval x - y <= D.

  (** the product of a small factor and a magnitude *)
  Lemma incr c cR m : okd 1 c -> okd B m -> Rabs (rval c) <= / 1000 -> Rabs (rval c - cR) <= uro / 1000 ->
    okd (B / 100) (smul c m) /\ - (/200 * (uro * B)) <= rval (smul c m) - cR * rval m <= /200 * (uro * B).
  Proof.
    intros Hc Hm Lc Ec. pose proof (uroB B (proj1 HB)) as [U1 U2]. pose proof (eta_le B (proj1 HB)). pose proof big0_ge1. uros.
    pose proof Hm as (_ & _ & Lm). pose proof (Rabs_pos (rval c)). pose proof (Rabs_pos (rval m)).
    assert (P : Rabs (rval c * rval m) <= / 1000 * B) by (rewrite Rabs_mult; apply Rmult_le_compat; lra).
    destruct (dmul_acc c m B (okd_mono 1 B c (proj1 HB) Hc) Hm ltac:(lra)) as (a & b & e).
    assert (uro * Rabs (rval c * rval m) <= uro * (/1000 * B)) by (apply Rmult_le_compat_l; lra).
    assert (Q : Rabs ((rval c - cR) * rval m) <= uro / 1000 * B) by (rewrite Rabs_mult; apply Rmult_le_compat; [apply Rabs_pos|lra|lra|lra]).
    assert (E : Rabs (rval (smul c m) - rval c * rval m) <= 2 * (uro * B) / 1000) by lra.
    apply Rabs_le_inv in E, Q, P. split; [apply okd_of; [exact a|exact b|lra]|]. lra.
  Qed.
  Lemma mul_sym x y : smul x y = smul y x :> dbl.
  Proof.
    destruct x as [s|s| |s m e], y as [s'|s'| |s' m' e']; try (destruct s, s'; reflexivity); try reflexivity.
    change (smul (S754_finite s m e) (S754_finite s' m' e')) with (SpecFloat.binary_round_aux 53 1024 (xorb s s') (Zpos (m * m')) (e + e') loc_Exact).
    change (smul (S754_finite s' m' e') (S754_finite s m e)) with (SpecFloat.binary_round_aux 53 1024 (xorb s' s) (Zpos (m' * m)) (e' + e) loc_Exact).
    now rewrite Pos.mul_comm, Z.add_comm, xorb_comm.
  Qed.

  Variables (x t : dbl) (tau : R).
  Hypothesis Hx : okd B x.
  Hypothesis Ht : okd (B / 100) t.
  Hypothesis Et : - (/100 * (uro * B)) <= rval t - tau <= /100 * (uro * B).
  Lemma fwd_num : nearr (4 * (uro * B)) (sadd x t) (rval x + tau) /\ nearr (4 * (uro * B)) (ssub (sadd x t) t) (rval x).
  Proof.
    pose proof (uroB B (proj1 HB)) as [U1 U2]. pose proof (okd_abs _ _ Hx). pose proof (okd_abs _ _ Ht).
    destruct (add_ok (101/100 * B) (2 * B) x t) as (a & b & e); [pose proof big0_ge1; lra|eapply okd_mono; [|exact Hx]; lra|eapply okd_mono; [|exact Ht]; lra|lra|].
    assert (O1 : okd (2 * B) (sadd x t)) by (apply okd_of; [exact a|exact b|lra]).
    destruct (sub_ok (102/100 * B) (2 * B) (sadd x t) t) as (a' & b' & e'); [pose proof big0_ge1; lra|exact O1|eapply okd_mono; [|exact Ht]; lra|lra|].
    split; (split; [assumption|split; [assumption|lra]]).
  Qed.
  Lemma cen_num : let x1 := sadd x t in let x2 := ssub x1 (smul s2 t) in
    nearr (4 * (uro * B)) x1 (rval x + tau) /\ nearr (4 * (uro * B)) x2 (rval x - tau) /\ nearr (4 * (uro * B)) (sadd x2 t) (rval x).
  Proof.
    intros x1 x2. pose proof (uroB B (proj1 HB)) as [U1 U2]. pose proof (okd_abs _ _ Hx). pose proof (okd_abs _ _ Ht).
    destruct (add_ok (101/100 * B) (2 * B) x t) as (a & b & e); [pose proof big0_ge1; lra|eapply okd_mono; [|exact Hx]; lra|eapply okd_mono; [|exact Ht]; lra|lra|].
    fold x1 in a, b, e. assert (O1 : okd (2 * B) x1) by (apply okd_of; [exact a|exact b|lra]).
    destruct (two_ok (2 * B) ltac:(lra)) as [O2 V2].
    assert (E2 : okd (B / 10) (smul s2 t) /\ - (4/100 * (uro * B)) <= rval (smul s2 t) - 2 * rval t <= 4/100 * (uro * B)).
    { destruct (dmul_acc s2 t (2 * B) O2 (okd_mono (B / 100) (2 * B) t ltac:(lra) Ht)) as (p & q & r).
      { rewrite V2. apply Rabs_le. pose proof big0_ge1. lra. }
      rewrite V2 in r. pose proof (eta_le B (proj1 HB)). assert (Rabs (2 * rval t) <= 2/100 * B) by (apply Rabs_le; lra).
      uros. assert (uro * Rabs (2 * rval t) <= uro * (2/100 * B)) by (apply Rmult_le_compat_l; lra).
      assert (R : Rabs (rval (smul s2 t) - 2 * rval t) <= 4/100 * (uro * B)) by lra. apply Rabs_le_inv in R. split; [apply okd_of; [exact p|exact q|lra]|exact R]. }
    destruct E2 as [O3 E2]. pose proof (okd_abs _ _ O3).
    destruct (sub_ok (102/100 * B) (2 * B) x1 (smul s2 t)) as (a' & b' & e'); [pose proof big0_ge1; lra|exact O1|eapply okd_mono; [|exact O3]; lra|lra|].
    fold x2 in e', a', b'. assert (O4 : okd (2 * B) x2) by (apply okd_of; [exact a'|exact b'|lra]).
    destruct (add_ok (102/100 * B) (2 * B) x2 t) as (a'' & b'' & e''); [pose proof big0_ge1; lra|exact O4|eapply okd_mono; [|exact Ht]; lra|lra|].
    split; [split; [assumption|split; [assumption|lra]]|]. split; (split; [assumption|split; [assumption|lra]]).
  Qed.
  Lemma sub_num : nearr (4 * (uro * B)) (ssub x t) (rval x - tau).
  Proof.
    pose proof (uroB B (proj1 HB)) as [U1 U2]. pose proof (okd_abs _ _ Hx). pose proof (okd_abs _ _ Ht).
    destruct (sub_ok (101/100 * B) (2 * B) x t) as (a & b & e); [pose proof big0_ge1; lra|eapply okd_mono; [|exact Hx]; lra|eapply okd_mono; [|exact Ht]; lra|lra|].
    split; [assumption|split; [assumption|lra]].
  Qed.
End Steps.
