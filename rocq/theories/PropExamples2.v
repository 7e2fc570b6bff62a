(** Property C89, distances: the positions of the vehicle of ugv_ex.cpp, over the reals. *)
From Coq Require Import Bool Arith ZArith List Lia Reals Lra Psatz.
From Verif Require Import Scalar ScalarR Sums Mat Slice Builder LMPC SpecLMPC NLMap NLFun SpecNL NLMPC SpecNLC SpecNLP SpecNLO SpecNLoop PropNLoop Examples SpecExamples PropExamples.
Import ListNotations.
Local Open Scope nat_scope.

Lemma dist_step (a b c e f : R) : (0 <= c)%R -> (Rabs e <= c)%R -> (Rabs f <= c)%R -> (sqrt (a * a + b * b) <= sqrt ((a + e) * (a + e) + (b + f) * (b + f)) + 2 * c)%R.
Proof.
  intros H0 He Hf. set (r := sqrt ((a + e) * (a + e) + (b + f) * (b + f))).
  assert (Q : (0 <= (a + e) * (a + e) + (b + f) * (b + f))%R) by (apply Rplus_le_le_0_compat; apply Rle_0_sqr).
  assert (R0 : (0 <= r)%R) by apply sqrt_pos. assert (R2 : (r * r = (a + e) * (a + e) + (b + f) * (b + f))%R) by (apply sqrt_sqrt; exact Q).
  assert (He' : (- c <= e <= c)%R) by (unfold Rabs in He; destruct (Rcase_abs e); lra).
  assert (Hf' : (- c <= f <= c)%R) by (unfold Rabs in Hf; destruct (Rcase_abs f); lra).
  pose proof (Rle_0_sqr (a + e)) as Sa. pose proof (Rle_0_sqr (b + f)) as Sb. unfold Rsqr in Sa, Sb.
  assert (Ra : (- r <= a + e <= r)%R) by (split; [apply Rsqr_neg_pos_le_0|apply Rsqr_incr_0_var]; unfold Rsqr; lra).
  assert (Rb : (- r <= b + f <= r)%R) by (split; [apply Rsqr_neg_pos_le_0|apply Rsqr_incr_0_var]; unfold Rsqr; lra).
  replace (r + 2 * c)%R with (sqrt ((r + 2 * c) * (r + 2 * c))) by (apply sqrt_square; lra). apply sqrt_le_1_alt.
  assert (E1 : (a * a = (a + e) * (a + e) - 2 * e * (a + e) + e * e)%R) by ring. assert (E2 : (b * b = (b + f) * (b + f) - 2 * f * (b + f) + f * f)%R) by ring.
  assert (M : forall g w, (- c <= g <= c)%R -> (- r <= w <= r)%R -> (- (g * w) <= c * r)%R).
  { intros g w Hg Hw. destruct (Rle_or_lt 0 w) as [P|P].
    - apply Rle_trans with (c * w)%R; [replace (- (g * w))%R with ((- g) * w)%R by ring; apply Rmult_le_compat_r; lra|apply Rmult_le_compat_l; lra].
    - apply Rle_trans with (c * (- w))%R; [replace (- (g * w))%R with (g * (- w))%R by ring; apply Rmult_le_compat_r; lra|apply Rmult_le_compat_l; lra]. }
  assert (Z : forall g, (- c <= g <= c)%R -> (g * g <= c * c)%R).
  { intros g Hg. apply Rsqr_bounds_le. exact Hg. }
  pose proof (M e (a + e)%R He' Ra) as M1. pose proof (M f (b + f)%R Hf' Rb) as M2. pose proof (Z e He') as S1. pose proof (Z f Hf') as S2.
  assert (Pc : (0 <= c * c)%R) by apply Rle_0_sqr. 
  assert (E : ((r + 2 * c) * (r + 2 * c) = r * r + 4 * (c * r) + 4 * (c * c))%R) by ring. rewrite E, R2, E1, E2. lra.
Qed.

Lemma sle_R (a b : R) : (a <= b)%S -> (a <= b)%R.
Proof. intros H. apply R_leb_iff. exact H. Qed.
Lemma sabs_R (a : R) : sabs a = Rabs a.
Proof.
  unfold sabs. change (sleb s0 a) with (R_leb 0 a). change (sopp a) with (- a)%R. destruct (R_leb 0 a) eqn:E.
  - apply R_leb_iff in E. symmetry. apply Rabs_right. lra.
  - assert (N : (a < 0)%R). { destruct (Rlt_or_le a 0) as [K|K]; [exact K|]. apply R_leb_iff in K. rewrite K in E. discriminate E. } symmetry. now apply Rabs_left.
Qed.

Section Ugv.
  Context {SM : ScalarMild R}.
  Variables (junk : nat -> nat -> R) (dyn_eq : bool) (ph ch : nat).
  Hypothesis C0 : 0 < ch.
  Hypothesis C : ch <= ph.
  Variables (A B Cm D : nat -> nat -> R) (n : nat) (pos : nat -> nat -> R) (rad : nat -> R) (v : nat -> R) (p : nparams R) (tol : R).
  Notation ugv := (ugv_dims ph ch).
  Notation ugv_run := (program_run junk ugv ((ph + 1) * n) 0 dyn_eq (ugv_plant A B) (ugv_setup A B Cm D sqrt n pos rad v p tol) true).
  (** C89, ugv_ex.cpp: after every solved period the vehicle is outside of every obstacle, up to the tolerances of the answer *)
  Theorem C89_ugv_clear t ps pe j : ugv_run ps -> In pe ps -> nl_solved ugv t pe -> j < n ->
    (rad j - t_ieq t - 2 * t_dyn t <= dist2 (vec (ne_next pe) 0) (vec (ne_next pe) 1) (pos j 0%nat) (pos j 1%nat))%R.
  Proof using C0 C SM.
    intros H I Hs Hj. assert (P : 1 <= ph) by lia.
    pose proof (C89_ugv_plan junk dyn_eq ph ch (ugv_plant A B) C0 C A B Cm D sqrt n pos rad v p tol t ps pe 1 j H I Hs P Hj) as K.
    destruct (ugv_cfg junk dyn_eq ph ch (ugv_plant A B) A B Cm D sqrt n pos rad v p tol ps pe H I) as (Un & Ac & _ & Ed & Et). destruct H as (s & h & x & u & rest & H & _).
    destruct (C77_solved_periods junk ugv _ 0 dyn_eq (ugv_plant A B) C0 C s h x u ps pe t _ 0%R H I Hs Un Ac Ed Et) as [_ Q].
    { intros l Hl. unfold ugv_plant. cbn [ssub R_ops]. replace (lin_f A B _ _ 0 l - lin_f A B _ _ 0 l)%R with 0%R by ring.
      rewrite sabs_R, Rabs_R0. apply R_leb_iff. apply Rle_refl. }
    assert (N0 : 0 < d_nx ugv) by (cbn; lia). assert (N1 : 1 < d_nx ugv) by (cbn; lia).
    destruct (Q 0 N0) as [Q0 _]. destruct (Q 1 N1) as [Q1 _]. clear Q H I Hs Un Ac Ed Et.
    unfold depth in K. apply sle_R in K. apply sle_R in Q0. apply sle_R in Q1. rewrite sabs_R in Q0, Q1. cbn [ssub sadd smul R_ops] in K, Q0, Q1.
    unfold dist2. revert K Q0 Q1. generalize (ent (q_state (ne_seq pe)) 1 0), (ent (q_state (ne_seq pe)) 1 1), (vec (ne_next pe) 0), (vec (ne_next pe) 1), (pos j 0%nat), (pos j 1%nat), (rad j), (t_ieq t), (t_dyn t).
    intros X Y x' y' a b r ti td K Q0 Q1. rewrite Rplus_0_r in Q0, Q1.
    assert (T : (0 <= td)%R) by (pose proof (Rabs_pos (X - x')); lra).
    rewrite Rabs_minus_sym in Q0, Q1.
    pose proof (dist_step (X - a) (Y - b) td (x' - X) (y' - Y) T Q0 Q1) as G.
    replace (X - a + (x' - X))%R with (x' - a)%R in G by ring. replace (Y - b + (y' - Y))%R with (y' - b)%R in G by ring. lra.
  Qed.
End Ugv.
