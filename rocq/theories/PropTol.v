(** Property C70: the tolerances of user constraints and of the dynamics are `const float` parameters (NLMPC.hpp:166, 229, 251; Constraints.hpp:114,
    130), so a tolerance written as a double (as the default 1e-10 is) is first rounded to binary32; everything after that is double again
    (Constraints.hpp:932).  In the model the tolerance of a call is the value after this conversion; here the conversion is added. *)
From Coq Require Import Bool Arith ZArith Lia Reals Lra List.
From Flocq Require Import Core Relative.
From Verif Require Import Scalar ScalarR Sums Mat Slice Builder LMPC NLMap NLTraj NLFun SpecNL NLMPC SpecNLC SpecNLP NLRun PropNL1 PropNL4.
Import ListNotations.
Local Open Scope R_scope.

(** conversion of a double in the range of float: to the nearest binary32 number (24 significant bits, smallest positive 2^-149), ties to even *)
Definition to_float (t : R) : R := round radix2 (FLT_exp (-149) 24) ZnearestE t.

Lemma mag_in x e : bpow radix2 (e - 1) <= x < bpow radix2 e -> mag radix2 x = e :> Z.
Proof.
  intros H. apply mag_unique. rewrite Rabs_pos_eq; [exact H|]. pose proof (bpow_ge_0 radix2 (e - 1)). lra.
Qed.
(** the tolerance in force differs from the one asked for by at most one part in 2^24 *)
Theorem C70_rounding t : bpow radix2 (-126) <= t -> Rabs (to_float t - t) <= bpow radix2 (-24) * t.
Proof.
  intros H. pose proof (bpow_gt_0 radix2 (-126)). unfold to_float.
  pose proof (relative_error_N_FLT radix2 (-149) 24 ltac:(lia) (fun z => negb (Z.even z)) t) as E. cbn zeta in E.
  rewrite !(Rabs_pos_eq t) in E by lra. specialize (E H). eapply Rle_trans; [exact E|]. right. f_equal.
  change (/ 2) with (bpow radix2 (-1)). rewrite <- bpow_plus. reflexivity.
Qed.
(** tolerances up to 2^-150 become zero *)
Theorem C70_underflow t : 0 <= t <= bpow radix2 (-150) -> to_float t = 0.
Proof.
  intros [H0 H1]. destruct (Req_dec t 0) as [->|N]; [apply round_0; apply valid_rnd_N|]. unfold to_float.
  unfold round, F2R. cbn [Fnum Fexp]. assert (Ec : cexp radix2 (FLT_exp (-149) 24) t = (-149)%Z).
  { unfold cexp, FLT_exp. assert (mag radix2 t <= -149)%Z.
    { apply mag_le_bpow; [exact N|]. rewrite Rabs_pos_eq by exact H0. eapply Rle_lt_trans; [exact H1|]. apply bpow_lt. lia. }
    lia. }
  rewrite Ec. unfold scaled_mantissa. rewrite Ec. replace (ZnearestE (t * bpow radix2 (- -149))) with 0%Z; [cbn; lra|]. symmetry.
  assert (B : 0 <= t * bpow radix2 149 <= / 2).
  { pose proof (bpow_gt_0 radix2 149). split; [apply Rmult_le_pos; lra|]. apply Rle_trans with (bpow radix2 (-150) * bpow radix2 149); [apply Rmult_le_compat_r; lra|]. rewrite <- bpow_plus. right. reflexivity. }
  change (- -149)%Z with 149%Z. set (y := t * bpow radix2 149) in *. clearbody y. destruct (Rle_lt_or_eq_dec y (/ 2) (proj2 B)) as [L|Eq].
  - apply Znearest_imp. change (IZR 0) with 0. rewrite Rabs_pos_eq by lra. lra.
  - unfold Znearest. assert (Zf : Zfloor y = 0%Z) by (apply Zfloor_imp; simpl; lra). rewrite Zf. rewrite Rcompare_Eq by (change (IZR 0) with 0; lra). reflexivity.
Qed.
(** the documented default 1e-10 (as a double: 7737125245533627 * 2^-86) becomes 14411519 * 2^-57, which is more *)
Definition default_tol : R := 7737125245533627 / 77371252455336267181195264.
Theorem C70_default : to_float default_tol = 14411519 / 144115188075855872 /\ default_tol < to_float default_tol.
Proof.
  assert (M : mag radix2 default_tol = (-33)%Z :> Z).
  { apply mag_in. change (-33 - 1)%Z with (-34)%Z. unfold default_tol. change (bpow radix2 (-34)) with (/ IZR 17179869184). change (bpow radix2 (-33)) with (/ IZR 8589934592). lra. }
  assert (E : to_float default_tol = 14411519 / 144115188075855872).
  { unfold to_float, round, F2R. cbn [Fnum Fexp]. assert (Ec : cexp radix2 (FLT_exp (-149) 24) default_tol = (-57)%Z) by (unfold cexp, FLT_exp; rewrite M; reflexivity).
    unfold scaled_mantissa. rewrite Ec. change (- -57)%Z with 57%Z. replace (ZnearestE (default_tol * bpow radix2 57)) with 14411519%Z.
    - change (bpow radix2 (-57)) with (/ IZR 144115188075855872). unfold Rdiv. reflexivity.
    - symmetry. apply Znearest_imp. change (bpow radix2 57) with (IZR 144115188075855872). unfold default_tol. apply Rabs_lt. lra. }
  split; [exact E|]. rewrite E. unfold default_tol. lra.
Qed.

(** the feasibility flag of a controller whose newest inequality and equality functions were registered with tolerances [ti] and [te] *)
Theorem C70_feasible_up_to_rounding (junk : nat -> nat -> R) d ni ne dyn s h x0 u0 z code cost s' r ti te :
  (0 < d_ch d)%nat -> (d_ch d <= d_ph d)%nat -> nreached junk d ni ne dyn s h -> gm x0 (d_nx d) 1 -> scaled d (ncfg_run d ni ne h) ->
  (k_ieq (ncfg_run d ni ne h) <> None -> bpow radix2 (-126) <= ti /\ k_itol (ncfg_run d ni ne h) = to_float ti) ->
  (k_eqc (ncfg_run d ni ne h) <> None -> bpow radix2 (-126) <= te /\ k_etol (ncfg_run d ni ne h) = to_float te) ->
  n_step junk d ni ne dyn s (NOptimize x0 u0 (NSolved z code cost)) = Ok (s', r) ->
  let c := ncfg_run d ni ne h in let tiny := bpow radix2 (-24) in
  exists res, r = RResult res /\
    (r_feasible res = true ->
       (forall f, k_ieq c = Some f -> forall k, (k < ni)%nat -> ieq_of d c x0 f k z <= (1 + tiny) * ti) /\
       (forall f, k_eqc c = Some f -> forall k, (k < ne)%nat -> Rabs (eqc_of d c x0 f k z) <= (1 + tiny) * te)) /\
    ((forall f, k_ieq c = Some f -> forall k, (k < ni)%nat -> ieq_of d c x0 f k z <= (1 - tiny) * ti) ->
     (forall f, k_eqc c = Some f -> forall k, (k < ne)%nat -> Rabs (eqc_of d c x0 f k z) <= (1 - tiny) * te) -> r_feasible res = true).
Proof.
  intros C0 C1 Hr G Sc Hi He E c tiny.
  destruct (C29_feasible_iff junk d ni ne dyn s h x0 u0 z code cost s' r C0 C1 Hr G Sc E) as (res & -> & H). exists res. split; [reflexivity|].
  fold c in H, Hi, He.
  assert (A : k_ieq c <> None -> (1 - tiny) * ti <= k_itol c <= (1 + tiny) * ti).
  { intros K. destruct (Hi K) as [K1 ->]. pose proof (C70_rounding ti K1) as A. apply Rabs_le_inv in A. fold tiny in A. lra. }
  assert (B : k_eqc c <> None -> (1 - tiny) * te <= k_etol c <= (1 + tiny) * te).
  { intros K. destruct (He K) as [K1 ->]. pose proof (C70_rounding te K1) as B. apply Rabs_le_inv in B. fold tiny in B. lra. }
  assert (Ab : forall x : R, sabs x = Rabs x).
  { intros x. unfold sabs, sltb, s0, sopp. cbn. destruct (R_leb 0 x) eqn:Ex; cbn.
    - apply R_leb_iff in Ex. now rewrite Rabs_pos_eq.
    - rewrite Rabs_left1; [reflexivity|]. destruct (Rle_lt_dec 0 x) as [L|L]; [apply R_leb_iff in L; congruence|lra]. }
  assert (Le : forall x y : R, (x <= y)%S <-> x <= y) by (intros; apply R_leb_iff).
  split.
  - intros Hf. destruct (proj1 H Hf) as [P Q]. split; intros f Kf k Hk; [specialize (A ltac:(rewrite Kf; discriminate)); specialize (P f Kf k Hk); apply Le in P; lra|specialize (B ltac:(rewrite Kf; discriminate)); specialize (Q f Kf k Hk); apply Le in Q; rewrite Ab in Q; lra].
  - intros P Q. apply (proj2 H). split; intros f Kf k Hk; apply Le; [specialize (A ltac:(rewrite Kf; discriminate)); specialize (P f Kf k Hk); lra|specialize (B ltac:(rewrite Kf; discriminate)); specialize (Q f Kf k Hk); rewrite Ab; lra].
Qed.

(** Intended: what is reported feasible respects the tolerance asked for.  Refuted by the default tolerance. *)
Definition t_d : dims := mkDims 1 1 0 1 1 1.
Definition t_j : nat -> nat -> R := fun _ _ => 0.
Definition t_f : ieq_t R := fun _ _ _ _ _ => 14411519 / 144115188075855872.
Definition t_op : nop R := NSetIneq t_f (to_float default_tol) true.
Definition t_opt : nop R := NOptimize (mzero 1 1) (mzero 1 1) (NSolved (fun _ => 0) 1%Z (Fin 0)).
Lemma t_runs : exists s s' res, nreached t_j t_d 1 0 false s [(t_op, RBool true)] /\ n_step t_j t_d 1 0 false s t_opt = Ok (s', RResult res).
Proof.
  assert (S1 : nop_safe t_d 0 false t_op) by (split; exact I).
  assert (S2 : nop_safe t_d 0 false t_opt) by (split; [repeat split|exact I]).
  assert (L : n_life t_j t_d 1 0 false [t_op; t_opt] <> UB) by (apply C51_safe_histories; [cbn; lia|cbn; lia|cbn; lia|]; constructor; [exact S1|]; constructor; [exact S2|constructor]).
  assert (L1 : n_life t_j t_d 1 0 false [t_op] <> UB) by (apply C51_safe_histories; [cbn; lia|cbn; lia|cbn; lia|]; constructor; [exact S1|constructor]).
  destruct (n_life t_j t_d 1 0 false [t_op]) as [[s h]|] eqn:E1; [|congruence].
  assert (Eh : h = [(t_op, RBool true)]).
  { unfold n_life in E1. destruct (n_new t_d) as [sn|]; [|discriminate E1]. cbn [n_play n_step t_op] in E1. injection E1 as _ <-. reflexivity. }
  destruct (n_step t_j t_d 1 0 false s t_opt) as [[s' r]|] eqn:E2.
  - assert (exists res, r = RResult res) as (res & ->). { unfold t_opt in E2. cbn [n_step] in E2. destruct (n_run _ _ _ _ _ _ _ _) as [s3|]; [|discriminate E2]. injection E2 as _ <-. eauto. }
    exists s, s', res. split; [|exact E2]. exists [t_op]. rewrite <- Eh. split; [constructor; [exact I|constructor]|exact E1].
  - exfalso. apply L. unfold n_life in E1 |- *. destruct (n_new t_d) as [sn|]; [|reflexivity]. cbn [n_play] in E1 |- *. destruct (n_step t_j t_d 1 0 false sn t_op) as [[s1 r1]|]; [|reflexivity]. injection E1 as -> _. now rewrite E2.
Qed.
Theorem C70_tolerance_asked_for_refuted :
  ~ (forall (junk : nat -> nat -> R) d ni ne s h x0 u0 z code cost s' res f t acc r0, (0 < d_ch d)%nat -> (d_ch d <= d_ph d)%nat -> gm x0 (d_nx d) 1 ->
       nreached junk d ni ne false s (h ++ [(NSetIneq f (to_float t) acc, r0)]) -> scaled d (ncfg_run d ni ne (h ++ [(NSetIneq f (to_float t) acc, r0)])) ->
       n_step junk d ni ne false s (NOptimize x0 u0 (NSolved z code cost)) = Ok (s', RResult res) -> r_feasible res = true ->
       forall k, (k < ni)%nat -> ieq_of d (ncfg_run d ni ne (h ++ [(NSetIneq f (to_float t) acc, r0)])) x0 f k z <= t).
Proof.
  intros H. destruct t_runs as (s & s' & res & Hr & E).
  assert (Sc : scaled t_d (ncfg_run t_d 1 0 ([] ++ [(t_op, RBool true)]))) by (intros j _; cbn; lra).
  assert (Gx : gm (mzero (F:=R) 1 1) 1 1) by (repeat split).
  specialize (H t_j t_d 1%nat 0%nat s [] (mzero 1 1) (mzero 1 1) (fun _ => 0) 1%Z (Fin 0) s' res t_f default_tol true (RBool true) ltac:(cbn; lia) ltac:(cbn; lia) Gx Hr Sc E).
  destruct (C29_feasible_iff t_j t_d 1 0 false s _ _ _ _ _ _ s' _ ltac:(cbn; lia) ltac:(cbn; lia) Hr Gx Sc E) as (res' & Er & Hf). injection Er as <-.
  destruct C70_default as [D1 D2].
  assert (Fe : r_feasible res = true).
  { apply (proj2 Hf). split; [|intros f K; discriminate K]. intros f Kf k Hk. assert (Ef : f = t_f) by (cbn in Kf; injection Kf as <-; reflexivity). subst f.
    apply R_leb_iff. change (t_f [] [] [] 0 k <= to_float default_tol). rewrite D1. unfold t_f. lra. }
  specialize (H Fe 0%nat ltac:(lia)). change (t_f [] [] [] 0 0%nat <= default_tol) in H. unfold t_f in H. unfold default_tol in H. lra.
Qed.
(** the hypotheses of C70_feasible_up_to_rounding are met by the same controller *)
Example C70_instance : exists s s' r, nreached t_j t_d 1 0 false s [(t_op, RBool true)] /\ n_step t_j t_d 1 0 false s t_opt = Ok (s', r) /\
  (k_ieq (ncfg_run t_d 1 0 [(t_op, RBool true)]) <> None /\ bpow radix2 (-126) <= default_tol /\ k_itol (ncfg_run t_d 1 0 [(t_op, RBool true)]) = to_float default_tol) /\
  k_eqc (ncfg_run t_d 1 0 [(t_op, RBool true)]) = None /\ scaled t_d (ncfg_run t_d 1 0 [(t_op, RBool true)]).
Proof.
  destruct t_runs as (s & s' & res & Hr & E). exists s, s', (RResult res). refine (conj Hr (conj E (conj (conj _ (conj _ eq_refl)) (conj eq_refl _)))).
  - intros K. discriminate K.
  - apply Rle_trans with (bpow radix2 (-34)); [apply bpow_le; lia|]. change (bpow radix2 (-34)) with (/ IZR 17179869184). unfold default_tol. lra.
  - intros j _. cbn. lra.
Qed.
