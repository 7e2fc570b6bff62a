(** Properties C25 - C28: derivatives handed to the solver.  [bump z r t]: decision variable [r] moved by [t];
    [slope g D]: [g t = g 0 + t D + t^2 C] for all [t], so [D] is the derivative at 0 (SpecNL.v).
    [has_grad]/[near_grad]/[dyn_grad]: the user function has the given partial derivatives and is at most quadratic / has a second order remainder. *)
From Coq Require Import Bool Arith ZArith List Lia QArith Qcanon Ring Field.
From Verif Require Import Scalar Sums Mat Slice Builder BuilderEnt LMPC SpecLMPC NLMap NLTraj NLFun SpecNL NLLoop NLGrad NLEval NLSlope NLSlope2 NLAcc NLDynSlope NLMPC SpecNLC SpecNLP NLRef NLRun NLCall NLObs Wit WitNL.
Import ListNotations.
Local Open Scope nat_scope.

(** a function of the trajectories that is affine around (X, U, e), with the given coefficients *)
Definition affine_at {F} {SO : ScalarOps F} (d : dims) (psi : (nat -> nat -> F) -> (nat -> nat -> F) -> F -> F) (X U : nat -> nat -> F) (e : F)
    (gX gU : nat -> nat -> F) (ge : F) : Prop :=
  forall dX dU de, psi (fun a b => (X a b + dX a b)%S) (fun a b => (U a b + dU a b)%S) (e + de)%S =
    (psi X U e + (dot2 (d_ph d + 1) (d_nx d) gX dX + dot2 (d_ph d + 1) (d_nu d) gU dU + ge * de))%S.

Section Stmts.
  Context {F : Type} {SO : ScalarOps F} {SL : ScalarLaws F}.
  Add Field SFpn2 : (@s_field F SO SL).
  Variables (junk : nat -> nat -> F) (d : dims) (ni ne : nat) (dyn_eq : bool).
  Notation nx := (d_nx d). Notation nu := (d_nu d). Notation ny := (d_ny d).
  Notation ph := (d_ph d). Notation ch := (d_ch d).
  Notation reached := (nreached junk d ni ne dyn_eq). Notation cf := (ncfg_run d ni ne).
  Notation call := (n_call junk d ni ne).
  Implicit Types (s : nmpc F) (h : list (nop F * ret F)).

  Lemma affine_near psi X U e gX gU ge rho : affine_at d psi X U e gX gU ge -> near_grad d psi X U e gX gU ge s0 rho.
  Proof.
    intros H. split; [apply s_le_refl|]. intros t dX dU de _ _ _. rewrite H.
    match goal with |- (sabs ?a <= _)%S => replace a with (s0 : F) by ring end. rewrite sabs_0. replace (s0 * (t * t))%S with (s0 : F) by ring. apply s_le_refl.
  Qed.
  Lemma affine_has psi X U e gX gU ge : affine_at d psi X U e gX gU ge -> has_grad d psi X U e gX gU ge.
  Proof. intros H. exists (fun _ _ _ => s0). split; intros; [rewrite H; ring|ring]. Qed.
  Lemma sabs_le0 (a b t : F) : (sabs (a - b) <= s0 * t)%S -> a = b.
  Proof.
    intros H. replace (s0 * t)%S with (s0 : F) in H by ring. apply sabs_le in H as [H1 H2]. replace (- s0)%S with (s0 : F) in H1 by ring.
    pose proof (s_le_antisym _ _ H2 H1) as E. transitivity (b + (a - b))%S; [ring|]. rewrite E. ring.
  Qed.

  (** *** C25 *)
  Theorem C25_gradient_of_affine_cost s h x0 u0 z ev f gX gU ge :
    0 < ch -> ch <= ph -> reached s h -> gm x0 nx 1 -> scaled d (cf h) -> length z = n_dec d ->
    nc_obj (call s x0 u0) = Some ev -> k_obj (cf h) = Some f ->
    affine_at d (obj_at d f (k_out (cf h))) (x_traj d (cf h) x0 (dvar z)) (u_traj d (cf h) (dvar z)) (dvar z (v_slack d)) gX gU ge ->
    exists v g, ev z = Ok (v, g) /\ length g = n_dec d /\
      forall r, r < n_dec d -> slope (fun t => cost_of d (cf h) x0 f (bump (dvar z) r t))
        (if r <? ph * nx then (k_sx (cf h) (r mod nx) * nth r g s0)%S else nth r g s0).
  Proof.
    intros C0 C Hr G Sc Lz Ho Hf Ha. pose proof (nreached_NR junk d ni ne dyn_eq C0 C s h Hr) as H.
    destruct (call_obj junk d ni ne s _ x0 H u0 ev Ho) as [B ->].
    destruct (obj_ev junk d C0 C s _ x0 H G Sc z Lz f Hf) as (g & E & L & Eg). exists (cost_of d (cf h) x0 f (dvar z)), g. refine (conj E (conj L _)).
    pose proof (obj_dev junk d C0 C s (cf h) x0 H G Sc z Lz f gX gU ge s0) as D.
    assert (NG : forall rho, near_grad d (obj_at d f (k_out (cf h))) (x_traj d (cf h) x0 (dvar z)) (u_traj d (cf h) (dvar z)) (dvar z (v_slack d)) gX gU ge s0 rho)
      by (intros rho; now apply affine_near).
    pose proof (affine_has _ _ _ _ _ _ _ Ha) as HG.
    set (psi := obj_at d f (k_out (cf h))) in *.
    assert (Hext : forall x u y v e, (forall i j, i < ph + 1 -> j < nx -> x i j = y i j) -> (forall i j, i < ph + 1 -> j < nu -> u i j = v i j) -> psi x u e = psi y v e)
      by (intros; now apply obj_at_ext).
    assert (P := ph_pos d C0 C).
    intros r Hr'. rewrite Eg by exact Hr'. change (fun t => cost_of d (cf h) x0 f (bump (dvar z) r t)) with (fun t => comp d psi (k_su (cf h)) (k_sx (cf h)) (fun j => (k_sx (cf h) j * vec x0 j)%S) (bump (dvar z) r t)).
    destruct (var_cases d r Hr' C0) as [(i & j & Hi & Hj & ->)|[(b & j & Hb & Hj & ->)| ->]].
    - pose proof (blk_lt i ph nx j Hi Hj) as Lt. destruct (Nat.ltb_spec (i * nx + j) (ph * nx)); [|lia]. rewrite (proj2 (divmod_unique i j nx Hj)).
      pose proof (fun rho => D rho (NG rho)) as D'. clear D. destruct (D' (dv_obj * lstep (ph + 1)%nat (x_traj d (cf h) x0 (dvar z)) j)%S) as (D1 & _). specialize (D1 i j _ Hi Hj eq_refl (s_le_refl _)). apply sabs_le0 in D1. rewrite D1.
      eapply slope_state; eassumption.
    - destruct (Nat.ltb_spec (ph * nx + (b * nu + j)) (ph * nx)); [lia|].
      pose proof (fun rho => D rho (NG rho)) as D'. clear D. destruct (D' (dv_obj * lstep (ph + 1)%nat (u_traj d (cf h) (dvar z)) j)%S) as (_ & D2 & _). specialize (D2 b j _ Hb Hj eq_refl (s_le_refl _)).
      match type of D2 with (_ <= ?a * (?n * (_ * ?t)))%S => replace (a * (n * (s0 * t)))%S with (s0 * t)%S in D2 by ring end.
      apply sabs_le0 in D2. rewrite D2. eapply slope_input; eassumption.
    - destruct (Nat.ltb_spec (ph * nx + nu * ch) (ph * nx)); [lia|].
      pose proof (fun rho => D rho (NG rho)) as D'. clear D. destruct (D' (smax (sdec 1%positive 1000000%positive) (sabs (dvar z (v_slack d))) * dv_obj)%S) as (_ & _ & D3). specialize (D3 _ eq_refl (s_le_refl _)). apply sabs_le0 in D3.
      change (ph * nx + nu * ch) with (v_slack d) at 2. rewrite D3. eapply slope_slack; eassumption.
  Qed.
  (** any cost with a second-order remainder: error proportional to the finite-difference step *)
  Theorem C25_gradient_accuracy s h x0 u0 z ev f gX gU ge K rho :
    0 < ch -> ch <= ph -> reached s h -> gm x0 nx 1 -> scaled d (cf h) -> length z = n_dec d ->
    nc_obj (call s x0 u0) = Some ev -> k_obj (cf h) = Some f ->
    near_grad d (obj_at d f (k_out (cf h))) (x_traj d (cf h) x0 (dvar z)) (u_traj d (cf h) (dvar z)) (dvar z (v_slack d)) gX gU ge K rho ->
    exists v g, ev z = Ok (v, g) /\
      (forall i j t, i < ph -> j < nx -> t = (dv_obj * lstep (ph + 1)%nat (x_traj d (cf h) x0 (dvar z)) j)%S -> (t <= rho)%S ->
        (sabs (nth (i * nx + j)%nat g s0 - gX (i + 1)%nat j) <= K * t)%S) /\
      (forall b j t, b < ch -> j < nu -> t = (dv_obj * lstep (ph + 1)%nat (u_traj d (cf h) (dvar z)) j)%S -> (t <= rho)%S ->
        (sabs (nth (ph * nx + (b * nu + j))%nat g s0 - k_su (cf h) j * ssum (ph + 1)%nat (fun a => if (held d a =? b)%nat then gU a j else s0)) <=
           sabs (k_su (cf h) j) * (snat ph * (K * t)))%S) /\
      (forall t, t = (smax (sdec 1%positive 1000000%positive) (sabs (dvar z (v_slack d))) * dv_obj)%S -> (t <= rho)%S ->
        (sabs (nth (v_slack d) g s0 - ge) <= K * t)%S).
  Proof.
    intros C0 C Hr G Sc Lz Ho Hf Hn. pose proof (nreached_NR junk d ni ne dyn_eq C0 C s h Hr) as H.
    destruct (call_obj junk d ni ne s _ x0 H u0 ev Ho) as [B ->].
    destruct (obj_ev junk d C0 C s _ x0 H G Sc z Lz f Hf) as (g & E & L & Eg). exists (cost_of d (cf h) x0 f (dvar z)), g. refine (conj E _).
    destruct (obj_dev junk d C0 C s (cf h) x0 H G Sc z Lz f gX gU ge K rho Hn) as (D1 & D2 & D3). refine (conj _ (conj _ _)).
    - intros i j t Hi Hj. pose proof (blk_lt i ph nx j Hi Hj). rewrite Eg by (unfold n_dec; lia). now apply D1.
    - intros b j t Hb Hj. pose proof (blk_lt b ch nu j Hb Hj). rewrite Eg by (unfold n_dec; lia). now apply D2.
    - intros t. rewrite Eg by (unfold n_dec, v_slack; lia). apply D3.
  Qed.

  Lemma row_lt n k r : k < n -> r < n_dec d -> k * n_dec d + r < n_dec d * n.
  Proof. intros Hk Hr. rewrite (Nat.mul_comm (n_dec d) n). now apply blk_lt. Qed.

  (** *** C26: exact up to the missing contribution of the held last input (row ph of the inputs) to the last control block *)
  Theorem C26_inequality_jacobian s h x0 u0 z tol ev f k gX gU ge :
    0 < ch -> ch <= ph -> reached s h -> gm x0 nx 1 -> scaled d (cf h) -> length z = n_dec d ->
    In (KIneq, tol, ev) (nc_cons (call s x0 u0)) -> k_ieq (cf h) = Some f -> k < ni ->
    has_grad d (ieq_at d f (k_out (cf h)) k) (x_traj d (cf h) x0 (dvar z)) (u_traj d (cf h) (dvar z)) (dvar z (v_slack d)) gX gU ge ->
    exists v g, ev z = Ok (v, g) /\
      forall r, r < n_dec d -> slope (fun t => ieq_of d (cf h) x0 f k (bump (dvar z) r t))
        (nth (k * n_dec d + r)%nat g s0 +
         (if ((v_input d (ch - 1) 0 <=? r) && (r <? v_slack d))%nat%bool
          then k_su (cf h) (r - v_input d (ch - 1) 0)%nat * gU ph (r - v_input d (ch - 1) 0)%nat else s0))%S.
  Proof.
    intros C0 C Hr G Sc Lz Ho Hf Hk Hn. pose proof (nreached_NR junk d ni ne dyn_eq C0 C s h Hr) as H.
    destruct (call_con junk d ni ne s _ x0 H u0 KIneq tol ev Ho) as [B ->].
    destruct (ieq_ev junk d ni ne C0 C s _ x0 H G Sc z Lz f Hf) as (v & g & E & _ & _ & _ & Eg). exists v, g. refine (conj E _).
    intros r Hr'. rewrite Eg by (now apply row_lt). eapply ieq_dev; eassumption.
  Qed.
  (** exact for every variable but the last control block, and there as well when the constraint does not depend on the input of row ph *)
  Corollary C26_exact_when s h x0 u0 z tol ev f k gX gU ge :
    0 < ch -> ch <= ph -> reached s h -> gm x0 nx 1 -> scaled d (cf h) -> length z = n_dec d ->
    In (KIneq, tol, ev) (nc_cons (call s x0 u0)) -> k_ieq (cf h) = Some f -> k < ni ->
    has_grad d (ieq_at d f (k_out (cf h)) k) (x_traj d (cf h) x0 (dvar z)) (u_traj d (cf h) (dvar z)) (dvar z (v_slack d)) gX gU ge ->
    exists v g, ev z = Ok (v, g) /\
      forall r, r < n_dec d -> (v_input d (ch - 1) 0 <= r -> r < v_slack d -> gU ph (r - v_input d (ch - 1) 0) = s0) ->
        slope (fun t => ieq_of d (cf h) x0 f k (bump (dvar z) r t)) (nth (k * n_dec d + r) g s0).
  Proof.
    intros C0 C Hr G Sc Lz Ho Hf Hk Hn.
    destruct (C26_inequality_jacobian s h x0 u0 z tol ev f k gX gU ge C0 C Hr G Sc Lz Ho Hf Hk Hn) as (v & g & E & D). exists v, g. refine (conj E _).
    intros r Hr' H0. specialize (D r Hr'). revert D.
    destruct (Nat.leb_spec (v_input d (ch - 1) 0) r); cbn [andb]; [destruct (Nat.ltb_spec r (v_slack d))|]; [rewrite H0 by assumption| |]; intros D;
      match type of D with slope ?gg ?D' => replace D' with (nth (k * n_dec d + r) g s0) in D by ring end; exact D.
  Qed.
  Theorem C26_accuracy s h x0 u0 z tol ev f k gX gU ge K rho :
    0 < ch -> ch <= ph -> reached s h -> gm x0 nx 1 -> scaled d (cf h) -> length z = n_dec d ->
    In (KIneq, tol, ev) (nc_cons (call s x0 u0)) -> k_ieq (cf h) = Some f -> k < ni ->
    near_grad d (ieq_at d f (k_out (cf h)) k) (x_traj d (cf h) x0 (dvar z)) (u_traj d (cf h) (dvar z)) (dvar z (v_slack d)) gX gU ge K rho ->
    exists v g, ev z = Ok (v, g) /\
      (forall i j t, i < ph -> j < nx -> t = (dv_con * lstep (ph + 1)%nat (x_traj d (cf h) x0 (dvar z)) j)%S -> (t <= rho)%S ->
        (sabs (nth (k * n_dec d + (i * nx + j))%nat g s0 - k_sx (cf h) j * gX (i + 1)%nat j) <= sabs (k_sx (cf h) j) * (K * t))%S) /\
      (forall b j t, b < ch -> j < nu -> t = (dv_con * lstep (ph + 1)%nat (u_traj d (cf h) (dvar z)) j)%S -> (t <= rho)%S ->
        (sabs (nth (k * n_dec d + (ph * nx + (b * nu + j)))%nat g s0 - k_su (cf h) j * over_block d b (fun a => gU a j)) <=
           sabs (k_su (cf h) j) * (snat ph * (K * t)))%S) /\
      (forall t, t = (smax dv_con (sabs (dvar z (v_slack d))) * dv_con)%S -> (t <= rho)%S ->
        (sabs (nth (k * n_dec d + v_slack d)%nat g s0 - ge) <= K * t)%S).
  Proof.
    intros C0 C Hr G Sc Lz Ho Hf Hk Hn. pose proof (nreached_NR junk d ni ne dyn_eq C0 C s h Hr) as H.
    destruct (call_con junk d ni ne s _ x0 H u0 KIneq tol ev Ho) as [B ->].
    destruct (ieq_ev junk d ni ne C0 C s _ x0 H G Sc z Lz f Hf) as (v & g & E & _ & _ & _ & Eg). exists v, g. refine (conj E _).
    destruct (ieq_acc junk d (n_map s) _ _ (fun j => (k_sx (cf h) j * vec x0 j)%S) (dvar z) (vec_of z) x0 (nr_map d s _ H) (ph_pos d C0 C) C0 C (vec_of_gm z _ Lz) G (fun k _ => vec_of_ent z k) Sc (fun _ _ => eq_refl) ni f (k_out (cf h)) k gX gU ge K rho Hk Hn) as (D1 & D2 & D3).
    refine (conj _ (conj _ _)).
    - intros i j t Hi Hj. pose proof (blk_lt i ph nx j Hi Hj). rewrite Eg by (apply row_lt; [exact Hk|unfold n_dec; lia]). now apply D1.
    - intros b j t Hb Hj. pose proof (blk_lt b ch nu j Hb Hj). rewrite Eg by (apply row_lt; [exact Hk|unfold n_dec; lia]). now apply D2.
    - intros t. rewrite Eg by (apply row_lt; [exact Hk|unfold n_dec, v_slack; lia]). apply D3.
  Qed.

  (** *** C27 *)
  Theorem C27_equality_jacobian s h x0 u0 z tol ev f k gX gU ge :
    0 < ch -> ch <= ph -> reached s h -> gm x0 nx 1 -> scaled d (cf h) -> length z = n_dec d ->
    In (KEq, tol, ev) (nc_cons (call s x0 u0)) -> k_eqc (cf h) = Some f -> k < ne ->
    has_grad d (fun X U _ => eqc_at d f k X U) (x_traj d (cf h) x0 (dvar z)) (u_traj d (cf h) (dvar z)) (dvar z (v_slack d)) gX gU ge ->
    exists v g, ev z = Ok (v, g) /\
      forall r, r < n_dec d -> slope (fun t => eqc_of d (cf h) x0 f k (bump (dvar z) r t)) (nth (k * n_dec d + r) g s0).
  Proof.
    intros C0 C Hr G Sc Lz Ho Hf Hk Hn. pose proof (nreached_NR junk d ni ne dyn_eq C0 C s h Hr) as H.
    destruct (call_con junk d ni ne s _ x0 H u0 KEq tol ev Ho) as [B ->].
    destruct (eqc_ev junk d ni ne C0 C s _ x0 H G Sc z Lz f Hf) as (v & g & E & _ & _ & _ & Eg). exists v, g. refine (conj E _).
    intros r Hr'. rewrite Eg by (now apply row_lt). eapply eqc_dev; eassumption.
  Qed.
  Theorem C27_accuracy s h x0 u0 z tol ev f k gX gU ge K rho :
    0 < ch -> ch <= ph -> reached s h -> gm x0 nx 1 -> scaled d (cf h) -> length z = n_dec d ->
    In (KEq, tol, ev) (nc_cons (call s x0 u0)) -> k_eqc (cf h) = Some f -> k < ne ->
    near_grad d (fun X U _ => eqc_at d f k X U) (x_traj d (cf h) x0 (dvar z)) (u_traj d (cf h) (dvar z)) (dvar z (v_slack d)) gX gU ge K rho ->
    exists v g, ev z = Ok (v, g) /\
      (forall i j t, i < ph -> j < nx -> t = (dv_con * smax (sabs (x_traj d (cf h) x0 (dvar z) (i + 1)%nat j)) s1)%S -> (t <= rho)%S ->
        (sabs (nth (k * n_dec d + (i * nx + j))%nat g s0 - k_sx (cf h) j * gX (i + 1)%nat j) <= sabs (k_sx (cf h) j) * (K * t))%S) /\
      (forall b j t, b < ch -> j < nu -> t = (dv_con * smax (sabs (u_traj d (cf h) (dvar z) (ph - 1)%nat j)) s1)%S -> (t <= rho)%S ->
        (sabs (nth (k * n_dec d + (ph * nx + (b * nu + j)))%nat g s0 - k_su (cf h) j * ssum (ph + 1)%nat (fun a => if (held d a =? b)%nat then gU a j else s0)) <=
           sabs (k_su (cf h) j) * (snat ph * (K * t)))%S) /\
      nth (k * n_dec d + v_slack d) g s0 = s0.
  Proof.
    intros C0 C Hr G Sc Lz Ho Hf Hk Hn. pose proof (nreached_NR junk d ni ne dyn_eq C0 C s h Hr) as H.
    destruct (call_con junk d ni ne s _ x0 H u0 KEq tol ev Ho) as [B ->].
    destruct (eqc_ev junk d ni ne C0 C s _ x0 H G Sc z Lz f Hf) as (v & g & E & _ & _ & _ & Eg). exists v, g. refine (conj E _).
    destruct (eqc_acc junk d (n_map s) _ _ (fun j => (k_sx (cf h) j * vec x0 j)%S) (dvar z) (vec_of z) x0 (nr_map d s _ H) (ph_pos d C0 C) C0 C (vec_of_gm z _ Lz) G (fun k _ => vec_of_ent z k) Sc (fun _ _ => eq_refl) ne f k gX gU ge K rho Hk Hn) as (D1 & D2 & D3).
    refine (conj _ (conj _ _)).
    - intros i j t Hi Hj. pose proof (blk_lt i ph nx j Hi Hj). rewrite Eg by (apply row_lt; [exact Hk|unfold n_dec; lia]). now apply D1.
    - intros b j t Hb Hj. pose proof (blk_lt b ch nu j Hb Hj). rewrite Eg by (apply row_lt; [exact Hk|unfold n_dec; lia]). now apply D2.
    - rewrite Eg by (apply row_lt; [exact Hk|unfold n_dec, v_slack; lia]). apply D3.
  Qed.

  (** *** C28 *)
  Theorem C28_dynamics_jacobian s h x0 u0 z tol ev f i l A0 B0 A1 B1 :
    0 < ch -> ch <= ph -> reached s h -> gm x0 nx 1 -> scaled d (cf h) -> length z = n_dec d ->
    In (KDyn, tol, ev) (nc_cons (call s x0 u0)) -> k_dyn (cf h) = Some f -> i < ph -> l < nx ->
    dyn_grad d f i l (x_traj d (cf h) x0 (dvar z) i) (u_traj d (cf h) (dvar z) i) A0 B0 ->
    (k_ts (cf h) <> None -> dyn_grad d f i l (x_traj d (cf h) x0 (dvar z) (S i)) (u_traj d (cf h) (dvar z) i) A1 B1) ->
    exists v g, ev z = Ok (v, g) /\
      forall r, r < n_dec d ->
        slope (fun t => dyn_res d f (k_ts (cf h)) (k_sx (cf h)) (x_traj d (cf h) x0 (bump (dvar z) r t)) (u_traj d (cf h) (bump (dvar z) r t)) i l)
          (nth ((i * nx + l) * n_dec d + r) g s0).
  Proof.
    intros C0 C Hr G Sc Lz Ho Hf Hi Hl HA HB. pose proof (nreached_NR junk d ni ne dyn_eq C0 C s h Hr) as H.
    destruct (call_con junk d ni ne s _ x0 H u0 KDyn tol ev Ho) as [B ->].
    destruct (dyn_ev junk d ni ne C0 C s _ x0 H G Sc z Lz f Hf) as (v & g & E & _ & _ & _ & Eg). exists v, g. refine (conj E _).
    intros r Hr'. rewrite Eg by (apply row_lt; [now apply blk_lt|exact Hr']). eapply dyn_dev; eassumption.
  Qed.
  (** linear plants *)
  Definition linear_plant (f : dyn_t F) (A B : nat -> nat -> F) : Prop :=
    forall x u k l, l < nx -> f (map x (seq 0 nx)) (map u (seq 0 nu)) k l = (ssum nx (fun b => A l b * x b) + ssum nu (fun b => B l b * u b))%S.
  Lemma linear_dyn_grad f A B xv uv p l : l < nx -> linear_plant f A B -> dyn_grad d f p l xv uv (A l) (B l).
  Proof.
    intros Hl H. exists (fun _ _ => s0). split; intros; [|ring]. rewrite !H by exact Hl.
    assert (S : forall n (M a b : nat -> F), ssum n (fun i => (M i * (a i + b i))%S) = (ssum n (fun i => M i * a i) + ssum n (fun i => M i * b i))%S)
      by (intros n M a b; rewrite <- ssum_add; apply ssum_ext; intros; ring).
    rewrite !S. ring.
  Qed.
  Corollary C28_linear_plants s h x0 u0 z tol ev f A B :
    0 < ch -> ch <= ph -> reached s h -> gm x0 nx 1 -> scaled d (cf h) -> length z = n_dec d ->
    In (KDyn, tol, ev) (nc_cons (call s x0 u0)) -> k_dyn (cf h) = Some f -> linear_plant f A B ->
    exists v g, ev z = Ok (v, g) /\
      forall i l r, i < ph -> l < nx -> r < n_dec d ->
        slope (fun t => dyn_res d f (k_ts (cf h)) (k_sx (cf h)) (x_traj d (cf h) x0 (bump (dvar z) r t)) (u_traj d (cf h) (bump (dvar z) r t)) i l)
          (nth ((i * nx + l) * n_dec d + r) g s0).
  Proof.
    intros C0 C Hr G Sc Lz Ho Hf HL. pose proof (nreached_NR junk d ni ne dyn_eq C0 C s h Hr) as H.
    destruct (call_con junk d ni ne s _ x0 H u0 KDyn tol ev Ho) as [B' ->].
    destruct (dyn_ev junk d ni ne C0 C s _ x0 H G Sc z Lz f Hf) as (v & g & E & _ & _ & _ & Eg). exists v, g. refine (conj E _).
    intros i l r Hi Hl Hr'. rewrite Eg by (apply row_lt; [now apply blk_lt|exact Hr']).
    eapply (dyn_dev junk d C0 C s (cf h) x0 H G Sc z Lz f i l (A l) (B l) (A l) (B l) r Hi Hl); [|intros _|exact Hr']; eapply linear_dyn_grad; eassumption.
  Qed.
End Stmts.

(** *** Instances and refutations *)
Add Field QcS : (@s_field Qc _ _).
Definition n_Ja : obj_t Qc := fun X Y U e => (q 3 * at2 X 1 0 + at2 U 2 0)%S.
Definition n_Jq : obj_t Qc := fun X Y U e => (at2 X 1 0 * at2 X 1 0)%S.
Definition a_ops : list (nop Qc) := n_ops ++ [NSetObjective n_Ja true].
Definition q_ops : list (nop Qc) := n_ops ++ [NSetObjective n_Jq true].
Lemma a_reached : nreached qj nd 2 1 false (nS nd 2 1 a_ops) (nH nd 2 1 a_ops). Proof. n_reach. Qed.
Lemma q_reached : nreached qj nd 2 1 false (nS nd 2 1 q_ops) (nH nd 2 1 q_ops). Proof. n_reach. Qed.
Lemma obj_of_h h f : nreached qj nd 2 1 false (nS nd 2 1 h) (nH nd 2 1 h) -> n_obj (nS nd 2 1 h) = Some f -> k_obj (ncfg_run nd 2 1 (nH nd 2 1 h)) = Some f.
Proof. intros R E. now rewrite <- (nr_obj nd _ _ (nreached_NR qj nd 2 1 false nd_ch nd_ph _ _ R)). Qed.
Lemma scaled_ops h : (forall j, j < 2 -> sleb (q 1) (k_sx (ncfg_run nd 2 1 (nH nd 2 1 h)) j) = true) -> scaled nd (ncfg_run nd 2 1 (nH nd 2 1 h)).
Proof. intros H j Hj E. specialize (H j Hj). rewrite E in H. vm_compute in H. discriminate H. Qed.
Lemma a_scaled : scaled nd (ncfg_run nd 2 1 (nH nd 2 1 a_ops)).
Proof. apply scaled_ops. intros [|[|j]] Hj; [vm_compute; reflexivity|vm_compute; reflexivity|lia]. Qed.
Lemma q_scaled : scaled nd (ncfg_run nd 2 1 (nH nd 2 1 q_ops)).
Proof. apply scaled_ops. intros [|[|j]] Hj; [vm_compute; reflexivity|vm_compute; reflexivity|lia]. Qed.
Definition g3 : nat -> nat -> Qc := fun a b => if (a =? 1) && (b =? 0) then q 3 else q 0.
Lemma a_affine og X U e : affine_at nd (obj_at nd n_Ja og) X U e g3 (unit2 2 0) s0.
Proof. intros dX dU de. unfold obj_at, n_Ja, at2, tab, dot2, nd, g3, unit2. cbn -[q sadd smul ssub sopp s0 s1 sdiv]. change (q 0) with (s0 : Qc). ring. Qed.
Lemma sabs_sq_le (a t : Qc) : (sabs a <= t)%S -> (sabs (a * a) <= t * t)%S.
Proof.
  intros H. rewrite sabs_mul. pose proof (sabs_nonneg a) as H0. apply sle_trans with (t * sabs a)%S.
  - replace (sabs a * sabs a)%S with (sabs a * sabs a)%S by ring. replace (t * sabs a)%S with (sabs a * t)%S by ring. now apply smul_le_l.
  - apply smul_le_l; [eapply sle_trans; eassumption|exact H].
Qed.
Lemma q_near og X U e rho : near_grad nd (obj_at nd n_Jq og) X U e (fun a b => if (a =? 1) && (b =? 0) then (s2 * X 1%nat 0%nat)%S else s0) (fun _ _ => s0) s0 s1 rho.
Proof.
  split; [apply s01|]. intros t dX dU de _ _ (Hx & _). unfold obj_at, n_Jq, at2, tab, dot2, nd. cbn -[q sadd smul ssub sopp s0 s1 sdiv].
  match goal with |- (sabs ?a <= _)%S => replace a with (dX 1%nat 0%nat * dX 1%nat 0%nat)%S by (unfold s2; change (q 0) with (s0 : Qc); ring) end.
  replace (s1 * (t * t))%S with (t * t)%S by ring. apply sabs_sq_le, Hx.
Qed.
Example C25_instance : nreached qj nd 2 1 false (nS nd 2 1 a_ops) (nH nd 2 1 a_ops) /\ scaled nd (ncfg_run nd 2 1 (nH nd 2 1 a_ops)) /\
  (exists ev, nc_obj (n_call qj nd 2 1 (nS nd 2 1 a_ops) n_x0 n_u0) = Some ev) /\ k_obj (ncfg_run nd 2 1 (nH nd 2 1 a_ops)) = Some n_Ja /\
  (forall X U e, affine_at nd (obj_at nd n_Ja (k_out (ncfg_run nd 2 1 (nH nd 2 1 a_ops)))) X U e g3 (unit2 2 0) s0) /\
  k_obj (ncfg_run nd 2 1 (nH nd 2 1 q_ops)) = Some n_Jq /\ nreached qj nd 2 1 false (nS nd 2 1 q_ops) (nH nd 2 1 q_ops) /\ scaled nd (ncfg_run nd 2 1 (nH nd 2 1 q_ops)) /\
  (forall X U e rho, near_grad nd (obj_at nd n_Jq (k_out (ncfg_run nd 2 1 (nH nd 2 1 q_ops)))) X U e (fun a b => if (a =? 1) && (b =? 0) then (s2 * X 1%nat 0%nat)%S else s0) (fun _ _ => s0) s0 s1 rho).
Proof.
  refine (conj a_reached (conj a_scaled (conj _ (conj _ (conj _ (conj _ (conj q_reached (conj q_scaled _)))))))).
  - apply has_obj. vm_compute. reflexivity.
  - apply (obj_of_h _ _ a_reached). reflexivity.
  - intros. apply a_affine.
  - apply (obj_of_h _ _ q_reached). reflexivity.
  - intros. apply q_near.
Qed.
(** C25 as intended: the entries are the partial derivatives *)
Theorem C25_intended_refuted :
  ~ (forall d ni ne s h x0 u0 z ev f gX gU ge v g, 0 < d_ch d -> d_ch d <= d_ph d -> nreached qj d ni ne false s h -> gm x0 (d_nx d) 1 ->
       scaled d (ncfg_run d ni ne h) -> length z = n_dec d -> nc_obj (n_call qj d ni ne s x0 u0) = Some ev -> k_obj (ncfg_run d ni ne h) = Some f ->
       affine_at d (obj_at d f (k_out (ncfg_run d ni ne h))) (x_traj d (ncfg_run d ni ne h) x0 (dvar z)) (u_traj d (ncfg_run d ni ne h) (dvar z)) (dvar z (v_slack d)) gX gU ge ->
       ev z = Ok (v, g) -> forall r, r < n_dec d -> slope (fun t => cost_of d (ncfg_run d ni ne h) x0 f (bump (dvar z) r t)) (nth r g s0)).
Proof.
  intros H. destruct C25_instance as (_ & _ & (ev & Ev) & Hf & Ha & _).
  assert (G : gm n_x0 (d_nx nd) 1) by (repeat split).
  destruct (C25_gradient_of_affine_cost qj nd 2 1 false _ _ n_x0 n_u0 n_z ev n_Ja g3 (unit2 2 0) s0 nd_ch nd_ph a_reached G a_scaled n_z_len Ev Hf (Ha _ _ _)) as (v & g & E & _ & D).
  specialize (H nd 2 1 _ _ n_x0 n_u0 n_z ev n_Ja g3 (unit2 2 0) s0 v g nd_ch nd_ph a_reached G a_scaled n_z_len Ev Hf (Ha _ _ _) E 0 ltac:(cbn; lia)).
  specialize (D 0 ltac:(cbn; lia)). change (0 <? d_ph nd * d_nx nd) with true in D. cbv iota in D. change (0 mod d_nx nd) with 0 in D.
  pose proof (slope_unique _ _ _ H D) as K.
  assert (Ee : ev = eval_obj qj nd (nS nd 2 1 a_ops) n_x0) by (destruct (call_obj qj nd 2 1 _ _ n_x0 (nreached_NR qj nd 2 1 false nd_ch nd_ph _ _ a_reached) n_u0 ev Ev); assumption).
  assert (V : match eval_obj qj nd (nS nd 2 1 a_ops) n_x0 n_z with Ok (_, g) => sleb (q 4) (nth 0 g (q 0)) | UB => true end = false) by (vm_compute; reflexivity).
  assert (V' : match eval_obj qj nd (nS nd 2 1 a_ops) n_x0 n_z with Ok (_, g) => sleb (q 4) (k_sx (ncfg_run nd 2 1 (nH nd 2 1 a_ops)) 0%nat * nth 0%nat g (q 0))%S | UB => false end = true) by (vm_compute; reflexivity).
  rewrite <- Ee, E in V, V'. change (q 0) with (s0 : Qc) in V, V'. rewrite <- K, V in V'. discriminate V'.
Qed.

Lemma ieq_of_h h f : nreached qj nd 2 1 false (nS nd 2 1 h) (nH nd 2 1 h) -> n_ieq (nS nd 2 1 h) = Some f -> k_ieq (ncfg_run nd 2 1 (nH nd 2 1 h)) = Some f.
Proof. intros R E. now rewrite <- (nr_ieq nd _ _ (nreached_NR qj nd 2 1 false nd_ch nd_ph _ _ R)). Qed.
Lemma eqc_of_h h f : nreached qj nd 2 1 false (nS nd 2 1 h) (nH nd 2 1 h) -> n_eqc (nS nd 2 1 h) = Some f -> k_eqc (ncfg_run nd 2 1 (nH nd 2 1 h)) = Some f.
Proof. intros R E. now rewrite <- (nr_eqc nd _ _ (nreached_NR qj nd 2 1 false nd_ch nd_ph _ _ R)). Qed.
Lemma dyn_of_h h f : nreached qj nd 2 1 false (nS nd 2 1 h) (nH nd 2 1 h) -> n_dyn (nS nd 2 1 h) = Some f -> k_dyn (ncfg_run nd 2 1 (nH nd 2 1 h)) = Some f.
Proof. intros R E. now rewrite <- (nr_dyn nd _ _ (nreached_NR qj nd 2 1 false nd_ch nd_ph _ _ R)). Qed.
Lemma ci0_grad og X U e : has_grad nd (ieq_at nd n_ci og 0) X U e (fun a b => if (a =? 2) && (b =? 0) then U 1 0 else s0) (fun a b => if (a =? 1) && (b =? 0) then X 2 0 else s0) s0.
Proof.
  exists (fun dX dU _ => (dX 2%nat 0%nat * dU 1%nat 0%nat)%S). split.
  - intros dX dU de. unfold ieq_at, n_ci, at2, tab, dot2, nd. cbn -[q sadd smul ssub sopp s0 s1 sdiv]. change (q 0) with (s0 : Qc). ring.
  - intros. ring.
Qed.
Lemma ci1_grad og X U e : has_grad nd (ieq_at nd n_ci og 1) X U e (fun _ _ => s0) (unit2 3 0) (sopp s1).
Proof.
  exists (fun _ _ _ => s0). split.
  - intros dX dU de. unfold ieq_at, n_ci, at2, tab, dot2, nd, unit2. cbn -[q sadd smul ssub sopp s0 s1 sdiv]. change (q 0) with (s0 : Qc). ring.
  - intros. ring.
Qed.
Lemma ce_grad X U e : has_grad nd (fun X U _ => eqc_at nd n_ce 0 X U) X U e (unit2 3 0) (fun a b => if (a =? 2) && (b =? 0) then sopp s1 else s0) s0.
Proof.
  exists (fun _ _ _ => s0). split.
  - intros dX dU de. unfold eqc_at, n_ce, at2, tab, dot2, nd, unit2. cbn -[q sadd smul ssub sopp s0 s1 sdiv]. change (q 0) with (s0 : Qc). ring.
  - intros. ring.
Qed.
Lemma nf_linear : linear_plant nd n_f (fun l b => if (l =? 0) || (b =? 1) then s1 else s0) (fun l b => if l =? 1 then s1 else s0).
Proof. intros x u k l Hl. unfold n_f. destruct l as [|[|l]]; [| |cbn in Hl; lia]; cbn -[q sadd smul ssub sopp s0 s1 sdiv]; change (q 0) with (s0 : Qc); ring. Qed.
Example C26_C27_C28_instance :
  (exists tol ev, In (KIneq, tol, ev) (nc_cons (n_call qj nd 2 1 (nS nd 2 1 n_ops) n_x0 n_u0))) /\ k_ieq n_c = Some n_ci /\
  (exists tol ev, In (KEq, tol, ev) (nc_cons (n_call qj nd 2 1 (nS nd 2 1 n_ops) n_x0 n_u0))) /\ k_eqc n_c = Some n_ce /\
  (exists tol ev, In (KDyn, tol, ev) (nc_cons (n_call qj nd 2 1 (nS nd 2 1 n_ops) n_x0 n_u0))) /\ k_dyn n_c = Some n_f /\
  (forall X U e, has_grad nd (ieq_at nd n_ci (k_out n_c) 0) X U e (fun a b => if (a =? 2) && (b =? 0) then U 1 0 else s0) (fun a b => if (a =? 1) && (b =? 0) then X 2 0 else s0) s0) /\
  (forall X U e, has_grad nd (fun X U _ => eqc_at nd n_ce 0 X U) X U e (unit2 3 0) (fun a b => if (a =? 2) && (b =? 0) then sopp s1 else s0) s0) /\
  linear_plant nd n_f (fun l b => if (l =? 0) || (b =? 1) then s1 else s0) (fun l b => if l =? 1 then s1 else s0).
Proof.
  refine (conj _ (conj _ (conj _ (conj _ (conj _ (conj _ (conj _ (conj _ nf_linear)))))))).
  - apply has_con. vm_compute. reflexivity.
  - apply (ieq_of_h _ _ n_ops_reached). reflexivity.
  - apply has_con. vm_compute. reflexivity.
  - apply (eqc_of_h _ _ n_ops_reached). reflexivity.
  - apply has_con. vm_compute. reflexivity.
  - apply (dyn_of_h _ _ n_ops_reached). reflexivity.
  - intros. apply ci0_grad.
  - intros. apply ce_grad.
Qed.
(** C26 as intended *)
Theorem C26_intended_refuted :
  ~ (forall d ni ne s h x0 u0 z tol ev f k gX gU ge v g, 0 < d_ch d -> d_ch d <= d_ph d -> nreached qj d ni ne false s h -> gm x0 (d_nx d) 1 ->
       scaled d (ncfg_run d ni ne h) -> length z = n_dec d -> In (KIneq, tol, ev) (nc_cons (n_call qj d ni ne s x0 u0)) -> k_ieq (ncfg_run d ni ne h) = Some f -> k < ni ->
       has_grad d (ieq_at d f (k_out (ncfg_run d ni ne h)) k) (x_traj d (ncfg_run d ni ne h) x0 (dvar z)) (u_traj d (ncfg_run d ni ne h) (dvar z)) (dvar z (v_slack d)) gX gU ge ->
       ev z = Ok (v, g) -> forall r, r < n_dec d -> slope (fun t => ieq_of d (ncfg_run d ni ne h) x0 f k (bump (dvar z) r t)) (nth (k * n_dec d + r) g s0)).
Proof.
  intros H. destruct C26_C27_C28_instance as ((tol & ev & I) & Hf & _).
  assert (G : gm n_x0 (d_nx nd) 1) by (repeat split). assert (K : 1 < 2) by lia.
  destruct (C26_inequality_jacobian qj nd 2 1 false _ _ n_x0 n_u0 n_z tol ev n_ci 1 _ _ _ nd_ch nd_ph n_ops_reached G n_c_scaled n_z_len I Hf K (ci1_grad _ _ _ _)) as (v & g & E & D).
  specialize (H nd 2 1 _ _ n_x0 n_u0 n_z tol ev n_ci 1 _ _ _ v g nd_ch nd_ph n_ops_reached G n_c_scaled n_z_len I Hf K (ci1_grad _ _ _ _) E 7 ltac:(cbn; lia)).
  specialize (D 7 ltac:(cbn; lia)). pose proof (slope_unique _ _ _ H D) as Q.
  change ((v_input nd (d_ch nd - 1) 0 <=? 7) && (7 <? v_slack nd)) with true in Q. cbv iota in Q.
  change (7 - v_input nd (d_ch nd - 1) 0) with 0 in Q. change (unit2 3 0 (d_ph nd) 0) with (s1 : Qc) in Q.
  assert (Z : (k_su (ncfg_run nd 2 1 (nH nd 2 1 n_ops)) 0%nat * s1)%S = s0).
  { transitivity ((nth (1 * n_dec nd + 7)%nat g s0 + k_su (ncfg_run nd 2 1 (nH nd 2 1 n_ops)) 0%nat * s1) - nth (1 * n_dec nd + 7)%nat g s0)%S; [ring|]. rewrite <- Q. ring. }
  apply (f_equal (fun x => sleb x s0)) in Z. vm_compute in Z. discriminate Z.
Qed.
