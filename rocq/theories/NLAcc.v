(** Accuracy of the finite-difference gradients for functions with a second-order remainder. *)
From Coq Require Import Bool Arith List Lia Ring Field BinPos.
From Verif Require Import Scalar Sums Mat Builder BuilderEnt NLMap NLTraj NLFun SpecNL NLLoop NLGrad NLEval NLSlope NLSlope2.
Import ListNotations.

Section Acc.
  Context {F : Type} {SO : ScalarOps F} {SL : ScalarLaws F}.
  Variable junk : nat -> nat -> F.
  Variable d : dims.
  Notation nx := (d_nx d). Notation nu := (d_nu d). Notation ny := (d_ny d).
  Notation ph := (d_ph d). Notation ch := (d_ch d).
  Add Field SFacc : s_field.

  Section Near.
    Variable psi : (nat -> nat -> F) -> (nat -> nat -> F) -> F -> F.
    Hypothesis Hext : forall x u y v e, (forall i j, i < ph + 1 -> j < nx -> x i j = y i j) -> (forall i j, i < ph + 1 -> j < nu -> u i j = v i j) ->
      psi x u e = psi y v e.
    Variables (x u : nat -> nat -> F) (e : F) (gX gU : nat -> nat -> F) (ge K rho : F).
    Hypothesis HN : near_grad d psi x u e gX gU ge K rho.
    Notation z0 := (fun _ _ : nat => (s0 : F)).
    Lemma sabs_0 : sabs s0 = s0 :> F.
    Proof. apply sabs_pos, sle_refl. Qed.
    Lemma small_le t (c : bool) v : (s0 <= t)%S -> sabs v = t -> (sabs (if c then v else s0) <= t)%S.
    Proof. intros H E. destruct c; [rewrite E; apply sle_refl|rewrite sabs_0; exact H]. Qed.

    Lemma near_X a b t v : a < ph + 1 -> b < nx -> (s0 <= t)%S -> (t <= rho)%S -> sabs v = t ->
      (sabs (psi (pert x a b v) u e - (psi x u e + v * gX a b)) <= K * (t * t))%S.
    Proof.
      intros Ha Hb H0 H1 Hv. destruct HN as [_ H].
      specialize (H t (fun i j => if (i =? a) && (j =? b) then v else s0) z0 s0 H0 H1). 
      assert (Q : small t (fun i j => if (i =? a) && (j =? b) then v else s0) z0 s0).
      { split; [|split].
        - intros i j. now apply small_le.
        - intros. rewrite sabs_0. exact H0.
        - rewrite sabs_0. exact H0. }
      specialize (H Q). match goal with |- (sabs ?A <= _)%S => match type of H with (sabs ?B <= _)%S => replace A with B; [exact H|] end end.
      f_equal.
      - replace (e + s0)%S with e by ring. apply Hext.
        + intros i j _ _. unfold pert. destruct ((i =? a) && (j =? b)); ring.
        + intros i j _ _. ring.
      - rewrite dot2_zero. replace (dot2 (ph + 1) nx gX (fun i j => if (i =? a) && (j =? b) then v else s0)) with (v * gX a b)%S; [ring|].
        rewrite <- (dot2_unit (ph + 1) nx gX a b Ha Hb), <- dot2_scale. unfold dot2, unit2. apply ssum_ext. intros i _. apply ssum_ext. intros j _.
        destruct ((i =? a) && (j =? b)); ring.
    Qed.
    Lemma near_U (c : nat -> bool) w j t v : j < nu -> (s0 <= t)%S -> (t <= rho)%S -> sabs v = t ->
      (forall a b, a < ph + 1 -> b < nu -> w a b = if c a && (b =? j) then (u a b + v)%S else u a b) ->
      (sabs (psi x w e - (psi x u e + v * ssum (ph + 1) (fun a => if c a then gU a j else s0))) <= K * (t * t))%S.
    Proof.
      intros Hj H0 H1 Hv Hw. destruct HN as [_ H].
      specialize (H t z0 (fun a b => if c a && (b =? j) then v else s0) s0 H0 H1). 
      assert (Q : small t z0 (fun a b => if c a && (b =? j) then v else s0) s0).
      { split; [|split].
        - intros. rewrite sabs_0. exact H0.
        - intros i k. now apply small_le.
        - rewrite sabs_0. exact H0. }
      specialize (H Q). match goal with |- (sabs ?A <= _)%S => match type of H with (sabs ?B <= _)%S => replace A with B; [exact H|] end end.
      f_equal.
      - replace (e + s0)%S with e by ring. apply Hext.
        + intros i k _ _. ring.
        + intros i k Hi Hk. rewrite Hw by assumption. destruct (c i && (k =? j)); ring.
      - rewrite dot2_zero. replace (dot2 (ph + 1) nu gU (fun a b => if c a && (b =? j) then v else s0)) with (v * ssum (ph + 1) (fun a => if c a then gU a j else s0))%S; [ring|].
        rewrite <- (dot2_col (ph + 1) nu gU j c Hj), <- dot2_scale. unfold dot2. apply ssum_ext. intros i _. apply ssum_ext. intros k _.
        destruct (c i && (k =? j)); ring.
    Qed.
    Lemma near_e t v : (s0 <= t)%S -> (t <= rho)%S -> sabs v = t -> (sabs (psi x u (e + v)%S - (psi x u e + v * ge)) <= K * (t * t))%S.
    Proof.
      intros H0 H1 Hv. destruct HN as [_ H]. specialize (H t z0 z0 v H0 H1).
      assert (Q : small t z0 z0 v).
      { split; [|split].
        - intros. rewrite sabs_0. exact H0.
        - intros. rewrite sabs_0. exact H0.
        - rewrite Hv. apply sle_refl. }
      specialize (H Q). match goal with |- (sabs ?A <= _)%S => match type of H with (sabs ?B <= _)%S => replace A with B; [exact H|] end end.
      rewrite !dot2_zero. f_equal; [apply Hext; intros; ring|ring].
    Qed.

    Lemma fwd_acc v p g t : (s0 < t)%S -> (sabs (v - (p + t * g)) <= K * (t * t))%S -> (sabs (fwd v p t - g) <= K * t)%S.
    Proof.
      intros Ht H. replace (fwd v p t - g)%S with ((v - (p + t * g)) / t)%S; [now apply rem_div|]. unfold fwd. field. apply slt_neq in Ht. congruence.
    Qed.
    Lemma ctr_acc v w p g t : (s0 < t)%S -> (sabs (v - (p + t * g)) <= K * (t * t))%S -> (sabs (w - (p + - t * g)) <= K * (t * t))%S -> (sabs (ctr v w t - g) <= K * t)%S.
    Proof.
      intros Ht H1 H2. replace (ctr v w t - g)%S with (((v - (p + t * g)) - (w - (p + - t * g))) / (s2 * t))%S; [now apply rem_div2|].
      pose proof (s2_neq_0 (F := F)) as N. unfold ctr, s2 in *. field. split; [apply slt_neq in Ht; congruence|exact N].
    Qed.
    Lemma sabs_neg t : (s0 < t)%S -> sabs (- t)%S = t :> F.
    Proof. intros H. rewrite sabs_opp. apply sabs_pos. now apply slt_le. Qed.
    Lemma sabs_ps t : (s0 < t)%S -> sabs t = t :> F.
    Proof. intros H. apply sabs_pos. now apply slt_le. Qed.

    Lemma accX_ctr a b t : a < ph + 1 -> b < nx -> (s0 < t)%S -> (t <= rho)%S ->
      (sabs (ctr (psi (pert x a b t) u e) (psi (pert x a b (- t)%S) u e) t - gX a b) <= K * t)%S.
    Proof. intros Ha Hb Ht Hr. apply ctr_acc with (psi x u e); [exact Ht| |]; (apply near_X; try assumption; [now apply slt_le|]); [now apply sabs_ps|now apply sabs_neg]. Qed.
    Lemma accX_fwd a b t : a < ph + 1 -> b < nx -> (s0 < t)%S -> (t <= rho)%S ->
      (sabs (fwd (psi (pert x a b t) u e) (psi x u e) t - gX a b) <= K * t)%S.
    Proof. intros Ha Hb Ht Hr. apply fwd_acc; [exact Ht|]. apply near_X; try assumption; [now apply slt_le|now apply sabs_ps]. Qed.
    Lemma sum_one' (g : nat -> F) a : a < ph + 1 -> ssum (ph + 1) (fun i => if i =? a then g i else s0) = g a.
    Proof. intros Ha. rewrite (ssum_single (ph + 1) a); [now rewrite Nat.eqb_refl|exact Ha|]. intros i _ N. destruct (Nat.eqb_spec i a); [lia|reflexivity]. Qed.
    Lemma near_U1 a j t v : a < ph + 1 -> j < nu -> (s0 <= t)%S -> (t <= rho)%S -> sabs v = t ->
      (sabs (psi x (pert u a j v) e - (psi x u e + v * gU a j)) <= K * (t * t))%S.
    Proof.
      intros Ha Hj H0 H1 Hv. pose proof (near_U (fun i => i =? a) (pert u a j v) j t v Hj H0 H1 Hv (fun _ _ _ _ => eq_refl)) as H.
      cbv beta in H. now rewrite (sum_one' (fun i => gU i j)) in H by exact Ha.
    Qed.
    Lemma pl_col j t i k : 0 < ph -> pert_last d u j t i k = if ((i =? ph - 1) || (i =? ph)) && (k =? j) then (u i k + t)%S else u i k.
    Proof.
      intros P. unfold pert_last, pert. destruct (Nat.eqb_spec i (ph - 1)), (Nat.eqb_spec i ph), (Nat.eqb_spec k j); cbn [andb orb]; try lia; reflexivity.
    Qed.
    Lemma near_U2 j t v : 0 < ph -> j < nu -> (s0 <= t)%S -> (t <= rho)%S -> sabs v = t ->
      (sabs (psi x (pert_last d u j v) e - (psi x u e + v * (gU (ph - 1)%nat j + gU ph j))) <= K * (t * t))%S.
    Proof.
      intros P Hj H0 H1 Hv. pose proof (near_U (fun i => (i =? ph - 1) || (i =? ph)) (pert_last d u j v) j t v Hj H0 H1 Hv) as H.
      specialize (H (fun i k _ _ => pl_col j v i k P)).
      cbv beta in H. rewrite Nat.add_1_r in H. cbn [ssum] in H. rewrite Nat.eqb_refl, orb_true_r in H.
      rewrite (ssum_single ph (ph - 1)) in H; [now rewrite Nat.eqb_refl in H|lia|]. intros i Hi N. destruct (Nat.eqb_spec i (ph - 1)), (Nat.eqb_spec i ph); try lia; reflexivity.
    Qed.
    Definition prow (joint : bool) (a j : nat) (v : F) : nat -> nat -> F := if joint && (a =? ph - 1) then pert_last d u j v else pert u a j v.
    Definition grow (joint : bool) (a j : nat) : F := if joint && (a =? ph - 1) then (gU a j + gU ph j)%S else gU a j.
    Lemma near_row joint a j t v : a < ph -> j < nu -> (s0 <= t)%S -> (t <= rho)%S -> sabs v = t ->
      (sabs (psi x (prow joint a j v) e - (psi x u e + v * grow joint a j)) <= K * (t * t))%S.
    Proof.
      intros Ha Hj H0 H1 Hv. unfold prow, grow. destruct joint; cbn [andb]; [destruct (Nat.eqb_spec a (ph - 1)) as [->|]|]; [apply near_U2|apply near_U1|apply near_U1]; try assumption; lia.
    Qed.
    Lemma accU_ctr joint a j t : a < ph -> j < nu -> (s0 < t)%S -> (t <= rho)%S ->
      (sabs (ctr (psi x (prow joint a j t) e) (psi x (prow joint a j (- t)%S) e) t - grow joint a j) <= K * t)%S.
    Proof. intros Ha Hj Ht Hr. apply ctr_acc with (psi x u e); [exact Ht| |]; (apply near_row; try assumption; [now apply slt_le|]); [now apply sabs_ps|now apply sabs_neg]. Qed.
    Lemma accU_fwd joint a j t : a < ph -> j < nu -> (s0 < t)%S -> (t <= rho)%S ->
      (sabs (fwd (psi x (prow joint a j t) e) (psi x u e) t - grow joint a j) <= K * t)%S.
    Proof. intros Ha Hj Ht Hr. apply fwd_acc; [exact Ht|]. apply near_row; try assumption; [now apply slt_le|now apply sabs_ps]. Qed.
    Lemma acce_ctr t : (s0 < t)%S -> (t <= rho)%S -> (sabs (ctr (psi x u (e + t)%S) (psi x u (e - t)%S) t - ge) <= K * t)%S.
    Proof.
      intros Ht Hr. replace (e - t)%S with (e + - t)%S by ring. apply ctr_acc with (psi x u e); [exact Ht| |]; (apply near_e; try assumption; [now apply slt_le|]); [now apply sabs_ps|now apply sabs_neg].
    Qed.
    (** a block of rows *)
    Lemma acc_block b (f g : nat -> F) B : (s0 <= B)%S -> (forall a, a < ph -> (sabs (f a - g a) <= B)%S) ->
      (sabs (over_block d b f - over_block d b g) <= snat ph * B)%S.
    Proof.
      intros H0 H. unfold over_block. rewrite <- ssum_sub. apply sabs_sum. intros a Ha. destruct (held d a =? b); [now apply H|].
      replace (s0 - s0)%S with (s0 : F) by ring. now rewrite sabs_0.
    Qed.
    Lemma acc_scale (s A D B : F) : (sabs (A - D) <= B)%S -> (sabs (s * A - s * D) <= sabs s * B)%S.
    Proof. intros H. replace (s * A - s * D)%S with (s * (A - D))%S by ring. rewrite sabs_mul. apply smul_le_l; [apply sabs_nonneg|exact H]. Qed.
    Lemma grow_block b j : 0 < ch -> ch <= ph -> b < ch ->
      over_block d b (fun a => grow true a j) = ssum (ph + 1) (fun a => if held d a =? b then gU a j else s0).
    Proof.
      intros C0 C Hb. rewrite (block_sum d C0 C b (fun a => gU a j) Hb).
      rewrite <- (over_block_last d psi Hext C0 C b (fun a => gU a j) (gU ph j) Hb). apply over_block_ext. intros a Ha. reflexivity.
    Qed.
  End Near.

  Lemma smul_pos (a b : F) : (s0 < a)%S -> (s0 < b)%S -> (s0 < a * b)%S.
  Proof.
    intros A B. apply slt_iff. split; [apply smul_nonneg; now apply slt_le|]. intros E. symmetry in E. apply slt_neq in A, B.
    destruct (smul_integral _ _ E); congruence.
  Qed.
  Lemma obj_step_pos n X j : (s0 < (dv_obj * lstep n X j : F))%S.
  Proof. apply smul_pos; [apply sdec_pos|apply smax_pos, s01_lt]. Qed.
  Lemma con_step_pos n X j : (s0 < (dv_con * lstep n X j : F))%S.
  Proof. apply smul_pos; [apply sdec_pos|apply smax_pos, s01_lt]. Qed.
  Lemma con_step_pos1 v : (s0 < (dv_con * smax (sabs v) s1 : F))%S.
  Proof. apply smul_pos; [apply sdec_pos|apply smax_pos, s01_lt]. Qed.
  Lemma smax_pos_l a b : (s0 < a)%S -> (s0 < (smax a b : F))%S.
  Proof. intros H. unfold smax. destruct (sltb a b) eqn:E; [|exact H]. apply sle_lt_trans with a; [now apply slt_le|exact E]. Qed.
  Lemma con_slack_pos v : (s0 < (smax dv_con (sabs v) * dv_con : F))%S.
  Proof. apply smul_pos; [apply smax_pos_l|]; apply sdec_pos. Qed.
  Lemma obj_slack_pos v : (s0 < (smax (sdec 1%positive 1000000%positive) (sabs v) * dv_obj : F))%S.
  Proof. apply smul_pos; [apply smax_pos_l|]; apply sdec_pos. Qed.

  Variables (m : mapping F) (su sx xi z : nat -> F) (x x0 : mat F).
  Hypothesis HM : map_is d m su sx.
  Hypothesis P : 0 < ph.
  Hypothesis C0 : 0 < ch.
  Hypothesis C : ch <= ph.
  Hypothesis HX : gm x (n_dec d) 1.
  Hypothesis HX0 : gm x0 nx 1.
  Hypothesis HZ : forall k, k < n_dec d -> ent x k 0 = z k.
  Hypothesis Sx0 : forall j, j < nx -> sx j <> s0.
  Hypothesis Hxi : forall j, j < nx -> xi j = (sx j * ent x0 j 0)%S.
  Notation Xt := (st_traj d sx xi z). Notation Ut := (in_traj d su z). Notation et := (z (v_slack d)).

  Lemma obj_acc f og gX gU ge K rho : near_grad d (obj_at d f og) Xt Ut et gX gU ge K rho ->
    let g := snd (obj_evaluate junk d m f og x0 x) in
    (forall i j t, i < ph -> j < nx -> t = (dv_obj * lstep (ph + 1) Xt j)%S -> (t <= rho)%S -> (sabs (ent g (i * nx + j) 0 - gX (i + 1)%nat j) <= K * t)%S) /\
    (forall b j t, b < ch -> j < nu -> t = (dv_obj * lstep (ph + 1) Ut j)%S -> (t <= rho)%S ->
      (sabs (ent g (ph * nx + (b * nu + j)) 0 - su j * ssum (ph + 1) (fun a => if (held d a =? b)%nat then gU a j else s0)) <= sabs (su j) * (snat ph * (K * t)))%S) /\
    (forall t, t = (smax (sdec 1%positive 1000000%positive) (sabs et) * dv_obj)%S -> (t <= rho)%S -> (sabs (ent g (v_slack d) 0 - ge) <= K * t)%S).
  Proof.
    intros HN. pose proof (obj_evaluate_ent junk d m su sx HM P C0 C x x0 z xi HX HX0 HZ Sx0 Hxi f og) as H.
    destruct (obj_evaluate junk d m f og x0 x) as [v g]. destruct H as (-> & _ & ES & EU & EE). cbn [snd].
    assert (Hext : forall x u y v e, (forall i j, i < ph + 1 -> j < nx -> x i j = y i j) -> (forall i j, i < ph + 1 -> j < nu -> u i j = v i j) -> obj_at d f og x u e = obj_at d f og y v e).
    { intros. now apply obj_at_ext. }
    split; [|split].
    - intros i j t Hi Hj Et Hr. rewrite ES by assumption. cbn zeta. rewrite <- Et.
      apply (accX_fwd _ Hext _ _ _ _ _ _ _ _ HN); try assumption; [lia|rewrite Et; apply obj_step_pos].
    - intros b j t Hb Hj Et Hr. rewrite EU by assumption. cbn zeta. rewrite <- Et. rewrite <- (grow_block _ Hext gU b j C0 C Hb). apply acc_scale, acc_block.
      + apply smul_nonneg; [apply HN|rewrite Et; apply slt_le, obj_step_pos].
      + intros a Ha. apply (accU_fwd _ Hext _ _ _ _ _ _ _ _ HN true a j t); try assumption. rewrite Et; apply obj_step_pos.
    - intros t Et Hr. unfold v_slack at 1. rewrite EE. cbn zeta. rewrite <- Et. apply (acce_ctr _ Hext _ _ _ _ _ _ _ _ HN); [rewrite Et; apply obj_slack_pos|exact Hr].
  Qed.
  Lemma ieq_acc ni c og k gX gU ge K rho : k < ni -> near_grad d (ieq_at d c og k) Xt Ut et gX gU ge K rho ->
    let g := snd (ieq_evaluate junk d ni m c og x0 x) in
    (forall i j t, i < ph -> j < nx -> t = (dv_con * lstep (ph + 1) Xt j)%S -> (t <= rho)%S -> (sabs (ent g (k * n_dec d + (i * nx + j)) 0 - sx j * gX (i + 1)%nat j) <= sabs (sx j) * (K * t))%S) /\
    (forall b j t, b < ch -> j < nu -> t = (dv_con * lstep (ph + 1) Ut j)%S -> (t <= rho)%S ->
      (sabs (ent g (k * n_dec d + (ph * nx + (b * nu + j))) 0 - su j * over_block d b (fun a => gU a j)) <= sabs (su j) * (snat ph * (K * t)))%S) /\
    (forall t, t = (smax dv_con (sabs et) * dv_con)%S -> (t <= rho)%S -> (sabs (ent g (k * n_dec d + v_slack d) 0 - ge) <= K * t)%S).
  Proof.
    intros Hk HN. pose proof (ieq_evaluate_ent junk d ni m su sx HM P C0 C x x0 z xi HX HX0 HZ Sx0 Hxi c og) as H.
    destruct (ieq_evaluate junk d ni m c og x0 x) as [v g]. destruct H as (_ & _ & _ & ES & EU & EE). cbn [snd].
    assert (Hext : forall x u y v e, (forall i j, i < ph + 1 -> j < nx -> x i j = y i j) -> (forall i j, i < ph + 1 -> j < nu -> u i j = v i j) -> ieq_at d c og k x u e = ieq_at d c og k y v e).
    { intros. now apply ieq_at_ext. }
    split; [|split].
    - intros i j t Hi Hj Et Hr. rewrite ES by assumption. cbn zeta. rewrite <- Et.
      match goal with |- (sabs (?A * ?s - _) <= _)%S => replace (A * s)%S with (s * A)%S by ring end. apply acc_scale.
      apply (accX_ctr _ Hext _ _ _ _ _ _ _ _ HN); try assumption; [lia|rewrite Et; apply con_step_pos].
    - intros b j t Hb Hj Et Hr. rewrite EU by assumption. cbn zeta. rewrite <- Et. apply acc_scale, acc_block.
      + apply smul_nonneg; [apply HN|rewrite Et; apply slt_le, con_step_pos].
      + intros a Ha. apply (accU_ctr _ Hext _ _ _ _ _ _ _ _ HN false a j t); try assumption. rewrite Et; apply con_step_pos.
    - intros t Et Hr. unfold v_slack at 1. rewrite EE by exact Hk. cbn zeta. rewrite <- Et. apply (acce_ctr _ Hext _ _ _ _ _ _ _ _ HN); [rewrite Et; apply con_slack_pos|exact Hr].
  Qed.
  Lemma eqc_acc ne c k gX gU ge K rho : k < ne -> near_grad d (fun X U _ => eqc_at d c k X U) Xt Ut et gX gU ge K rho ->
    let g := snd (eqc_evaluate junk d ne m c x0 x) in
    (forall i j t, i < ph -> j < nx -> t = (dv_con * smax (sabs (Xt (i + 1)%nat j)) s1)%S -> (t <= rho)%S -> (sabs (ent g (k * n_dec d + (i * nx + j)) 0 - sx j * gX (i + 1)%nat j) <= sabs (sx j) * (K * t))%S) /\
    (forall b j t, b < ch -> j < nu -> t = (dv_con * smax (sabs (Ut (ph - 1)%nat j)) s1)%S -> (t <= rho)%S ->
      (sabs (ent g (k * n_dec d + (ph * nx + (b * nu + j))) 0 - su j * ssum (ph + 1) (fun a => if (held d a =? b)%nat then gU a j else s0)) <= sabs (su j) * (snat ph * (K * t)))%S) /\
    ent g (k * n_dec d + v_slack d) 0 = s0.
  Proof.
    intros Hk HN. pose proof (eqc_evaluate_ent junk d ne m su sx HM P C0 C x x0 z xi HX HX0 HZ Sx0 Hxi c) as H.
    destruct (eqc_evaluate junk d ne m c x0 x) as [v g]. destruct H as (_ & _ & _ & ES & EU & EE). cbn [snd].
    set (psi := fun X U (_ : F) => eqc_at d c k X U) in *.
    assert (Hext : forall x u y v e, (forall i j, i < ph + 1 -> j < nx -> x i j = y i j) -> (forall i j, i < ph + 1 -> j < nu -> u i j = v i j) -> psi x u e = psi y v e).
    { intros. unfold psi. now apply eqc_at_ext. }
    split; [|split].
    - intros i j t Hi Hj Et Hr. rewrite ES by assumption. cbn zeta. rewrite <- Et.
      match goal with |- (sabs (?A * ?s - _) <= _)%S => replace (A * s)%S with (s * A)%S by ring end. apply acc_scale.
      apply (accX_ctr _ Hext _ _ _ _ _ _ _ _ HN); try assumption; [lia|rewrite Et; apply con_step_pos1].
    - intros b j t Hb Hj Et Hr. rewrite EU by assumption. cbn zeta. rewrite <- Et. rewrite <- (grow_block _ Hext gU b j C0 C Hb). apply acc_scale, acc_block.
      + apply smul_nonneg; [apply HN|rewrite Et; apply slt_le, con_step_pos1].
      + intros a Ha. apply (accU_ctr _ Hext _ _ _ _ _ _ _ _ HN true a j t); try assumption. rewrite Et; apply con_step_pos1.
    - unfold v_slack. now apply EE.
  Qed.
End Acc.
