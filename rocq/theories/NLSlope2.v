(** Gradients handed to the solver: exactness for functions of degree at most two, accuracy for functions with a second-order remainder. *)
From Coq Require Import Bool Arith List Lia Ring Field BinPos.
From Verif Require Import Scalar Sums Mat Builder BuilderEnt NLMap NLTraj NLFun SpecNL NLLoop NLGrad NLEval NLSlope.
Import ListNotations.

Section Abs.
  Context {F : Type} {SO : ScalarOps F} {SL : ScalarLaws F}.
  Add Field SFa : s_field.
  Local Open Scope S_scope.
  Lemma sabs_le (a b : F) : sabs a <= b <-> - b <= a /\ a <= b.
  Proof.
    unfold sabs. destruct (sleb s0 a) eqn:E.
    - split; [intros H|intros [_ H]; exact H]. split; [|exact H]. apply sle_trans with 0; [|exact E].
      replace 0 with (- 0 : F) by ring. apply sle_opp. now apply sle_trans with a.
    - assert (A : a <= 0). { destruct (sle_total a 0) as [A|A]; [exact A|]. unfold sle in A. congruence. }
      assert (A2 : 0 <= - a). { replace 0 with (- 0 : F) by ring. now apply sle_opp. }
      split.
      + intros H. split.
        * replace a with (- (- a)) by ring. now apply sle_opp.
        * apply sle_trans with 0; [exact A|]. now apply sle_trans with (- a).
      + intros [H _]. replace b with (- (- b)) by ring. now apply sle_opp.
  Qed.
  Lemma sabs_self (a : F) : - sabs a <= a /\ a <= sabs a.
  Proof. apply sabs_le, sle_refl. Qed.
  Lemma sabs_opp (a : F) : sabs (- a) = sabs a.
  Proof.
    apply sle_antisym; apply sabs_le; destruct (sabs_self a) as [H1 H2].
    - split; [now apply sle_opp|]. replace (sabs a) with (- (- sabs a)) by ring. now apply sle_opp.
    - destruct (sabs_self (- a)) as [H3 H4]. split.
      + apply sle_opp in H4. replace (- - a) with a in H4 by ring. exact H4.
      + apply sle_opp in H3. replace (- - a) with a in H3 by ring. replace (- - sabs (- a)) with (sabs (- a)) in H3 by ring. exact H3.
  Qed.
  Lemma sabs_add (a b : F) : sabs (a + b) <= sabs a + sabs b.
  Proof.
    destruct (sabs_self a), (sabs_self b). apply sabs_le. split.
    - replace (- (sabs a + sabs b)) with (- sabs a + - sabs b) by ring. now apply sle_add.
    - now apply sle_add.
  Qed.
  Lemma sabs_pos (a : F) : 0 <= a -> sabs a = a.
  Proof. intros H. unfold sabs. unfold sle in H. now rewrite H. Qed.
  Lemma sabs_mul (a b : F) : sabs (a * b) = sabs a * sabs b.
  Proof.
    assert (P : forall x y : F, 0 <= x -> sabs (x * y) = x * sabs y).
    { intros x y Hx. destruct (sle_total 0 y) as [Hy|Hy].
      - rewrite (sabs_pos y Hy). apply sabs_pos. now apply smul_nonneg.
      - assert (Q : 0 <= - y) by (replace 0 with (- 0 : F) by ring; now apply sle_opp).
        rewrite <- (sabs_opp y), <- (sabs_opp (x * y)). replace (- (x * y)) with (x * (- y)) by ring.
        rewrite (sabs_pos (- y) Q). apply sabs_pos. now apply smul_nonneg. }
    destruct (sle_total 0 a) as [Ha|Ha]; [rewrite (sabs_pos a Ha); now apply P|].
    assert (Q : 0 <= - a) by (replace 0 with (- 0 : F) by ring; now apply sle_opp).
    rewrite <- (sabs_opp a), <- (sabs_opp (a * b)). replace (- (a * b)) with ((- a) * b) by ring. rewrite (sabs_pos (- a) Q). now apply P.
  Qed.
  Lemma smul_le_cancel (t x y : F) : 0 < t -> t * x <= t * y -> x <= y.
  Proof.
    intros Ht H. destruct (sle_total x y) as [A|A]; [exact A|]. pose proof (smul_le_l t _ _ (slt_le _ _ Ht) A) as B.
    assert (E : t * (x - y) = 0) by (pose proof (sle_antisym _ _ H B) as E; replace (t * (x - y)) with (t * x - t * y) by ring; rewrite E; ring).
    destruct (smul_integral _ _ E) as [E1|E1]; [apply slt_neq in Ht; congruence|].
    replace x with (x - y + y) by ring. rewrite E1. replace (0 + y) with y by ring. apply sle_refl.
  Qed.
  (** a remainder bounded by K t^2, divided by t *)
  Lemma rem_div (r K t : F) : 0 < t -> sabs r <= K * (t * t) -> sabs (r / t) <= K * t.
  Proof.
    intros Ht H. assert (N : t <> 0) by (apply slt_neq in Ht; congruence). apply smul_le_cancel with t; [exact Ht|].
    replace (t * sabs (r / t)) with (sabs r); [|].
    - replace (t * (K * t)) with (K * (t * t)) by ring. exact H.
    - rewrite <- (sabs_pos t) at 1 by now apply slt_le. rewrite <- sabs_mul. f_equal. now field.
  Qed.
  Lemma rem_div2 (r s K t : F) : 0 < t -> sabs r <= K * (t * t) -> sabs s <= K * (t * t) -> sabs ((r - s) / (s2 * t)) <= K * t.
  Proof.
    intros Ht Hr Hs. assert (N : t <> 0) by (apply slt_neq in Ht; congruence). pose proof (s2_neq_0 (F := F)) as N2.
    assert (L2 : 0 < (s2 : F)) by (unfold s2; apply slt_add_l_nonneg; [apply s01|apply s01_lt]).
    apply smul_le_cancel with (s2 * t); [apply slt_iff; split; [apply smul_nonneg; now apply slt_le|]; intros E; symmetry in E; now apply (smul_neq s2 t)|].
    replace (s2 * t * sabs ((r - s) / (s2 * t))) with (sabs (r - s)).
    - replace (s2 * t * (K * t)) with (K * (t * t) + K * (t * t)) by (unfold s2; ring).
      replace (r - s) with (r + - s) by ring. apply sle_trans with (sabs r + sabs (- s)); [apply sabs_add|]. rewrite sabs_opp. now apply sle_add.
    - rewrite <- (sabs_pos (s2 * t)) at 1 by (apply smul_nonneg; now apply slt_le). rewrite <- sabs_mul. f_equal. field. split; assumption.
  Qed.
  Lemma sabs_sum n (f : nat -> F) B : (forall i, (i < n)%nat -> sabs (f i) <= B) -> sabs (ssum n f) <= snat n * B.
  Proof.
    induction n as [|n IH]; intros H; cbn [ssum snat].
    - rewrite sabs_pos by apply sle_refl. replace (0 * B) with (0 : F) by ring. apply sle_refl.
    - replace ((snat n + 1) * B) with (snat n * B + B) by ring. apply sle_trans with (sabs (ssum n f) + sabs (f n)); [apply sabs_add|].
      apply sle_add; [apply IH; intros; apply H; lia|apply H; lia].
  Qed.
End Abs.

(** *** exactness *)
Section Exact.
  Context {F : Type} {SO : ScalarOps F} {SL : ScalarLaws F}.
  Variable junk : nat -> nat -> F.
  Variable d : dims.
  Notation nx := (d_nx d). Notation nu := (d_nu d). Notation ny := (d_ny d).
  Notation ph := (d_ph d). Notation ch := (d_ch d).
  Add Field SFe : s_field.
  Variables (m : mapping F) (su sx xi z : nat -> F) (x x0 : mat F).
  Hypothesis HM : map_is d m su sx.
  Hypothesis P : 0 < ph.
  Hypothesis C0 : 0 < ch.
  Hypothesis C : ch <= ph.
  Hypothesis HX : gm x (n_dec d) 1.
  Hypothesis HX0 : gm x0 nx 1.
  Hypothesis HZ : forall k, k < n_dec d -> ent x k 0 = z k.
  Hypothesis Sx0 : forall j, j < nx -> sx j <> s0.
  Hypothesis Hxi : forall j, j < nx -> xi j = (sx j * ent x0 j 0)%S.
  Notation Xt := (st_traj d sx xi z). Notation Ut := (in_traj d su z). Notation et := (z (v_slack d)).

  Lemma ctr_same v t : t <> s0 -> ctr v v t = s0 :> F.
  Proof. intros Ht. unfold ctr. field. split; [exact Ht|apply s2_neq_0]. Qed.

  Lemma eqc_grad ne c k gX gU ge : k < ne -> has_grad d (fun X U _ => eqc_at d c k X U) Xt Ut et gX gU ge ->
    forall r, r < n_dec d -> slope (fun t => eqc_at d c k (st_traj d sx xi (bump z r t)) (in_traj d su (bump z r t)))
      (ent (snd (eqc_evaluate junk d ne m c x0 x)) (k * n_dec d + r) 0).
  Proof.
    intros Hk HG r Hr. pose proof (eqc_evaluate_ent junk d ne m su sx HM P C0 C x x0 z xi HX HX0 HZ Sx0 Hxi c) as H.
    destruct (eqc_evaluate junk d ne m c x0 x) as [v g]. destruct H as (_ & _ & _ & ES & EU & EE). cbn [snd].
    set (psi := fun X U (_ : F) => eqc_at d c k X U) in *.
    assert (Hext : forall x u y v e, (forall i j, i < ph + 1 -> j < nx -> x i j = y i j) -> (forall i j, i < ph + 1 -> j < nu -> u i j = v i j) -> psi x u e = psi y v e).
    { intros. unfold psi. now apply eqc_at_ext. }
    destruct (var_cases d r Hr C0) as [(i & j & Hi & Hj & ->)|[(b & j & Hb & Hj & ->)| -> ]].
    - rewrite ES by assumption. cbn zeta.
      pose proof (ctr_state d psi Hext su sx xi z gX gU ge C0 C HG i j _ Hi Hj (con_step_neq1 (Xt (i + 1)%nat j))) as E. unfold psi in E. rewrite E.
      replace (gX (i + 1)%nat j * sx j)%S with (sx j * gX (i + 1)%nat j)%S by ring.
      exact (slope_state d psi Hext su sx xi z gX gU ge C0 C HG i j Hi Hj).
    - rewrite EU by assumption.
      rewrite (over_block_ext d b _ (fun a => if a =? ph - 1 then (gU a j + gU ph j)%S else gU a j)).
      + rewrite (over_block_last d psi Hext C0 C b (fun a => gU a j) (gU ph j) Hb).
        pose proof (slope_input d psi Hext su sx xi z gX gU ge C0 C HG b j Hb Hj) as S1.
        rewrite (block_sum d C0 C b (fun a => gU a j) Hb) in S1. exact S1.
      + intros a Ha. cbn zeta. destruct (Nat.eqb_spec a (ph - 1)) as [->|N].
        * exact (ctr_last d psi Hext su sx xi z gX gU ge C0 C HG j _ P Hj (con_step_neq1 _)).
        * exact (ctr_input d psi Hext su sx xi z gX gU ge C0 C HG a j _ Ha Hj (con_step_neq1 _)).
    - rewrite EE by assumption. exists s0. intros t.
      pose proof (comp_slack d psi Hext su sx xi z C0 C) as E. unfold comp, psi in E. rewrite !E. ring.
  Qed.

  (** inequality constraints: the contribution of row ph of the inputs is missing from the last block *)
  Lemma ieq_grad ni c og k gX gU ge : k < ni -> has_grad d (ieq_at d c og k) Xt Ut et gX gU ge ->
    forall r, r < n_dec d -> slope (fun t => ieq_at d c og k (st_traj d sx xi (bump z r t)) (in_traj d su (bump z r t)) (bump z r t (v_slack d)))
      (ent (snd (ieq_evaluate junk d ni m c og x0 x)) (k * n_dec d + r) 0 +
       if ((v_input d (ch - 1) 0 <=? r) && (r <? v_slack d))%nat then su (r - v_input d (ch - 1) 0)%nat * gU ph (r - v_input d (ch - 1) 0)%nat else s0)%S.
  Proof.
    intros Hk HG r Hr. pose proof (ieq_evaluate_ent junk d ni m su sx HM P C0 C x x0 z xi HX HX0 HZ Sx0 Hxi c og) as H.
    destruct (ieq_evaluate junk d ni m c og x0 x) as [v g]. destruct H as (_ & _ & _ & ES & EU & EE). cbn [snd].
    set (psi := ieq_at d c og k) in *.
    assert (Hext : forall x u y v e, (forall i j, i < ph + 1 -> j < nx -> x i j = y i j) -> (forall i j, i < ph + 1 -> j < nu -> u i j = v i j) -> psi x u e = psi y v e).
    { intros. unfold psi. now apply ieq_at_ext. }
    destruct (var_cases d r Hr C0) as [(i & j & Hi & Hj & ->)|[(b & j & Hb & Hj & ->)| -> ]].
    - rewrite ES by assumption. cbn zeta. pose proof (blk_lt i ph nx j Hi Hj).
      destruct (Nat.leb_spec (v_input d (ch - 1) 0) (i * nx + j)) as [L|L]; [unfold v_input in L; remember ((ch - 1) * nu); lia|]. cbn [andb].
      rewrite (ctr_state d psi Hext su sx xi z gX gU ge C0 C HG i j _ Hi Hj (con_step_neq _ _ _)).
      replace (gX (i + 1)%nat j * sx j + s0)%S with (sx j * gX (i + 1)%nat j)%S by ring.
      exact (slope_state d psi Hext su sx xi z gX gU ge C0 C HG i j Hi Hj).
    - rewrite EU by assumption.
      rewrite (over_block_ext d b _ (fun a => gU a j)) by
        (intros a Ha; exact (ctr_input d psi Hext su sx xi z gX gU ge C0 C HG a j _ Ha Hj (con_step_neq _ _ _))).
      pose proof (slope_input d psi Hext su sx xi z gX gU ge C0 C HG b j Hb Hj) as S1.
      rewrite (block_sum d C0 C b (fun a => gU a j) Hb) in S1.
      match goal with |- slope _ ?D => match type of S1 with slope _ ?E => replace D with E; [exact S1|] end end.
      pose proof (blk_lt b ch nu j Hb Hj) as B1. unfold v_input, v_slack. destruct (Nat.eqb_spec b (ch - 1)) as [->|N].
      + destruct (Nat.leb_spec (ph * nx + ((ch - 1) * nu + 0)) (ph * nx + ((ch - 1) * nu + j))); [|lia].
        destruct (Nat.ltb_spec (ph * nx + ((ch - 1) * nu + j)) (ph * nx + nu * ch)); [|lia]. cbn [andb].
        replace (ph * nx + ((ch - 1) * nu + j) - (ph * nx + ((ch - 1) * nu + 0))) with j by lia. ring.
      + pose proof (blk_lt b (ch - 1) nu j ltac:(lia) Hj) as B2.
        destruct (Nat.leb_spec (ph * nx + ((ch - 1) * nu + 0)) (ph * nx + (b * nu + j))); [lia|]. cbn [andb]. ring.
    - rewrite EE by assumption. cbn zeta. destruct (Nat.ltb_spec (ph * nx + nu * ch) (v_slack d)) as [L|L]; [unfold v_slack in L; lia|].
      rewrite andb_false_r. rewrite (ctr_slack d psi Hext su sx xi z gX gU ge HG _ (con_slack_neq _)).
      replace (ge + s0)%S with ge by ring.
      exact (slope_slack d psi Hext su sx xi z gX gU ge C0 C HG).
  Qed.

  (** gradient of every function as difference quotients of the composite function *)
  Lemma sdiv_cancel (a t : F) : a <> s0 -> (a * (t / a))%S = t.
  Proof. intros Ha. now field. Qed.
  Lemma comp_state_pert psi (Hext : forall x u y v e, (forall i j, i < ph + 1 -> j < nx -> x i j = y i j) -> (forall i j, i < ph + 1 -> j < nu -> u i j = v i j) -> psi x u e = psi y v e)
    i j t : i < ph -> j < nx -> psi (pert Xt (i + 1) j t) Ut et = comp d psi su sx xi (bump z (i * nx + j) (t / sx j)%S).
  Proof.
    intros Hi Hj. rewrite (comp_state d psi Hext su sx xi z C0) by assumption. rewrite sdiv_cancel by now apply Sx0. reflexivity.
  Qed.

  Lemma obj_grad_state f og i j : i < ph -> j < nx ->
    let Phi y := obj_at d f og (st_traj d sx xi y) (in_traj d su y) (y (v_slack d)) in
    let h := (dv_obj * lstep (ph + 1) Xt j / sx j)%S in
    (sx j * ent (snd (obj_evaluate junk d m f og x0 x)) (i * nx + j) 0)%S = ((Phi (bump z (i * nx + j) h) - Phi z) / h)%S.
  Proof.
    intros Hi Hj. pose proof (obj_evaluate_ent junk d m su sx HM P C0 C x x0 z xi HX HX0 HZ Sx0 Hxi f og) as H.
    destruct (obj_evaluate junk d m f og x0 x) as [v g]. destruct H as (-> & _ & ES & _ & _). cbn [snd]. rewrite ES by assumption. cbn zeta.
    assert (Hext : forall x u y v e, (forall i j, i < ph + 1 -> j < nx -> x i j = y i j) -> (forall i j, i < ph + 1 -> j < nu -> u i j = v i j) -> obj_at d f og x u e = obj_at d f og y v e).
    { intros. now apply obj_at_ext. }
    rewrite (comp_state_pert (obj_at d f og) Hext i j _ Hi Hj). unfold comp, fwd.
    pose proof (obj_step_neq (ph + 1) Xt j) as N. pose proof (Sx0 j Hj). set (t := (dv_obj * lstep (ph + 1) Xt j)%S) in *. clearbody t. field. split; assumption.
  Qed.
  Lemma obj_grad_input f og b j : b < ch - 1 -> j < nu -> su j <> s0 ->
    let Phi y := obj_at d f og (st_traj d sx xi y) (in_traj d su y) (y (v_slack d)) in
    let h := (dv_obj * lstep (ph + 1) Ut j / su j)%S in
    ent (snd (obj_evaluate junk d m f og x0 x)) (ph * nx + (b * nu + j)) 0 = ((Phi (bump z (ph * nx + (b * nu + j)) h) - Phi z) / h)%S.
  Proof.
    intros Hb Hj Hs. pose proof (obj_evaluate_ent junk d m su sx HM P C0 C x x0 z xi HX HX0 HZ Sx0 Hxi f og) as H.
    destruct (obj_evaluate junk d m f og x0 x) as [v g]. destruct H as (-> & _ & _ & EU & _). cbn [snd]. rewrite EU by lia.
    assert (Hext : forall x u y v e, (forall i j, i < ph + 1 -> j < nx -> x i j = y i j) -> (forall i j, i < ph + 1 -> j < nu -> u i j = v i j) -> obj_at d f og x u e = obj_at d f og y v e).
    { intros. now apply obj_at_ext. }
    rewrite (over_block_inner d C0 C b _ Hb). cbn zeta. destruct (Nat.eqb_spec b (ph - 1)); [lia|].
    pose proof (comp_input_inner d (obj_at d f og) Hext su sx xi z C0 C b j (dv_obj * lstep (ph + 1) Ut j / su j)%S ltac:(lia) Hj) as E. unfold comp in E. rewrite E.
    rewrite sdiv_cancel by exact Hs. unfold fwd.
    pose proof (obj_step_neq (ph + 1) Ut j) as N. set (t := (dv_obj * lstep (ph + 1) Ut j)%S) in *. clearbody t. field. split; assumption.
  Qed.
  Lemma obj_grad_slack f og :
    let Phi y := obj_at d f og (st_traj d sx xi y) (in_traj d su y) (y (v_slack d)) in
    let h := (smax (sdec 1%positive 1000000%positive) (sabs et) * dv_obj)%S in
    ent (snd (obj_evaluate junk d m f og x0 x)) (v_slack d) 0 = ((Phi (bump z (v_slack d) h) - Phi (bump z (v_slack d) (- h)%S)) / (s2 * h))%S.
  Proof.
    pose proof (obj_evaluate_ent junk d m su sx HM P C0 C x x0 z xi HX HX0 HZ Sx0 Hxi f og) as H.
    destruct (obj_evaluate junk d m f og x0 x) as [v g]. destruct H as (-> & _ & _ & _ & EE). cbn [snd]. unfold v_slack at 1. rewrite EE. cbn zeta.
    assert (Hext : forall x u y v e, (forall i j, i < ph + 1 -> j < nx -> x i j = y i j) -> (forall i j, i < ph + 1 -> j < nu -> u i j = v i j) -> obj_at d f og x u e = obj_at d f og y v e).
    { intros. now apply obj_at_ext. }
    pose proof (comp_slack d (obj_at d f og) Hext su sx xi z C0 C) as E. unfold comp in E.
    fold (v_slack d) in E. rewrite !E. unfold ctr. do 3 f_equal. ring.
  Qed.
End Exact.
