(** From the closed forms of the finite-difference gradients to derivatives of the composite functions of the decision vector. *)
From Coq Require Import Bool Arith List Lia Ring Field BinPos.
From Verif Require Import Scalar Sums Mat Builder BuilderEnt NLMap NLTraj NLFun SpecNL NLLoop NLGrad NLEval.
Import ListNotations.

Section Slope.
  Context {F : Type} {SO : ScalarOps F} {SL : ScalarLaws F}.
  Variable d : dims.
  Notation nx := (d_nx d). Notation nu := (d_nu d). Notation ny := (d_ny d).
  Notation ph := (d_ph d). Notation ch := (d_ch d).
  Add Field SFs : s_field.
  Implicit Types x u : nat -> nat -> F.

  (** *** scalars *)
  Lemma spos_pos p : (s0 < (spos p : F))%S.
  Proof.
    assert (L2 : (s0 < (s2 : F))%S) by (unfold s2; apply slt_add_l_nonneg; [apply s01|apply s01_lt]).
    induction p as [p IH|p IH|]; cbn [spos].
    - replace (s1 + s2 * spos p)%S with (s2 * spos p + s1)%S by ring. apply slt_add_l_nonneg; [|apply s01_lt].
      apply smul_nonneg; apply slt_le; assumption.
    - apply slt_iff. split; [apply smul_nonneg; apply slt_le; assumption|]. intros E. symmetry in E.
      destruct (smul_integral _ _ E) as [A|A]; [now apply s2_neq_0|]. rewrite A in IH. apply slt_neq in IH. now apply IH.
    - apply s01_lt.
  Qed.
  Lemma spos_neq p : spos p <> s0 :> F.
  Proof. intros E. pose proof (spos_pos p) as H. apply slt_neq in H. congruence. Qed.
  Lemma sdec_neq a b : sdec a b <> s0 :> F.
  Proof. unfold sdec. intros E. apply (spos_neq a). transitivity (spos a / spos b * spos b)%S; [field; apply spos_neq|rewrite E; ring]. Qed.
  Lemma smax_pos a b : (s0 < b)%S -> (s0 < (smax a b : F))%S.
  Proof.
    intros H. unfold smax. destruct (sltb a b) eqn:E; [exact H|]. apply slt_le_trans with b; [exact H|].
    unfold sle. rewrite s_lt_le in E. now apply negb_false_iff in E.
  Qed.
  Lemma smax_neq a b : (s0 < b)%S -> smax a b <> s0 :> F.
  Proof. intros H E. pose proof (smax_pos a b H) as Q. apply slt_neq in Q. congruence. Qed.
  Lemma smax_neq_l a b : (s0 < a)%S -> (s0 <= b)%S -> smax a b <> s0 :> F.
  Proof.
    intros H Hb E. unfold smax in E. destruct (sltb a b) eqn:L.
    - assert (Q : (s0 < b)%S) by (apply sle_lt_trans with a; [now apply slt_le|exact L]). apply slt_neq in Q. congruence.
    - apply slt_neq in H. congruence.
  Qed.
  Lemma sabs_nonneg (v : F) : (s0 <= sabs v)%S.
  Proof.
    unfold sabs. destruct (sleb s0 v) eqn:E; [exact E|]. destruct (sle_total s0 v) as [A|A]; [unfold sle in A; congruence|].
    apply sle_opp in A. now replace (- s0)%S with (s0 : F) in A by ring.
  Qed.
  Lemma smul_neq (a b : F) : a <> s0 -> b <> s0 -> (a * b)%S <> s0.
  Proof. intros A B E. destruct (smul_integral _ _ E); auto. Qed.
  Lemma sdec_pos a b : (s0 < (sdec a b : F))%S.
  Proof.
    apply slt_nle. intros H. unfold sdec in H. pose proof (smul_le_l (spos b) _ _ (slt_le _ _ (spos_pos b)) H) as Q.
    replace (spos b * (spos a / spos b))%S with (spos a : F) in Q by (field; apply spos_neq).
    replace (spos b * s0)%S with (s0 : F) in Q by ring. pose proof (spos_pos a) as P. apply slt_nle in P. now apply P.
  Qed.
  Lemma lstep_neq n (X : nat -> nat -> F) j : lstep n X j <> s0.
  Proof. apply smax_neq, s01_lt. Qed.
  Lemma obj_step_neq n X j : (dv_obj * lstep n X j)%S <> s0 :> F.
  Proof. apply smul_neq; [apply sdec_neq|apply lstep_neq]. Qed.
  Lemma con_step_neq n X j : (dv_con * lstep n X j)%S <> s0 :> F.
  Proof. apply smul_neq; [apply sdec_neq|apply lstep_neq]. Qed.
  Lemma con_step_neq1 v : (dv_con * smax (sabs v) s1)%S <> s0 :> F.
  Proof. apply smul_neq; [apply sdec_neq|apply smax_neq, s01_lt]. Qed.
  Lemma con_slack_neq v : (smax dv_con (sabs v) * dv_con)%S <> s0 :> F.
  Proof. apply smul_neq; [|apply sdec_neq]. apply smax_neq_l; [apply sdec_pos|apply sabs_nonneg]. Qed.
  Lemma obj_slack_neq v : (smax (sdec 1%positive 1000000%positive) (sabs v) * dv_obj)%S <> s0 :> F.
  Proof. apply smul_neq; [|apply sdec_neq]. apply smax_neq_l; [apply sdec_pos|apply sabs_nonneg]. Qed.

  Lemma slope_unique (g : F -> F) D1 D2 : slope g D1 -> slope g D2 -> D1 = D2.
  Proof.
    intros [C1 H1] [C2 H2]. pose proof (H1 s1) as A. pose proof (H1 (- s1)%S) as B. rewrite (H2 s1) in A. rewrite (H2 (- s1)%S) in B.
    assert (E : (s2 * (D1 - D2))%S = s0).
    { transitivity (((g s0 + s1 * D1 + s1 * s1 * C1) - (g s0 + (- s1) * D1 + (- s1) * (- s1) * C1)) - ((g s0 + s1 * D2 + s1 * s1 * C2) - (g s0 + (- s1) * D2 + (- s1) * (- s1) * C2)))%S.
      - unfold s2. ring.
      - rewrite <- A, <- B. ring. }
    destruct (smul_integral _ _ E) as [A1|A1]; [now destruct (s2_neq_0 A1)|].
    transitivity ((D1 - D2) + D2)%S; [ring|]. rewrite A1. ring.
  Qed.
  Lemma slope_ext (g h : F -> F) D : (forall t, g t = h t) -> slope g D -> slope h D.
  Proof. intros E [C H]. exists C. intros t. rewrite <- !E. apply H. Qed.
  (** central difference of a polynomial of degree at most two *)
  Lemma ctr_quad p D C t : t <> s0 -> ctr (p + t * D + t * t * C)%S (p + (- t) * D + (- t) * (- t) * C)%S t = D :> F.
  Proof. intros Ht. pose proof (s2_neq_0 (F := F)) as N. unfold ctr, s2 in *. field. split; assumption. Qed.
  Lemma fwd_quad p D C t : t <> s0 -> fwd (p + t * D + t * t * C)%S p t = (D + t * C)%S :> F.
  Proof. intros Ht. unfold fwd. field. exact Ht. Qed.

  (** *** positions *)
  Lemma var_cases r : r < n_dec d -> 0 < ch ->
    (exists i j, i < ph /\ j < nx /\ r = i * nx + j) \/ (exists b j, b < ch /\ j < nu /\ r = ph * nx + (b * nu + j)) \/ r = ph * nx + nu * ch.
  Proof.
    unfold n_dec. intros H C0. destruct (Nat.lt_ge_cases r (ph * nx)) as [A|A].
    - left. assert (nx <> 0) by (intros E; rewrite E in A; lia). exists (r / nx), (r mod nx). split; [|split].
      + apply Nat.div_lt_upper_bound; [assumption|lia].
      + now apply Nat.mod_upper_bound.
      + rewrite (Nat.div_mod r nx) at 1 by assumption. lia.
    - right. destruct (Nat.lt_ge_cases r (ph * nx + nu * ch)) as [B|B]; [left|right; lia].
      assert (nu <> 0) by (intros E; rewrite E in B; lia). exists ((r - ph * nx) / nu), ((r - ph * nx) mod nu). split; [|split].
      + apply Nat.div_lt_upper_bound; [assumption|lia].
      + now apply Nat.mod_upper_bound.
      + rewrite (Nat.mul_comm _ nu), <- (Nat.div_mod (r - ph * nx) nu) by assumption. lia.
  Qed.
  Section Pos.
    Variables (su sx xi z : nat -> F).
    Hypothesis C0 : 0 < ch.
    Lemma st_bump_state i j t a b : i < ph -> j < nx -> a < ph + 1 -> b < nx ->
      st_traj d sx xi (bump z (i * nx + j) t) a b = pert (st_traj d sx xi z) (i + 1) j (sx j * t)%S a b.
    Proof.
      intros Hi Hj Ha Hb. unfold pert, st_traj, bump, v_state. destruct (Nat.eqb_spec a 0) as [->|N].
      - destruct (Nat.eqb_spec 0 (i + 1)); [lia|]. reflexivity.
      - rewrite (blk_pos_eq (a - 1) i b j nx Hb Hj). destruct (Nat.eqb_spec (a - 1) i), (Nat.eqb_spec a (i + 1)); try lia; cbn [andb]; [|reflexivity].
        destruct (Nat.eqb_spec b j); [subst; ring|reflexivity].
    Qed.
    Lemma in_bump_state i j t a b : i < ph -> j < nx -> a < ph + 1 -> b < nu ->
      in_traj d su (bump z (i * nx + j) t) a b = in_traj d su z a b.
    Proof.
      intros Hi Hj Ha Hb. unfold in_traj, bump, v_input. pose proof (blk_lt i ph nx j Hi Hj).
      destruct (Nat.eqb_spec (ph * nx + (held d a * nu + b)) (i * nx + j)); [lia|reflexivity].
    Qed.
    Lemma sl_bump_state i j t : i < ph -> j < nx -> bump z (i * nx + j) t (v_slack d) = z (v_slack d).
    Proof. intros Hi Hj. unfold bump, v_slack. pose proof (blk_lt i ph nx j Hi Hj). destruct (Nat.eqb_spec (ph * nx + nu * ch) (i * nx + j)); [lia|reflexivity]. Qed.
    Lemma st_bump_high k t a b : ph * nx <= k -> a < ph + 1 -> b < nx -> st_traj d sx xi (bump z k t) a b = st_traj d sx xi z a b.
    Proof.
      intros Hk Ha Hb. unfold st_traj, bump, v_state. destruct (Nat.eqb_spec a 0) as [->|N]; [reflexivity|].
      pose proof (blk_lt (a - 1) ph nx b ltac:(lia) Hb). destruct (Nat.eqb_spec ((a - 1) * nx + b) k); [lia|reflexivity].
    Qed.
    Lemma in_bump_input b j t a c : b < ch -> j < nu -> c < nu ->
      in_traj d su (bump z (ph * nx + (b * nu + j)) t) a c = if (held d a =? b) && (c =? j) then (in_traj d su z a c + su j * t)%S else in_traj d su z a c.
    Proof.
      intros Hb Hj Hc. unfold in_traj, bump, v_input.
      assert (E : (ph * nx + (held d a * nu + c) =? ph * nx + (b * nu + j)) = (held d a =? b) && (c =? j)).
      { rewrite <- (blk_pos_eq (held d a) b c j nu Hc Hj). destruct (Nat.eqb_spec (ph * nx + (held d a * nu + c)) (ph * nx + (b * nu + j))), (Nat.eqb_spec (held d a * nu + c) (b * nu + j)); lia || reflexivity. }
      rewrite E. destruct (Nat.eqb_spec (held d a) b), (Nat.eqb_spec c j); cbn [andb]; try reflexivity. subst. ring.
    Qed.
    Lemma sl_bump_input b j t : b < ch -> j < nu -> bump z (ph * nx + (b * nu + j)) t (v_slack d) = z (v_slack d).
    Proof. intros Hi Hj. unfold bump, v_slack. pose proof (blk_lt b ch nu j Hi Hj). destruct (Nat.eqb_spec (ph * nx + nu * ch) (ph * nx + (b * nu + j))); [lia|reflexivity]. Qed.
    Lemma in_bump_slack t a c : c < nu -> in_traj d su (bump z (ph * nx + nu * ch) t) a c = in_traj d su z a c.
    Proof.
      intros Hc. unfold in_traj, bump, v_input. assert (held d a < ch) by (unfold held; lia). pose proof (blk_lt (held d a) ch nu c ltac:(assumption) Hc).
      destruct (Nat.eqb_spec (ph * nx + (held d a * nu + c)) (ph * nx + nu * ch)); [lia|reflexivity].
    Qed.
    Lemma sl_bump_slack t : bump z (ph * nx + nu * ch) t (v_slack d) = (z (v_slack d) + t)%S.
    Proof. unfold bump, v_slack. now rewrite Nat.eqb_refl. Qed.
  End Pos.

  (** *** functions of the trajectories *)
  Section Psi.
    Variable psi : (nat -> nat -> F) -> (nat -> nat -> F) -> F -> F.
    Hypothesis Hext : forall x u y v e, (forall i j, i < ph + 1 -> j < nx -> x i j = y i j) -> (forall i j, i < ph + 1 -> j < nu -> u i j = v i j) ->
      psi x u e = psi y v e.
    Lemma dot2_scale n k (G D : nat -> nat -> F) t : dot2 n k G (fun a b => (t * D a b)%S) = (t * dot2 n k G D)%S.
    Proof.
      unfold dot2. rewrite <- ssum_mul_l. apply ssum_ext. intros a _. rewrite <- ssum_mul_l. apply ssum_ext. intros b _. ring.
    Qed.
    Lemma dot2_zero n k (G : nat -> nat -> F) : dot2 n k G (fun _ _ => s0) = s0.
    Proof. unfold dot2. apply ssum_zero. intros a _. apply ssum_zero. intros b _. ring. Qed.
    Lemma dot2_unit n k (G : nat -> nat -> F) a b : a < n -> b < k -> dot2 n k G (unit2 a b) = G a b.
    Proof.
      intros Ha Hb. unfold dot2, unit2. rewrite (ssum_single n a) by (first [exact Ha | intros i Hi Ni; apply ssum_zero; intros j _; destruct (Nat.eqb_spec i a); [lia|]; cbn [andb]; ring]).
      rewrite (ssum_single k b) by (first [exact Hb | intros i Hi Ni; destruct (Nat.eqb_spec i b); [lia|]; rewrite andb_false_r; ring]).
      rewrite !Nat.eqb_refl. cbn [andb]. ring.
    Qed.
    Lemma dot2_col n k (G : nat -> nat -> F) j (c : nat -> bool) : j < k ->
      dot2 n k G (fun a b => if c a && (b =? j) then s1 else s0) = ssum n (fun a => if c a then G a j else s0).
    Proof.
      intros Hj. unfold dot2. apply ssum_ext. intros a _. destruct (c a); cbn [andb].
      - rewrite (ssum_single k j) by (first [exact Hj | intros i Hi Ni; destruct (Nat.eqb_spec i j); [lia|ring]]). rewrite Nat.eqb_refl. ring.
      - apply ssum_zero. intros b _. ring.
    Qed.

    Variables (x u : nat -> nat -> F) (e : F) (gX gU : nat -> nat -> F) (ge : F).
    Variable Q : (nat -> nat -> F) -> (nat -> nat -> F) -> F -> F.
    Hypothesis HQ : forall dX dU de, psi (fun a b => (x a b + dX a b)%S) (fun a b => (u a b + dU a b)%S) (e + de)%S =
        (psi x u e + (dot2 (ph + 1) nx gX dX + dot2 (ph + 1) nu gU dU + ge * de) + Q dX dU de)%S.
    Hypothesis HQ2 : forall t dX dU de, Q (fun a b => (t * dX a b)%S) (fun a b => (t * dU a b)%S) (t * de)%S = (t * t * Q dX dU de)%S.

    Lemma psi_line dX dU de t : psi (fun a b => (x a b + t * dX a b)%S) (fun a b => (u a b + t * dU a b)%S) (e + t * de)%S =
      (psi x u e + t * (dot2 (ph + 1) nx gX dX + dot2 (ph + 1) nu gU dU + ge * de) + t * t * Q dX dU de)%S.
    Proof.
      rewrite (HQ (fun a b => (t * dX a b)%S) (fun a b => (t * dU a b)%S) (t * de)%S), HQ2, !dot2_scale. ring.
    Qed.
    Notation z0 := (fun _ _ : nat => (s0 : F)).
    Lemma psi_pertX a b t : a < ph + 1 -> b < nx -> psi (pert x a b t) u e = (psi x u e + t * gX a b + t * t * Q (unit2 a b) z0 s0)%S.
    Proof.
      intros Ha Hb. pose proof (psi_line (unit2 a b) z0 s0 t) as H. rewrite dot2_unit, dot2_zero in H by assumption.
      replace (e + t * s0)%S with e in H by ring. transitivity (psi x u e + t * (gX a b + s0 + ge * s0) + t * t * Q (unit2 a b) z0 s0)%S; [|ring].
      rewrite <- H. apply Hext.
      - intros i j _ _. unfold pert, unit2. destruct ((i =? a) && (j =? b)); ring.
      - intros i j _ _. ring.
    Qed.
    Lemma psi_colU (c : nat -> bool) (v : nat -> nat -> F) j t : j < nu ->
      (forall a b, a < ph + 1 -> b < nu -> v a b = if c a && (b =? j) then (u a b + t)%S else u a b) ->
      psi x v e = (psi x u e + t * ssum (ph + 1) (fun a => if c a then gU a j else s0) + t * t * Q z0 (fun a b => if c a && (b =? j) then s1 else s0) s0)%S.
    Proof.
      intros Hj Hv. set (D := fun a b : nat => if c a && (b =? j) then s1 else s0 : F).
      pose proof (psi_line z0 D s0 t) as H. unfold D in H at 2. rewrite dot2_col, dot2_zero in H by assumption.
      replace (e + t * s0)%S with e in H by ring.
      transitivity (psi x u e + t * (s0 + ssum (ph + 1) (fun a => if c a then gU a j else s0) + ge * s0) + t * t * Q z0 D s0)%S; [|ring].
      rewrite <- H. apply Hext.
      - intros i k _ _. ring.
      - intros i k Hi Hk. rewrite Hv by assumption. unfold D. destruct (c i && (k =? j)); ring.
    Qed.
    Lemma psi_e t : psi x u (e + t)%S = (psi x u e + t * ge + t * t * Q z0 z0 s1)%S.
    Proof.
      pose proof (psi_line z0 z0 s1 t) as H. rewrite !dot2_zero in H.
      transitivity (psi x u e + t * (s0 + s0 + ge * s1) + t * t * Q z0 z0 s1)%S; [|ring]. rewrite <- H.
      replace (t * s1)%S with t by ring. apply Hext; intros; ring.
    Qed.
  End Psi.

  (** *** derivatives of the composite function of the decision vector *)
  Section Comp.
    Variable psi : (nat -> nat -> F) -> (nat -> nat -> F) -> F -> F.
    Hypothesis Hext : forall x u y v e, (forall i j, i < ph + 1 -> j < nx -> x i j = y i j) -> (forall i j, i < ph + 1 -> j < nu -> u i j = v i j) ->
      psi x u e = psi y v e.
    Variables (su sx xi z : nat -> F).
    Variables (gX gU : nat -> nat -> F) (ge : F).
    Hypothesis C0 : 0 < ch.
    Hypothesis C : ch <= ph.
    Definition comp (y : nat -> F) : F := psi (st_traj d sx xi y) (in_traj d su y) (y (v_slack d)).
    (** every function: moving one decision variable moves one entry (state), the entries of one block (input), the slack *)
    Lemma comp_state i j t : i < ph -> j < nx ->
      comp (bump z (i * nx + j) t) = psi (pert (st_traj d sx xi z) (i + 1) j (sx j * t)%S) (in_traj d su z) (z (v_slack d)).
    Proof.
      intros Hi Hj. unfold comp. rewrite sl_bump_state by assumption. apply Hext.
      - intros a b Ha Hb. now apply st_bump_state.
      - intros a b Ha Hb. now apply in_bump_state.
    Qed.
    Lemma comp_slack t : comp (bump z (ph * nx + nu * ch) t) = psi (st_traj d sx xi z) (in_traj d su z) (z (v_slack d) + t)%S.
    Proof.
      unfold comp. rewrite sl_bump_slack. apply Hext.
      - intros a b Ha Hb. apply st_bump_high; try assumption. lia.
      - intros a b Ha Hb. now apply in_bump_slack.
    Qed.
    Lemma comp_input b j t : b < ch -> j < nu -> comp (bump z (ph * nx + (b * nu + j)) t) =
      psi (st_traj d sx xi z) (fun a c => if (held d a =? b) && (c =? j) then (in_traj d su z a c + su j * t)%S else in_traj d su z a c) (z (v_slack d)).
    Proof.
      intros Hb Hj. unfold comp. rewrite sl_bump_input by assumption. apply Hext.
      - intros a c Ha Hc. apply st_bump_high; try assumption. lia.
      - intros a c Ha Hc. now apply in_bump_input.
    Qed.
    (** a block that acts at one step only *)
    Lemma comp_input_inner b j t : b < ch - 1 -> j < nu -> comp (bump z (ph * nx + (b * nu + j)) t) =
      psi (st_traj d sx xi z) (pert (in_traj d su z) b j (su j * t)%S) (z (v_slack d)).
    Proof.
      intros Hb Hj. rewrite comp_input by lia. apply Hext; [reflexivity|]. intros a c Ha Hc. unfold pert, held.
      destruct (Nat.eqb_spec (Nat.min a (ch - 1)) b), (Nat.eqb_spec a b); try lia; reflexivity.
    Qed.

    Hypothesis HG : has_grad d psi (st_traj d sx xi z) (in_traj d su z) (z (v_slack d)) gX gU ge.
    Lemma slope_state i j : i < ph -> j < nx -> slope (fun t => comp (bump z (i * nx + j) t)) (sx j * gX (i + 1) j)%S.
    Proof.
      intros Hi Hj. destruct HG as (Q & H1 & H2).
      exists (sx j * sx j * Q (unit2 (i + 1) j) (fun _ _ => s0) s0)%S. intros t. rewrite !comp_state by assumption.
      rewrite !(psi_pertX psi Hext _ _ _ gX gU ge Q H1 H2) by lia. ring.
    Qed.
    Lemma slope_slack : slope (fun t => comp (bump z (ph * nx + nu * ch) t)) ge.
    Proof.
      destruct HG as (Q & H1 & H2). exists (Q (fun _ _ => s0) (fun _ _ => s0) s1). intros t. rewrite !comp_slack.
      rewrite !(psi_e psi Hext _ _ _ gX gU ge Q H1 H2). ring.
    Qed.
    Lemma slope_input b j : b < ch -> j < nu ->
      slope (fun t => comp (bump z (ph * nx + (b * nu + j)) t)) (su j * ssum (ph + 1) (fun a => if held d a =? b then gU a j else s0))%S.
    Proof.
      intros Hb Hj. destruct HG as (Q & H1 & H2).
      exists (su j * su j * Q (fun _ _ => s0) (fun a c => if (held d a =? b) && (c =? j) then s1 else s0) s0)%S. intros t. rewrite !comp_input by assumption.
      rewrite !(fun t => psi_colU psi Hext _ _ _ gX gU ge Q H1 H2 (fun a => held d a =? b)
        (fun a c => if (held d a =? b) && (c =? j) then (in_traj d su z a c + su j * t)%S else in_traj d su z a c) j (su j * t)%S Hj (fun _ _ _ _ => eq_refl)). ring.
    Qed.
    (** sum over the block, with and without the extra row ph *)
    Lemma block_sum b (f : nat -> F) : b < ch -> ssum (ph + 1) (fun a => if held d a =? b then f a else s0) =
      (over_block d b f + (if b =? ch - 1 then f ph else s0))%S.
    Proof.
      intros Hb. rewrite Nat.add_1_r. cbn [ssum]. unfold over_block. f_equal. unfold held.
      destruct (Nat.eqb_spec (Nat.min ph (ch - 1)) b), (Nat.eqb_spec b (ch - 1)); try lia; reflexivity.
    Qed.
    (** central differences *)
    Lemma ctr_state i j t : i < ph -> j < nx -> t <> s0 ->
      ctr (psi (pert (st_traj d sx xi z) (i + 1) j t) (in_traj d su z) (z (v_slack d)))
          (psi (pert (st_traj d sx xi z) (i + 1) j (- t)%S) (in_traj d su z) (z (v_slack d))) t = gX (i + 1) j.
    Proof.
      intros Hi Hj Ht. destruct HG as (Q & H1 & H2). rewrite !(psi_pertX psi Hext _ _ _ gX gU ge Q H1 H2) by lia. now apply ctr_quad.
    Qed.
    Lemma pertU_col (v : nat -> nat -> F) a j t i k : pert v a j t i k = if (i =? a) && (k =? j) then (v i k + t)%S else v i k.
    Proof. reflexivity. Qed.
    Lemma sum_one (g : nat -> F) n a : a < n -> ssum n (fun i => if i =? a then g i else s0) = g a.
    Proof. intros Ha. rewrite (ssum_single n a) by (first [exact Ha | intros i _ N; destruct (Nat.eqb_spec i a); [lia|reflexivity]]). now rewrite Nat.eqb_refl. Qed.
    Lemma ctr_input a j t : a < ph -> j < nu -> t <> s0 ->
      ctr (psi (st_traj d sx xi z) (pert (in_traj d su z) a j t) (z (v_slack d)))
          (psi (st_traj d sx xi z) (pert (in_traj d su z) a j (- t)%S) (z (v_slack d))) t = gU a j.
    Proof.
      intros Ha Hj Ht. destruct HG as (Q & H1 & H2).
      rewrite !(fun t => psi_colU psi Hext _ _ _ gX gU ge Q H1 H2 (fun i => i =? a) (pert (in_traj d su z) a j t) j t Hj (fun i k _ _ => pertU_col _ a j t i k)).
      rewrite (sum_one (fun i => gU i j)) by lia. now apply ctr_quad.
    Qed.
    Lemma pert_last_col (v : nat -> nat -> F) j t i k : 0 < ph -> pert_last d v j t i k = if ((i =? ph - 1) || (i =? ph)) && (k =? j) then (v i k + t)%S else v i k.
    Proof.
      intros P. unfold pert_last, pert. destruct (Nat.eqb_spec i (ph - 1)), (Nat.eqb_spec i ph), (Nat.eqb_spec k j); cbn [andb orb]; try lia; reflexivity.
    Qed.
    Lemma sum_two (g : nat -> F) : 0 < ph -> ssum (ph + 1) (fun i => if (i =? ph - 1) || (i =? ph) then g i else s0) = (g (ph - 1)%nat + g ph)%S.
    Proof.
      intros P. rewrite Nat.add_1_r. cbn [ssum]. rewrite Nat.eqb_refl, orb_true_r. f_equal.
      rewrite (ssum_single ph (ph - 1)); [now rewrite Nat.eqb_refl|lia|]. intros i Hi N. destruct (Nat.eqb_spec i (ph - 1)), (Nat.eqb_spec i ph); try lia; reflexivity.
    Qed.
    Lemma ctr_last j t : 0 < ph -> j < nu -> t <> s0 ->
      ctr (psi (st_traj d sx xi z) (pert_last d (in_traj d su z) j t) (z (v_slack d)))
          (psi (st_traj d sx xi z) (pert_last d (in_traj d su z) j (- t)%S) (z (v_slack d))) t = (gU (ph - 1)%nat j + gU ph j)%S.
    Proof.
      intros P Hj Ht. destruct HG as (Q & H1 & H2).
      rewrite !(fun t => psi_colU psi Hext _ _ _ gX gU ge Q H1 H2 (fun i => (i =? ph - 1) || (i =? ph)) (pert_last d (in_traj d su z) j t) j t Hj (fun i k _ _ => pert_last_col _ j t i k P)).
      rewrite (sum_two (fun i => gU i j)) by exact P. now apply ctr_quad.
    Qed.
    Lemma ctr_slack t : t <> s0 ->
      ctr (psi (st_traj d sx xi z) (in_traj d su z) (z (v_slack d) + t)%S) (psi (st_traj d sx xi z) (in_traj d su z) (z (v_slack d) - t)%S) t = ge.
    Proof.
      intros Ht. destruct HG as (Q & H1 & H2). replace (z (v_slack d) - t)%S with (z (v_slack d) + (- t))%S by ring.
      rewrite !(psi_e psi Hext _ _ _ gX gU ge Q H1 H2). now apply ctr_quad.
    Qed.
    (** all steps of a block, rows ph-1 and ph together *)
    Lemma over_block_last b (g : nat -> F) (w : F) : b < ch ->
      over_block d b (fun a => if a =? ph - 1 then (g a + w)%S else g a) = (over_block d b g + (if b =? ch - 1 then w else s0))%S.
    Proof.
      intros Hb. unfold over_block. destruct ph as [|p] eqn:E; [lia|]. cbn [ssum]. replace (S p - 1) with p by lia. rewrite Nat.eqb_refl.
      rewrite (ssum_ext p _ (fun a => if held d a =? b then g a else s0)).
      2:{ intros a Ha. destruct (Nat.eqb_spec a p); [lia|reflexivity]. }
      assert (Hh : (held d p =? b) = (b =? ch - 1)).
      { unfold held. destruct (Nat.eqb_spec (Nat.min p (ch - 1)) b), (Nat.eqb_spec b (ch - 1)); lia || reflexivity. }
      rewrite Hh. destruct (b =? ch - 1); ring.
    Qed.
    Lemma over_block_ext b (f g : nat -> F) : (forall a, a < ph -> f a = g a) -> over_block d b f = over_block d b g.
    Proof. intros H. unfold over_block. apply ssum_ext. intros a Ha. now rewrite H. Qed.
    Lemma over_block_inner b (f : nat -> F) : b < ch - 1 -> over_block d b f = f b.
    Proof.
      intros Hb. unfold over_block. rewrite (ssum_single ph b).
      - unfold held. now rewrite Nat.min_l, Nat.eqb_refl by lia.
      - lia.
      - intros a Ha N. unfold held. destruct (Nat.eqb_spec (Nat.min a (ch - 1)) b); [lia|reflexivity].
    Qed.
  End Comp.
End Slope.
