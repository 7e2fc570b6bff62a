(** Property C94: bounds a plan does not touch do not matter for it (vocabulary: SpecSlack.v). *)
From Coq Require Import Bool Arith ZArith Lia QArith Qcanon Ring Field List.
From Verif Require Import Scalar Sums Mat Slice Csc CscProof Builder BuilderEnt LMPC SpecLMPC SpecQP LMPCRef LQP LRows LUniq LCert Wit PropLMPC1 PropLMPC2 PropLMPC3 PropLMPC4 PropLMPC5 SpecCert SpecMeta PropMeta PropConvex SpecTune PropTune SpecSlack.
Import ListNotations.
Local Open Scope nat_scope.

Section Small.
  Context {F : Type} {SO : ScalarOps F} {SL : ScalarLaws F}.
  Add Field SFsk0 : (@s_field F SO SL).
  (** P holds for all sufficiently small shares *)
  Definition small (P : F -> Prop) : Prop := exists t0 : F, (s0 < t0)%S /\ forall t : F, (s0 <= t)%S -> (t <= t0)%S -> P t.
  Lemma small_and P Q : small P -> small Q -> small (fun t => P t /\ Q t).
  Proof.
    intros (a & A & HA) (b & B & HB). destruct (sle_total a b) as [L|L].
    - exists a. split; [exact A|]. intros t T0 T. split; [now apply HA|]. apply HB; [exact T0|]. now apply (sle_trans _ a).
    - exists b. split; [exact B|]. intros t T0 T. split; [|now apply HB]. apply HA; [exact T0|]. now apply (sle_trans _ b).
  Qed.
  Lemma small_true (P : F -> Prop) : (forall t, (s0 <= t)%S -> (t <= s1)%S -> P t) -> small P.
  Proof. intros H. exists s1. split; [apply s01_lt|exact H]. Qed.
  Lemma small_imp (P Q : F -> Prop) : small P -> (forall t, P t -> Q t) -> small Q.
  Proof. intros (a & A & H) I. exists a. split; [exact A|]. auto. Qed.
  Lemma small_all n (P : nat -> F -> Prop) : (forall i, i < n -> small (P i)) -> small (fun t => forall i, i < n -> P i t).
  Proof.
    induction n as [|n IH]; intros H; [apply small_true; intros; lia|].
    apply (small_imp _ _ (small_and _ _ (IH (fun i Hi => H i (Nat.lt_lt_succ_r _ _ Hi))) (H n (Nat.lt_succ_diag_r n)))).
    intros t [A B] i Hi. destruct (Nat.eq_dec i n) as [->|N]; [exact B|]. apply A. lia.
  Qed.
  Lemma small_all2 n m (P : nat -> nat -> F -> Prop) : (forall i j, i <= n -> j < m -> small (P i j)) -> small (fun t => forall i j, i <= n -> j < m -> P i j t).
  Proof.
    intros H. apply (small_imp (fun t => forall i, i < S n -> forall j, j < m -> P i j t)).
    - apply (small_all (S n) (fun i t => forall j, j < m -> P i j t)). intros i Hi. apply (small_all m (P i)). intros j Hj. apply H; lia.
    - intros t A i j Hi Hj. apply A; lia.
  Qed.
  Lemma shares_of (t : F) : (s0 <= t)%S -> (t <= s1)%S -> shares (s1 - t)%S t.
  Proof. intros T0 T1. refine (conj (proj1 (sle_sub_0 _ _) T1) (conj T0 _)). ring. Qed.
  Lemma inv_pos (a : F) : (s0 < a)%S -> (s0 < s1 / a)%S.
  Proof.
    intros A. assert (N : a <> s0) by (intros E; apply (slt_neq _ _ A); now symmetry).
    apply slt_nle. intros L. pose proof (smul_le_l a _ _ (slt_le _ _ A) L) as M.
    replace (a * (s1 / a))%S with (s1 : F) in M by (field; exact N). replace (a * s0)%S with (s0 : F) in M by ring.
    pose proof (proj1 (slt_nle _ _) s01_lt) as Z. now apply Z.
  Qed.
  (** a small step from v towards w stays above b, if v is above b *)
  Lemma small_above (b v w : F) : (b < v)%S -> small (fun t => (b <= (s1 - t) * v + t * w)%S).
  Proof.
    intros L. destruct (sle_total b w) as [W|W].
    - apply small_true. intros t T0 T1. rewrite <- (mix_self (s1 - t)%S t b (shares_of t T0 T1)).
      apply mix_le; [now apply shares_of|now apply slt_le|exact W].
    - assert (D : (s0 < v - w)%S).
      { apply slt_nle. intros A. apply (proj1 (slt_nle _ _) L). apply (sle_trans _ w); [|exact W]. apply (proj2 (sle_sub_0 _ _)). replace (w - v)%S with (s0 - (v - w))%S by ring. now apply (proj1 (sle_sub_0 _ _)). }
      assert (E : (s0 < v - b)%S).
      { apply slt_nle. intros A. apply (proj1 (slt_nle _ _) L). apply (proj2 (sle_sub_0 _ _)). replace (b - v)%S with (s0 - (v - b))%S by ring. now apply (proj1 (sle_sub_0 _ _)). }
      assert (N : (v - w)%S <> s0) by (intros Z; apply (slt_neq _ _ D); now symmetry).
      exists ((v - b) * (s1 / (v - w)))%S. split.
      + pose proof (inv_pos _ D) as I. apply slt_iff. split; [apply smul_nonneg; now apply slt_le|]. intros Z. symmetry in Z. apply smul_integral in Z. destruct Z as [Z|Z]; [apply (slt_neq _ _ E)|apply (slt_neq _ _ I)]; now symmetry.
      + intros t T0 T. apply (proj2 (sle_sub_0 _ _)). replace ((s1 - t) * v + t * w - b)%S with ((v - w) * ((v - b) * (s1 / (v - w)) - t))%S by (field; exact N).
        apply smul_nonneg; [now apply slt_le|now apply (proj1 (sle_sub_0 _ _))].
  Qed.
  Lemma small_below (b v w : F) : (v < b)%S -> small (fun t => ((s1 - t) * v + t * w <= b)%S).
  Proof.
    intros L. apply (small_imp (fun t => (- b <= (s1 - t) * (- v) + t * (- w))%S)).
    - apply small_above. apply slt_nle. intros A. apply (proj1 (slt_nle _ _) L). apply sle_opp in A. replace (- - b)%S with b in A by ring. now replace (- - v)%S with v in A by ring.
    - intros t A. apply sle_opp in A. replace (- - b)%S with b in A by ring. now replace (- ((s1 - t) * (- v) + t * (- w)))%S with ((s1 - t) * v + t * w)%S in A by ring.
  Qed.
  Lemma small_within (lo hi lo' hi' : ext F) (v w : F) : free_to_move lo hi lo' hi' v -> within lo hi v -> within lo' hi' w -> small (fun t => within lo hi ((s1 - t) * v + t * w)%S).
  Proof.
    intros [A B] [V1 V2] [W1 W2]. apply small_and.
    - destruct A as [->|A].
      + destruct lo as [b| |]; cbn in *; [|contradiction|now apply small_true].
        apply small_true. intros t T0 T1. rewrite <- (mix_self (s1 - t)%S t b (shares_of t T0 T1)).
        apply mix_le; [now apply shares_of|exact V1|exact W1].
      + destruct lo as [b| |]; cbn in *; [now apply small_above|contradiction|now apply small_true].
    - destruct B as [->|B].
      + destruct hi as [b| |]; cbn in *; [|now apply small_true|contradiction].
        apply small_true. intros t T0 T1. rewrite <- (mix_self (s1 - t)%S t b (shares_of t T0 T1)).
        apply mix_le; [now apply shares_of|exact V2|exact W2].
      + destruct hi as [b| |]; cbn in *; [now apply small_below|now apply small_true|contradiction].
  Qed.
End Small.

Section Slack.
  Context {F : Type} {SO : ScalarOps F} {SL : ScalarLaws F}.
  Add Field SFsk : (@s_field F SO SL).
  Variables (junk : nat -> nat -> F) (ejunk : nat -> nat -> ext F) (d : dims).
  Notation nx := (d_nx d). Notation nu := (d_nu d). Notation ndu := (d_ndu d).
  Notation ny := (d_ny d). Notation ph := (d_ph d). Notation ch := (d_ch d).
  Notation reached := (SpecLMPC.reached junk ejunk d).
  Notation step := (l_step junk ejunk d).
  Implicit Types (s : lmpc F) (h : list (lop F * ret F)) (p : plant F) (z : nat -> F) (c : cfg F).

  (** the settings of c without any bound *)
  Definition unlimited c : cfg F :=
    let lo := fun _ _ : nat => MInf in let hi := fun _ _ : nat => PInf in
    set_sc (set_xb (set_yb (set_ub c lo hi) lo hi) lo hi) (fun _ => MInf) (fun _ => PInf) (g_sX c) (g_sU c).
  Lemma unlimited_relaxed c c' : same_model d c c' -> same_weights d c c' -> same_mult d c c' -> same_refs d c c' -> same_dist d c c' -> relaxed d c (unlimited c').
  Proof. intros. constructor; try assumption; intros; intros v _; now split. Qed.
  Lemma same_model_sym c c' : same_model d c c' -> same_model d c' c.
  Proof.
    intros (M1 & M2 & M3). refine (conj _ (conj _ _)); [|intros i j Hi Hj; symmetry; auto|intros i j Hi Hj; symmetry; auto].
    unfold same_plant in *. destruct (g_plant c), (g_plant c'); try contradiction; try exact I. destruct M1 as (H1 & H2 & H3). refine (conj _ (conj _ _)); intros i j Hi Hj; symmetry; auto.
  Qed.
  Lemma same_model_refl c : same_model d c c.
  Proof. refine (conj _ (conj _ _)); [unfold same_plant; destruct (g_plant c); [|exact I]; repeat split|intros i j _ _; reflexivity|intros i j _ _; reflexivity]. Qed.
  Lemma self_mix c t : superposed d (s1 - t)%S t c c c.
  Proof.
    constructor; try apply same_model_refl; try (repeat split; fail); intros k j _ _; unfold mix2; ring.
  Qed.

  (** the best plan for c among those near z is the best plan for c' *)
  Lemma untouched_optimal p p' c c' x0 um x u x' u' : 0 < ph -> g_plant c = Some p -> g_plant c' = Some p' -> weights_nonneg d c ->
    rebounded d p c c' um x u -> admissible d p c x0 um x u -> (forall x1 u1, admissible d p c x0 um x1 u1 -> (tracking_cost d p c um x u <= tracking_cost d p c um x1 u1)%S) ->
    admissible d p' c' x0 um x' u' -> (tracking_cost d p c um x u <= tracking_cost d p c um x' u')%S.
  Proof.
    intros P G G' W R A Op A'. destruct R as [RM RW RN RR RD RX RY RU RS].
    pose proof (relaxed_admissible d p p c (unlimited c) x0 um x u P G G (unlimited_relaxed c c (same_model_refl c) ltac:(repeat split) ltac:(repeat split) ltac:(repeat split) ltac:(intros ? ? _ _; reflexivity)) A) as (T & _ & _ & _ & Fz & _).
    assert (N' : same_mult d c' c) by (destruct RN as [N1 N2]; split; intros j Hj; symmetry; auto).
    assert (Rl : relaxed d c' (unlimited c)).
    { apply unlimited_relaxed; [now apply same_model_sym| |exact N'| |intros i j Hi Hj; symmetry; now apply RD].
      - destruct RW as (W1 & W2 & W3). refine (conj _ (conj _ _)); intros i j Hi Hj; symmetry; auto.
      - destruct RR as (W1 & W2 & W3). refine (conj _ (conj _ _)); intros i j Hi Hj; symmetry; auto. }
    pose proof (relaxed_admissible d p' p c' (unlimited c) x0 um x' u' P G' G Rl A') as (T' & _ & _ & _ & Fz' & _).
    destruct A as (_ & AX & AY & AU & _ & AS). destruct A' as (_ & AX' & AY' & AU' & _ & AS').
    assert (SX : small (fun t => state_ok d c (mix2 (s1 - t)%S t x x'))).
    { unfold state_ok, mix2. apply small_all2. intros i j Hi Hj. exact (small_within _ _ _ _ _ _ (RX i j Hi Hj) (AX i j Hi Hj) (AX' i j Hi Hj)). }
    assert (SY : small (fun t => output_ok d p c (mix2 (s1 - t)%S t x x'))).
    { apply (small_imp (fun t => forall i j, i <= ph -> j < ny -> within (g_ylo c (stp i) j) (g_yhi c (stp i) j) ((s1 - t) * output d p c x i j + t * output d p c x' i j)%S)).
      - apply small_all2. intros i j Hi Hj. refine (small_within _ _ _ _ _ _ (RY i j Hi Hj) (AY i j Hi Hj) _). rewrite <- (same_output d p p' c c' x' i j P G G' RM RD Hi Hj). now apply AY'.
      - intros t H i j Hi Hj. rewrite (out_mix d (s1 - t)%S t p p p c c c P G G G (self_mix c t)) by assumption. now apply H. }
    assert (UM : forall t i j, j < nu -> ucmd um (mix2 (s1 - t)%S t u u') i j = ((s1 - t) * ucmd um u i j + t * ucmd um u' i j)%S).
    { intros t i j Hj. apply (ucmd_mix d (s1 - t)%S t um um um); [|exact Hj]. intros l _. unfold mix. ring. }
    assert (SU : small (fun t => input_ok d c um (mix2 (s1 - t)%S t u u'))).
    { apply (small_imp (fun t => forall i j, i <= ph -> j < nu -> within (g_ulo c (Nat.min i (ph - 1)) j) (g_uhi c (Nat.min i (ph - 1)) j) ((s1 - t) * ucmd um u i j + t * ucmd um u' i j)%S)).
      - apply small_all2. intros i j Hi Hj. exact (small_within _ _ _ _ _ _ (RU i j Hi Hj) (AU i j Hi Hj) (AU' i j Hi Hj)).
      - intros t H i j Hi Hj. rewrite UM by exact Hj. now apply H. }
    assert (SS : small (fun t => scalar_ok d c um (mix2 (s1 - t)%S t x x') (mix2 (s1 - t)%S t u u'))).
    { apply (small_imp (fun t => forall i j, i <= ph -> j < 1 -> within (g_slo c (stp i)) (g_shi c (stp i))
        ((s1 - t) * (ssum nx (fun l => g_sX c l * x i l) + ssum nu (fun l => g_sU c l * ucmd um u i l)) + t * (ssum nx (fun l => g_sX c l * x' i l) + ssum nu (fun l => g_sU c l * ucmd um u' i l)))%S)).
      - apply small_all2. intros i j Hi _. refine (small_within _ _ _ _ _ _ (RS i Hi) (AS i Hi) _). specialize (AS' i Hi). destruct N' as [NX NU].
        rewrite (ssum_ext nx (fun l => g_sX c l * x' i l)%S (fun l => g_sX c' l * x' i l)%S) by (intros l Hl; now rewrite (NX l Hl)).
        now rewrite (ssum_ext nu (fun l => g_sU c l * ucmd um u' i l)%S (fun l => g_sU c' l * ucmd um u' i l)%S) by (intros l Hl; now rewrite (NU l Hl)).
      - intros t H i Hi. specialize (H i 0 Hi Nat.lt_0_1).
        rewrite (ssum_ext nu (fun l => g_sU c l * ucmd um (mix2 (s1 - t)%S t u u') i l)%S (fun l => g_sU c l * ((s1 - t) * ucmd um u i l + t * ucmd um u' i l))%S) by (intros l Hl; now rewrite UM).
        unfold mix2. rewrite !ssum_mix.
        match goal with |- within _ _ ?g => match type of H with within _ _ ?k => replace g with k by ring end end. exact H. }
    destruct (small_and _ _ (small_and _ _ SX SY) (small_and _ _ (small_and _ _ SU SS) (small_true (fun t => (t <= s1)%S) (fun t _ L => L)))) as (t & Tp & H).
    destruct (H t (slt_le _ _ Tp) (sle_refl t)) as ((HX & HY) & (HU & HS) & H1). clear H.
    assert (Sh : shares (s1 - t)%S t) by (apply shares_of; [now apply slt_le|exact H1]).
    assert (SM : superposed d (s1 - t)%S t (unlimited c) (unlimited c) (unlimited c)) by apply self_mix.
    assert (MX : forall (v : nat -> F) n j, j < n -> v j = mix (s1 - t)%S t v v j) by (intros v n j _; unfold mix; ring).
    destruct (free_mix d (s1 - t)%S t p p p (unlimited c) (unlimited c) (unlimited c) x0 um x0 um x0 um P G G G SM (MX x0 nx) (MX um nu) _ _ _ _ (conj T Fz) (conj T' Fz')) as [TM FM].
    pose proof (Op _ _ (conj TM (conj HX (conj HY (conj HU (conj FM HS)))))) as L.
    assert (SB : same_bounds d c c) by (repeat split).
    pose proof (cost_mix junk ejunk d (s1 - t)%S t p p p c c c x0 um x0 um x0 um P Sh G G G (self_mix c t) SB SB (MX x0 nx) (MX um nu) x u x' u' W) as L2.
    pose proof (sle_trans _ _ _ L L2) as L3. apply (proj1 (mul_le_pos t _ _ Tp)).
    apply (proj1 (sle_add_cancel _ _ ((s1 - t) * tracking_cost d p c um x u)%S)).
    match type of L3 with (?a <= ?b)%S => match goal with |- (?g <= ?k)%S => replace g with a by ring; replace k with b by ring end end. exact L3.
  Qed.

  (** C94: bounds that the optimal plan does not touch may be moved, tightened or removed without changing that plan, as long as the plan respects the new ones. *)
  Theorem C94_untouched_bounds_do_not_matter s h p s' h' p' x0 u0 z :
    0 < ph -> reached s h -> reached s' h' -> g_plant (cfg_run h) = Some p -> g_plant (cfg_run h') = Some p' -> sized x0 nx 1 -> sized u0 nu 1 -> weights_nonneg d (cfg_run h) ->
    rebounded d p (cfg_run h) (cfg_run h') (vec u0) (z_state d z) (z_cmd d z) ->
    qp_optimal (l_call d s x0 u0) z -> qp_feasible (l_call d s' x0 u0) z -> qp_optimal (l_call d s' x0 u0) z.
  Proof.
    intros P H H' G G' X U W R O Q. split; [exact Q|]. intros z1 Q1.
    destruct (C15_optimality_transfer junk ejunk d s h p x0 u0 z P H G X U O) as [A Op].
    destruct (C02_cost_is_tracking_cost junk ejunk d s' h' p' x0 u0 P H' G' X U) as [K' HK'].
    pose proof (proj1 (C01_feasible_iff_admissible junk ejunk d s' h' p' x0 u0 _ P H' G' X U) Q) as [_ T].
    pose proof (proj1 (C01_feasible_iff_admissible junk ejunk d s' h' p' x0 u0 _ P H' G' X U) Q1) as [A1 T1].
    pose proof (untouched_optimal p p' _ _ _ _ _ _ _ _ P G G' W R A Op A1) as L.
    apply (mul_le_pos s2 _ _ two_pos). apply (sle_add_cancel _ _ K'). rewrite (HK' z T), (HK' z1 T1).
    now rewrite !(same_cost d p p' (cfg_run h) (cfg_run h')) by (assumption || apply R).
  Qed.
  (** and if the commands or their increments are weighted, both controllers plan the same commands and states *)
  Theorem C94_same_plan s h p s' h' p' x0 u0 z z' :
    0 < ph -> reached s h -> reached s' h' -> g_plant (cfg_run h) = Some p -> g_plant (cfg_run h') = Some p' -> sized x0 nx 1 -> sized u0 nu 1 ->
    weights_nonneg d (cfg_run h) -> weights_nonneg d (cfg_run h') -> commands_weighted d (cfg_run h') ->
    rebounded d p (cfg_run h) (cfg_run h') (vec u0) (z_state d z) (z_cmd d z) ->
    qp_optimal (l_call d s x0 u0) z -> qp_feasible (l_call d s' x0 u0) z -> qp_optimal (l_call d s' x0 u0) z' ->
    (forall k j, k < ph -> j < nu -> z_cmd d z k j = z_cmd d z' k j) /\
    (forall i j, i <= ph -> j < nx -> z_state d z i j = z_state d z' i j).
  Proof.
    intros P H H' G G' X U W W' Wc R O Q O'.
    exact (C54_unique_optimum junk ejunk d s' h' p' x0 u0 z z' P H' G' X U W' Wc (C94_untouched_bounds_do_not_matter s h p s' h' p' x0 u0 z P H H' G G' X U W R O Q) O').
  Qed.
End Slack.

(** *** Concrete case: x' = x + u over one step, last command 4; commands in [3, 9]: the plan is u = 3, on the lower bound. The upper bound becomes 5 and the states are confined
    to [-1, 10]: nothing changes, though the lower bound still shapes the plan. *)
Local Notation one := (qm 1 1 [[1%Z]]).
Definition m_ops (b : bool) : list (lop Qc) :=
  [ LSetModel one one one; LSetWeights (qv [0]%Z) (qv [1]%Z) (qv [1]%Z) slice_all; LSetInputBounds (qe [3]%Z) (if b then qe [5]%Z else qe [9]%Z) slice_all ] ++
  (if b then [ LSetStateBounds (qe [-1]%Z) (qe [10]%Z) slice_all ] else []).
Notation m_s b := (wS u_d (m_ops b)).
Notation m_h b := (wH u_d (m_ops b)).
Definition m_call b := l_call u_d (m_s b) (qv [0]%Z) (qv [4]%Z).
Definition m_y : nat -> Qc := qf [0; 5; 0; 1; 0; 0; 0; -2]%Z.
Lemma m_reached b : SpecLMPC.reached qj qej u_d (m_s b) (m_h b) /\ g_plant (cfg_run (m_h b)) = Some (wp (m_h b)) /\ weights_nonneg u_d (cfg_run (m_h b)) /\ commands_weighted u_d (cfg_run (m_h b)).
Proof.
  destruct b; (refine (conj _ (conj _ (conj _ _))); [w_reach|apply w_plant; vm_compute; reflexivity| |]).
  1,3: refine (conj _ (conj _ _)); intros k j Hk Hj; (destruct k as [|k]; [|cbn in Hk; lia]); (destruct j as [|j]; [|cbn in Hj; lia]); vm_compute; reflexivity.
  1,2: intros k j Hk Hj; (destruct k as [|k]; [|cbn in Hk; lia]); (destruct j as [|j]; [|cbn in Hj; lia]); left; vm_compute; reflexivity.
Qed.
Lemma m_kkt b : kkt s0 s0 (m_call b) (u_z 3) (fun r => qp_row (m_call b) r (u_z 3)) m_y.
Proof. destruct b; apply kkt_b_ok; vm_compute; reflexivity. Qed.
Lemma m_optimal b : qp_optimal (m_call b) (u_z 3).
Proof.
  destruct (m_reached b) as (R & G & W & _).
  apply (LCert.kkt_optimal _ (weights_convex qj qej u_d _ _ (qv [0]%Z) (qv [4]%Z) ltac:(cbn; lia) R ltac:(repeat split) ltac:(repeat split) W) _ _ _ (m_kkt b)).
Qed.
Definition free_to_move_b (lo hi lo' hi' : ext Qc) (v : Qc) : bool :=
  (ext_same lo' lo || match lo with Fin b => sltb b v | MInf => true | PInf => false end) && (ext_same hi' hi || match hi with Fin b => sltb v b | PInf => true | MInf => false end).
Lemma free_to_move_b_ok lo hi lo' hi' v : free_to_move_b lo hi lo' hi' v = true -> free_to_move lo hi lo' hi' v.
Proof.
  intros H. apply andb_true_iff in H as [H1 H2]. apply orb_true_iff in H1. apply orb_true_iff in H2. split.
  - destruct H1 as [H1|H1]; [left; now apply ext_same_ok|right]. destruct lo; [exact H1|discriminate H1|exact I].
  - destruct H2 as [H2|H2]; [left; now apply ext_same_ok|right]. destruct hi; [exact H2|exact I|discriminate H2].
Qed.
Example C94_instance : weights_nonneg u_d (cfg_run (m_h false)) /\ SpecLMPC.reached qj qej u_d (m_s false) (m_h false) /\ SpecLMPC.reached qj qej u_d (m_s true) (m_h true) /\
  commands_weighted u_d (cfg_run (m_h true)) /\
  rebounded u_d (wp (m_h false)) (cfg_run (m_h false)) (cfg_run (m_h true)) (vec (qv [4]%Z)) (z_state u_d (u_z 3)) (z_cmd u_d (u_z 3)) /\
  qp_optimal (m_call false) (u_z 3) /\ qp_feasible (m_call true) (u_z 3) /\
  z_cmd u_d (u_z 3) O O = q 3 /\ g_ulo (cfg_run (m_h false)) O O = Fin (q 3) /\ g_uhi (cfg_run (m_h false)) O O = Fin (q 9) /\ g_uhi (cfg_run (m_h true)) O O = Fin (q 5) /\
  g_xhi (cfg_run (m_h false)) O O = PInf /\ g_xhi (cfg_run (m_h true)) O O = Fin (q 10).
Proof.
  destruct (m_reached false) as (R & G & W & _). destruct (m_reached true) as (R' & G' & _ & Wc).
  refine (conj W (conj R (conj R' (conj Wc (conj _ (conj (m_optimal false) (conj (proj1 (m_optimal true)) (conj _ (conj _ (conj _ (conj _ (conj _ _))))))))))));
    [|apply qc_eq; vm_compute; reflexivity|apply ext_same_ok; vm_compute; reflexivity|apply ext_same_ok; vm_compute; reflexivity|apply ext_same_ok; vm_compute; reflexivity
     |apply ext_same_ok; vm_compute; reflexivity|apply ext_same_ok; vm_compute; reflexivity].
  constructor.
  - refine (conj _ (conj _ _)); [rewrite !w_plant by (vm_compute; reflexivity); refine (conj _ (conj _ _)); intros i j Hi Hj; u_cmp i Hi; u_cmp j Hj; u_eq|intros i j _ Hj; cbn in Hj; lia|intros i j _ Hj; cbn in Hj; lia].
  - refine (conj _ (conj _ _)); intros i j Hi Hj; u_cmp i Hi; u_cmp j Hj; u_eq.
  - split; intros j Hj; u_cmp j Hj; u_eq.
  - refine (conj _ (conj _ _)); intros i j Hi Hj; u_cmp i Hi; u_cmp j Hj; u_eq.
  - intros i j _ Hj; cbn in Hj; lia.
  - intros i j Hi Hj; (destruct i as [|[|i]]; [| |cbn in Hi; lia]); u_cmp j Hj; apply free_to_move_b_ok; vm_compute; reflexivity.
  - intros i j Hi Hj; (destruct i as [|[|i]]; [| |cbn in Hi; lia]); u_cmp j Hj; apply free_to_move_b_ok; vm_compute; reflexivity.
  - intros i j Hi Hj; (destruct i as [|[|i]]; [| |cbn in Hi; lia]); u_cmp j Hj; apply free_to_move_b_ok; vm_compute; reflexivity.
  - intros i Hi; (destruct i as [|[|i]]; [| |cbn in Hi; lia]); apply free_to_move_b_ok; vm_compute; reflexivity.
Qed.
(** a bound that is touched does matter: without the bounds [3, 9] the plan u = 3 still respects every bound, but u = 2 is better *)
Theorem C94_touched_bound_matters :
  ~ (forall d (s : lmpc Qc) h p s' h' p' (x0 u0 : mat Qc) z, 0 < d_ph d -> SpecLMPC.reached qj qej d s h -> SpecLMPC.reached qj qej d s' h' ->
       g_plant (cfg_run h) = Some p -> g_plant (cfg_run h') = Some p' -> sized x0 (d_nx d) 1 -> sized u0 (d_nu d) 1 -> weights_nonneg d (cfg_run h) ->
       relaxed d (cfg_run h) (cfg_run h') -> qp_optimal (l_call d s x0 u0) z -> qp_feasible (l_call d s' x0 u0) z -> qp_optimal (l_call d s' x0 u0) z).
Proof.
  intros A. destruct (m_reached false) as (R & G & W & _). destruct (u_reached 1 ltac:(now left)) as (R' & G' & _).
  assert (Rl : relaxed u_d (cfg_run (m_h false)) (cfg_run (u_h 1))).
  { constructor.
    - refine (conj _ (conj _ _)); [rewrite !w_plant by (vm_compute; reflexivity); refine (conj _ (conj _ _)); intros i j Hi Hj; u_cmp i Hi; u_cmp j Hj; u_eq|intros i j _ Hj; cbn in Hj; lia|intros i j _ Hj; cbn in Hj; lia].
    - refine (conj _ (conj _ _)); intros i j Hi Hj; u_cmp i Hi; u_cmp j Hj; u_eq.
    - split; intros j Hj; u_cmp j Hj; u_eq.
    - refine (conj _ (conj _ _)); intros i j Hi Hj; u_cmp i Hi; u_cmp j Hj; u_eq.
    - intros i j _ Hj; cbn in Hj; lia.
    - intros i j Hi Hj; u_cmp i Hi; u_cmp j Hj. intros v _. replace (g_xlo (cfg_run (u_h 1)) O O) with (@MInf Qc) by (symmetry; apply ext_same_ok; vm_compute; reflexivity). replace (g_xhi (cfg_run (u_h 1)) O O) with (@PInf Qc) by (symmetry; apply ext_same_ok; vm_compute; reflexivity). now split.
    - intros i j Hi Hj; u_cmp i Hi; u_cmp j Hj. intros v _. replace (g_ylo (cfg_run (u_h 1)) O O) with (@MInf Qc) by (symmetry; apply ext_same_ok; vm_compute; reflexivity). replace (g_yhi (cfg_run (u_h 1)) O O) with (@PInf Qc) by (symmetry; apply ext_same_ok; vm_compute; reflexivity). now split.
    - intros i j Hi Hj; u_cmp i Hi; u_cmp j Hj. intros v _. replace (g_ulo (cfg_run (u_h 1)) O O) with (@MInf Qc) by (symmetry; apply ext_same_ok; vm_compute; reflexivity). replace (g_uhi (cfg_run (u_h 1)) O O) with (@PInf Qc) by (symmetry; apply ext_same_ok; vm_compute; reflexivity). now split.
    - intros i Hi; u_cmp i Hi. intros v _. replace (g_slo (cfg_run (u_h 1)) O) with (@MInf Qc) by (symmetry; apply ext_same_ok; vm_compute; reflexivity). replace (g_shi (cfg_run (u_h 1)) O) with (@PInf Qc) by (symmetry; apply ext_same_ok; vm_compute; reflexivity). now split. }
  assert (Fe : qp_feasible (l_call u_d (u_s 1) (qv [0]%Z) (qv [4]%Z)) (u_z 3)).
  { exact (C72_feasible_stays_feasible qj qej u_d _ _ _ _ _ _ (qv [0]%Z) (qv [4]%Z) _ ltac:(cbn; lia) R R' G G' ltac:(repeat split) ltac:(repeat split) Rl (proj1 (m_optimal false))). }
  pose proof (A u_d _ _ _ _ _ _ (qv [0]%Z) (qv [4]%Z) (u_z 3) ltac:(cbn; lia) R R' G G' ltac:(repeat split) ltac:(repeat split) W Rl (m_optimal false) Fe) as [_ O].
  specialize (O (u_z 2) (proj1 (u_optimal 1 2 ltac:(now left)))). assert (L : sleb (qp_cost (u_call 1) (u_z 3)) (qp_cost (u_call 1) (u_z 2)) = false) by (vm_compute; reflexivity).
  unfold sle in O. fold (u_call 1) in O. rewrite L in O. discriminate O.
Qed.
Print Assumptions C94_touched_bound_matters. Print Assumptions C94_untouched_bounds_do_not_matter. Print Assumptions C94_same_plan.
