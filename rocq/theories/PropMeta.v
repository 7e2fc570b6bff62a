(** Properties C71, C72, C73: the linear controller does not care about units, widening bounds never hurts, and without bounds the controller
    is a linear feedback (vocabulary: SpecMeta.v). *)
From Coq Require Import Bool Arith ZArith List Lia QArith Qcanon Ring Field.
From Verif Require Import Scalar Sums Mat Slice Csc CscProof Builder BuilderEnt LMPC SpecLMPC SpecQP LMPCRef LQP LRows LUniq Wit PropLMPC1 PropLMPC2 PropLMPC3 PropLMPC4 SpecMeta.
Import ListNotations.
Local Open Scope nat_scope.

Section Arith.
  Context {F : Type} {SO : ScalarOps F} {SL : ScalarLaws F}.
  Add Field SFma : (@s_field F SO SL).
  Lemma pos_or_neg (a : F) : a <> s0 -> {sltb s0 a = true /\ (s0 < a)%S} + {sltb s0 a = false /\ (s0 < - a)%S}.
  Proof.
    intros N. destruct (sltb s0 a) eqn:E; [left; now split|right; split; [reflexivity|]].
    apply slt_iff. split.
    - destruct (sle_total s0 a) as [A|A].
      + exfalso. assert (L : (s0 < a)%S) by (apply slt_iff; split; [exact A|congruence]). unfold slt in L. congruence.
      + apply sle_opp in A. now replace (- s0)%S with (s0 : F) in A by ring.
    - intros E'. apply N. replace a with (- - a)%S by ring. rewrite <- E'. ring.
  Qed.
  Lemma mul_le_pos (a x y : F) : (s0 < a)%S -> (a * x <= a * y)%S <-> (x <= y)%S.
  Proof.
    intros P. split; intros H; [|apply smul_le_l; [now apply slt_le|exact H]].
    destruct (sle_total x y) as [A|A]; [exact A|]. pose proof (smul_le_l a y x (slt_le _ _ P) A) as B.
    pose proof (sle_antisym _ _ H B) as E. assert (E' : x = y); [|rewrite E'; apply sle_refl].
    apply slt_neq in P. transitivity (a * x / a)%S; [field; congruence|]. rewrite E. field. congruence.
  Qed.
  Lemma mul_le_neg (a x y : F) : (s0 < - a)%S -> (a * x <= a * y)%S <-> (y <= x)%S.
  Proof.
    intros P. rewrite <- (mul_le_pos (- a)%S y x P). split; intros H; apply sle_opp in H.
    - now replace (- (a * y))%S with (- a * y)%S in H by ring; replace (- (a * x))%S with (- a * x)%S in H by ring.
    - replace (a * x)%S with (- (- a * x))%S by ring. replace (a * y)%S with (- (- a * y))%S by ring. exact H.
  Qed.
  Lemma within_box (a : F) lo hi lo' hi' v : a <> s0 -> box_in a lo hi lo' hi' -> within lo' hi' (a * v)%S <-> within lo hi v.
  Proof.
    intros N B. unfold box_in in B. destruct (pos_or_neg a N) as [[E P]|[E P]]; rewrite E in B; destruct B as [-> ->]; unfold within.
    - destruct lo, hi; cbn; rewrite ?E; cbn; rewrite ?(mul_le_pos a) by exact P; tauto.
    - destruct lo, hi; cbn; rewrite ?E; cbn; rewrite ?(mul_le_neg a) by exact P; tauto.
  Qed.
  Lemma lin_in n (M' M s v : nat -> F) r : (forall l, l < n -> (M' l * s l)%S = (r * M l)%S) ->
    ssum n (fun l => M' l * (s l * v l))%S = (r * ssum n (fun l => M l * v l))%S.
  Proof.
    intros H. rewrite <- ssum_mul_l. apply ssum_ext. intros l Hl. replace (M' l * (s l * v l))%S with ((M' l * s l) * v l)%S by ring. rewrite (H l Hl). ring.
  Qed.
  Lemma sq_pos (a : F) : a <> s0 -> (s0 < sq a)%S.
  Proof.
    intros N. apply slt_iff. split; [apply ssq_nonneg|]. intros E. unfold sq in E. symmetry in E. destruct (smul_integral _ _ E); contradiction.
  Qed.
  Lemma div_nonneg (w w' k a : F) : (s0 < k)%S -> a <> s0 -> (w' * sq a)%S = (k * w)%S -> (s0 <= w')%S <-> (s0 <= w)%S.
  Proof.
    intros K N E. rewrite <- (mul_le_pos (sq a) s0 w') by now apply sq_pos. rewrite <- (mul_le_pos k s0 w) by exact K.
    replace (sq a * w')%S with (k * w)%S by (rewrite <- E; ring). replace (sq a * s0)%S with (s0 : F) by ring. replace (k * s0)%S with (s0 : F) by ring. tauto.
  Qed.
  Lemma div_pos (w w' k a : F) : (s0 < k)%S -> a <> s0 -> (w' * sq a)%S = (k * w)%S -> (s0 < w)%S -> (s0 < w')%S.
  Proof.
    intros K N E W. apply slt_iff. split; [apply (div_nonneg w w' k a K N E); now apply slt_le|]. intros Z. rewrite <- Z in E.
    assert (E' : (k * w)%S = s0) by (rewrite <- E; ring). apply slt_neq in K, W. destruct (smul_integral _ _ E'); congruence.
  Qed.
End Arith.

(** ** C71: units *)
Section Units.
  Context {F : Type} {SO : ScalarOps F} {SL : ScalarLaws F}.
  Add Field SFmu : (@s_field F SO SL).
  Variables (junk : nat -> nat -> F) (ejunk : nat -> nat -> ext F) (d : dims).
  Notation nx := (d_nx d). Notation nu := (d_nu d). Notation ndu := (d_ndu d).
  Notation ny := (d_ny d). Notation ph := (d_ph d). Notation ch := (d_ch d).
  Notation reached := (SpecLMPC.reached junk ejunk d).
  Notation step := (l_step junk ejunk d).

  Section Spec.
    Variables (e : units F) (p p' : plant F) (c c' : cfg F) (x0 um x0' um' : nat -> F).
    Hypotheses (P : 0 < ph) (OK : units_ok d e) (Hp : plant_in d e p p') (Hc : cfg_in d e c c')
      (Hx : forall j, j < nx -> x0' j = (un_x e j * x0 j)%S) (Hu : forall j, j < nu -> um' j = (un_u e j * um j)%S).
    Notation X := (seq_in (un_x e)). Notation U := (seq_in (un_u e)).

    Lemma stp_lt i : i <= ph -> stp i < ph. Proof. unfold stp. lia. Qed.
    Lemma output_in x i j : i <= ph -> j < ny -> output d p' c' (X x) i j = (un_y e j * output d p c x i j)%S.
    Proof.
      intros Hi Hj. unfold output, seq_in. rewrite (lin_in nx (pl_C p' j) (pl_C p j) (un_x e) (x i) (un_y e j)) by (intros; now apply Hp).
      rewrite (ssum_ext ndu (fun l => g_Dd c' j l * g_d c' (stp i) l)%S (fun l => g_Dd c' j l * (un_d e l * g_d c (stp i) l))%S).
      - rewrite (lin_in ndu (g_Dd c' j) (g_Dd c j) (un_d e) (g_d c (stp i)) (un_y e j)) by (intros; now apply Hc). ring.
      - intros l Hl. rewrite (in_d _ _ _ _ Hc) by (exact Hl || now apply stp_lt). reflexivity.
    Qed.
    Lemma ucmd_in u i j : j < nu -> ucmd um' (U u) i j = (un_u e j * ucmd um u i j)%S.
    Proof. intros Hj. destruct i; cbn [ucmd]; [now apply Hu|reflexivity]. Qed.
    Lemma dcmd_in u i j : j < nu -> dcmd um' (U u) i j = (un_u e j * dcmd um u i j)%S.
    Proof. intros Hj. unfold dcmd. rewrite ucmd_in by exact Hj. unfold seq_in. ring. Qed.
    Lemma cancel (a x y : F) : a <> s0 -> (a * x)%S = (a * y)%S <-> x = y.
    Proof. intros N. split; [|now intros ->]. intros E. transitivity (a * x / a)%S; [now field|]. rewrite E. now field. Qed.

    Lemma admissible_in x u : admissible d p' c' x0' um' (X x) (U u) <-> admissible d p c x0 um x u.
    Proof.
      destruct OK as (NX & NU & NY & _ & NS & _).
      assert (DY : forall k j, k < ph -> j < nx ->
        (ssum nx (fun l => pl_A p' j l * X x k l) + ssum nu (fun l => pl_B p' j l * U u k l) + ssum ndu (fun l => g_Bd c' j l * g_d c' k l))%S =
        (un_x e j * (ssum nx (fun l => pl_A p j l * x k l) + ssum nu (fun l => pl_B p j l * u k l) + ssum ndu (fun l => g_Bd c j l * g_d c k l)))%S).
      { intros k j Hk Hj. unfold seq_in. rewrite (lin_in nx (pl_A p' j) (pl_A p j) (un_x e) (x k) (un_x e j)) by (intros; now apply Hp).
        rewrite (lin_in nu (pl_B p' j) (pl_B p j) (un_u e) (u k) (un_x e j)) by (intros; now apply Hp).
        rewrite (ssum_ext ndu (fun l => g_Bd c' j l * g_d c' k l)%S (fun l => g_Bd c' j l * (un_d e l * g_d c k l))%S) by (intros; now rewrite (in_d _ _ _ _ Hc)).
        rewrite (lin_in ndu (g_Bd c' j) (g_Bd c j) (un_d e) (g_d c k) (un_x e j)) by (intros; now apply Hc). ring. }
      assert (SC : forall i, i <= ph -> (ssum nx (fun l => g_sX c' l * X x i l) + ssum nu (fun l => g_sU c' l * ucmd um' (U u) i l))%S =
        (un_s e * (ssum nx (fun l => g_sX c l * x i l) + ssum nu (fun l => g_sU c l * ucmd um u i l)))%S).
      { intros i Hi. unfold seq_in at 1. rewrite (lin_in nx (g_sX c') (g_sX c) (un_x e) (x i) (un_s e)) by (intros; now apply Hc).
        rewrite (ssum_ext nu _ (fun l => g_sU c' l * (un_u e l * ucmd um u i l))%S) by (intros; now rewrite ucmd_in).
        rewrite (lin_in nu (g_sU c') (g_sU c) (un_u e) (ucmd um u i) (un_s e)) by (intros; now apply Hc). ring. }
      unfold admissible, trajectory, state_ok, output_ok, input_ok, frozen, scalar_ok.
      split; intros ((A1 & A2) & A3 & A4 & A5 & A6 & A7); refine (conj (conj _ _) (conj _ (conj _ (conj _ (conj _ _))))).
      - intros j Hj. apply (proj1 (cancel (un_x e j) _ _ (NX j Hj))). rewrite <- (Hx j Hj). now apply A1.
      - intros k j Hk Hj. apply (proj1 (cancel (un_x e j) _ _ (NX j Hj))). rewrite <- (DY k j Hk Hj). now apply A2.
      - intros i j Hi Hj. apply (proj1 (within_box (un_x e j) _ _ _ _ _ (NX j Hj) (in_xb _ _ _ _ Hc (stp i) j (stp_lt i Hi) Hj))). now apply A3.
      - intros i j Hi Hj. apply (proj1 (within_box (un_y e j) _ _ _ _ _ (NY j Hj) (in_yb _ _ _ _ Hc (stp i) j (stp_lt i Hi) Hj))). rewrite <- output_in by assumption. now apply A4.
      - intros i j Hi Hj. apply (proj1 (within_box (un_u e j) _ _ _ _ _ (NU j Hj) (in_ub _ _ _ _ Hc (Nat.min i (ph - 1)) j ltac:(lia) Hj))). rewrite <- ucmd_in by assumption. now apply A5.
      - intros i j Hc' Hi Hj. apply (proj1 (cancel (un_u e j) _ _ (NU j Hj))). rewrite <- ucmd_in by exact Hj. now apply A6.
      - intros i Hi. apply (proj1 (within_box (un_s e) _ _ _ _ _ NS (in_sb _ _ _ _ Hc (stp i) (stp_lt i Hi)))). rewrite <- SC by exact Hi. now apply A7.
      - intros j Hj. unfold seq_in. rewrite (A1 j Hj). symmetry. now apply Hx.
      - intros k j Hk Hj. rewrite (DY k j Hk Hj). unfold seq_in. now rewrite (A2 k j Hk Hj).
      - intros i j Hi Hj. apply (proj2 (within_box (un_x e j) _ _ _ _ _ (NX j Hj) (in_xb _ _ _ _ Hc (stp i) j (stp_lt i Hi) Hj))). now apply A3.
      - intros i j Hi Hj. rewrite output_in by assumption. apply (proj2 (within_box (un_y e j) _ _ _ _ _ (NY j Hj) (in_yb _ _ _ _ Hc (stp i) j (stp_lt i Hi) Hj))). now apply A4.
      - intros i j Hi Hj. rewrite ucmd_in by assumption. apply (proj2 (within_box (un_u e j) _ _ _ _ _ (NU j Hj) (in_ub _ _ _ _ Hc (Nat.min i (ph - 1)) j ltac:(lia) Hj))). now apply A5.
      - intros i j Hc' Hi Hj. rewrite ucmd_in by exact Hj. unfold seq_in. now rewrite (A6 i j Hc' Hi Hj).
      - intros i Hi. rewrite SC by exact Hi. apply (proj2 (within_box (un_s e) _ _ _ _ _ NS (in_sb _ _ _ _ Hc (stp i) (stp_lt i Hi)))). now apply A7.
    Qed.

    Lemma term_in (w w' k a x r : F) : (w' * sq a)%S = (k * w)%S -> (w' * sq (a * x - a * r))%S = (k * (w * sq (x - r)))%S.
    Proof. intros E. replace (w' * sq (a * x - a * r))%S with ((w' * sq a) * sq (x - r))%S by (unfold sq; ring). rewrite E. ring. Qed.
    Lemma sum2_in n m (f g : nat -> nat -> F) k : (forall i j, i < n -> j < m -> f i j = (k * g i j)%S) ->
      ssum n (fun i => ssum m (f i)) = (k * ssum n (fun i => ssum m (g i)))%S.
    Proof. intros H. rewrite <- ssum_mul_l. apply ssum_ext. intros i Hi. rewrite <- ssum_mul_l. apply ssum_ext. auto. Qed.
    Lemma cost_in x u : tracking_cost d p' c' um' (X x) (U u) = (un_cost e * tracking_cost d p c um x u)%S.
    Proof.
      unfold tracking_cost.
      rewrite (sum2_in (ph + 1) ny _ (fun i j => g_wy c (stp i) j * sq (output d p c x i j - g_yr c (stp i) j))%S (un_cost e)).
      rewrite (sum2_in (ph + 1) nu _ (fun i j => g_wu c (stp i) j * sq (ucmd um u i j - g_ur c (stp i) j))%S (un_cost e)).
      rewrite (sum2_in ph nu _ (fun i j => g_wdu c i j * sq (dcmd um u i j - g_dur c (stp i) j))%S (un_cost e)).
      - ring.
      - intros i j Hi Hj. rewrite dcmd_in by exact Hj. rewrite (in_dur _ _ _ _ Hc) by (apply stp_lt || exact Hj; lia). apply term_in. now apply Hc.
      - intros i j Hi Hj. rewrite ucmd_in by exact Hj. rewrite (in_ur _ _ _ _ Hc) by (apply stp_lt || exact Hj; lia). apply term_in. apply Hc; [apply stp_lt; lia|exact Hj].
      - intros i j Hi Hj. rewrite output_in by (lia || exact Hj). rewrite (in_yr _ _ _ _ Hc) by (apply stp_lt || exact Hj; lia). apply term_in. apply Hc; [apply stp_lt; lia|exact Hj].
    Qed.
    Lemma weights_in : (weights_nonneg d c -> weights_nonneg d c') /\ (commands_weighted d c -> commands_weighted d c').
    Proof.
      destruct OK as (NX & NU & NY & _ & _ & K). split.
      - intros (A1 & A2 & A3). refine (conj _ (conj _ _)); intros k j Hk Hj.
        + apply (proj2 (div_nonneg _ _ _ _ K (NY j Hj) (in_wy _ _ _ _ Hc k j Hk Hj))). auto.
        + apply (proj2 (div_nonneg _ _ _ _ K (NU j Hj) (in_wu _ _ _ _ Hc k j Hk Hj))). auto.
        + apply (proj2 (div_nonneg _ _ _ _ K (NU j Hj) (in_wdu _ _ _ _ Hc k j Hk Hj))). auto.
      - intros A k j Hk Hj. destruct (A k j Hk Hj) as [B|[B|B]].
        + left. exact (div_pos _ _ _ _ K (NU j Hj) (in_wu _ _ _ _ Hc k j Hk Hj) B).
        + right; left. exact (div_pos _ _ _ _ K (NU j Hj) (in_wdu _ _ _ _ Hc k j Hk Hj) B).
        + now right; right.
    Qed.
    Lemma optimal_in x u : admissible d p c x0 um x u -> (forall x1 u1, admissible d p c x0 um x1 u1 -> (tracking_cost d p c um x u <= tracking_cost d p c um x1 u1)%S) ->
      forall x1 u1, admissible d p' c' x0' um' x1 u1 -> (tracking_cost d p' c' um' (X x) (U u) <= tracking_cost d p' c' um' x1 u1)%S.
    Proof.
      intros A O x1 u1 A1. destruct OK as (NX & NU & NY & _ & NS & K).
      set (xb := fun i j => (x1 i j / un_x e j)%S). set (ub := fun i j => (u1 i j / un_u e j)%S).
      assert (EX : forall i a, i < ph + 1 -> a < nx -> x1 i a = X xb i a) by (intros i a _ Ha; unfold seq_in, xb; field; now apply NX).
      assert (EU : forall i a, i < ph -> a < nu -> u1 i a = U ub i a) by (intros i a _ Ha; unfold seq_in, ub; field; now apply NU).
      rewrite (tracking_ext d P c' p' um' x1 (X xb) u1 (U ub) EX EU). rewrite !cost_in. apply mul_le_pos; [exact K|]. apply O.
      apply admissible_in. exact (admissible_ext d P c' p' x0' um' x1 (X xb) u1 (U ub) EX EU A1).
    Qed.
  End Spec.

  (** *** Theorems *)
  (** the trajectories allowed and what they cost *)
  Theorem C71_same_problem e p p' c c' x0 um x0' um' x u :
    0 < ph -> units_ok d e -> plant_in d e p p' -> cfg_in d e c c' ->
    (forall j, j < nx -> x0' j = (un_x e j * x0 j)%S) -> (forall j, j < nu -> um' j = (un_u e j * um j)%S) ->
    (admissible d p' c' x0' um' (seq_in (un_x e) x) (seq_in (un_u e) u) <-> admissible d p c x0 um x u) /\
    tracking_cost d p' c' um' (seq_in (un_x e) x) (seq_in (un_u e) u) = (un_cost e * tracking_cost d p c um x u)%S.
  Proof. intros P OK Hp Hc Hx Hu. split; [now apply admissible_in|now apply cost_in]. Qed.

  Implicit Types (s : lmpc F) (h : list (lop F * ret F)) (z : nat -> F).
  (** an optimum of one controller's problem, converted, is an optimum of the other's *)
  Theorem C71_optimum_converts e s h p x0 u0 s' h' p' x0' u0' z :
    0 < ph -> reached s h -> reached s' h' -> g_plant (cfg_run h) = Some p -> g_plant (cfg_run h') = Some p' ->
    sized x0 nx 1 -> sized u0 nu 1 -> sized x0' nx 1 -> sized u0' nu 1 ->
    units_ok d e -> plant_in d e p p' -> cfg_in d e (cfg_run h) (cfg_run h') ->
    (forall j, j < nx -> vec x0' j = (un_x e j * vec x0 j)%S) -> (forall j, j < nu -> vec u0' j = (un_u e j * vec u0 j)%S) ->
    qp_optimal (l_call d s x0 u0) z ->
    qp_optimal (l_call d s' x0' u0') (z_of d (vec u0') (seq_in (un_x e) (z_state d z)) (seq_in (un_u e) (z_cmd d z))).
  Proof.
    intros P H H' Gp Gp' X U X' U' OK Hp Hc Hx Hu O.
    destruct (C15_optimality_transfer junk ejunk d s h p x0 u0 z P H Gp X U O) as [A Op].
    apply (C15_converse junk ejunk d s' h' p' x0' u0' _ _ P H' Gp' X' U').
    - now apply (admissible_in e p p' (cfg_run h) (cfg_run h') (vec x0) (vec u0)).
    - now apply (optimal_in e p p' (cfg_run h) (cfg_run h') (vec x0) (vec u0) (vec x0') (vec u0')).
  Qed.
  (** so both controllers return the same command and the same predictions, each in its own units *)
  Theorem C71_same_commands e s h p x0 u0 s' h' p' x0' u0' z y code obj s1 r1 z' y' code' obj' s1' r1' :
    0 < ph -> reached s h -> reached s' h' -> g_plant (cfg_run h) = Some p -> g_plant (cfg_run h') = Some p' ->
    sized x0 nx 1 -> sized u0 nu 1 -> sized x0' nx 1 -> sized u0' nu 1 ->
    units_ok d e -> plant_in d e p p' -> cfg_in d e (cfg_run h) (cfg_run h') ->
    (forall j, j < nx -> vec x0' j = (un_x e j * vec x0 j)%S) -> (forall j, j < nu -> vec u0' j = (un_u e j * vec u0 j)%S) ->
    weights_nonneg d (cfg_run h) -> commands_weighted d (cfg_run h) ->
    qp_optimal (l_call d s x0 u0) z -> qp_optimal (l_call d s' x0' u0') z' ->
    step s (LOptimize x0 u0 (ASolution z y code obj)) = Ok (s1, RResult r1) ->
    step s' (LOptimize x0' u0' (ASolution z' y' code' obj')) = Ok (s1', RResult r1') ->
    (forall j, j < nu -> vec (r_cmd r1') j = (un_u e j * vec (r_cmd r1) j)%S) /\
    (forall i j, i <= ph -> j < nx -> ent (q_state (o_seq (l_o s1'))) i j = (un_x e j * ent (q_state (o_seq (l_o s1))) i j)%S) /\
    (forall i j, i <= ph -> j < nu -> ent (q_input (o_seq (l_o s1'))) i j = (un_u e j * ent (q_input (o_seq (l_o s1))) i j)%S) /\
    (forall i j, i <= ph -> j < ny -> ent (q_output (o_seq (l_o s1'))) i j = (un_y e j * ent (q_output (o_seq (l_o s1))) i j)%S).
  Proof.
    intros P H H' Gp Gp' X U X' U' OK Hp Hc Hx Hu Wn W O O' E1 E2.
    pose proof (C71_optimum_converts e s h p x0 u0 s' h' p' x0' u0' z P H H' Gp Gp' X U X' U' OK Hp Hc Hx Hu O) as O2.
    destruct (weights_in e (cfg_run h) (cfg_run h') OK Hc) as [Wn' W'].
    destruct (C54_unique_optimum junk ejunk d s' h' p' x0' u0' z' _ P H' Gp' X' U' (Wn' Wn) (W' W) O' O2) as [EU EX].
    assert (EU' : forall k j, k < ph -> j < nu -> z_cmd d z' k j = (un_u e j * z_cmd d z k j)%S) by (intros k j Hk Hj; rewrite EU by assumption; now rewrite z_of_u).
    assert (EX' : forall k j, k <= ph -> j < nx -> z_state d z' k j = (un_x e j * z_state d z k j)%S) by (intros k j Hk Hj; rewrite EX by assumption; rewrite z_of_x by (lia || assumption); reflexivity).
    clear EU EX.
    destruct (C14_sequences junk ejunk d s h p x0 u0 z y code obj s1 _ P H Gp X U E1) as (res1 & Er1 & A1 & A2 & A3 & A4 & A5 & _).
    destruct (C14_sequences junk ejunk d s' h' p' x0' u0' z' y' code' obj' s1' _ P H' Gp' X' U' E2) as (res2 & Er2 & B1 & B2 & B3 & B4 & B5 & _).
    injection Er1 as <-. injection Er2 as <-.
    assert (S1 : forall i j, i <= ph -> j < nx -> ent (q_state (o_seq (l_o s1'))) i j = (un_x e j * ent (q_state (o_seq (l_o s1))) i j)%S) by (intros; rewrite A1, B1 by assumption; now apply EX').
    refine (conj _ (conj S1 (conj _ _))).
    - intros j Hj. rewrite A5, B5, A2, B2 by (assumption || lia). apply EU'; [exact P|exact Hj].
    - intros i j Hi Hj. destruct (Nat.eq_dec i ph) as [->|N]; [rewrite A3, B3 by exact Hj|rewrite A2, B2 by (exact Hj || lia)]; apply EU'; (exact Hj || lia).
    - intros i j Hi Hj. rewrite A4, B4 by assumption.
      rewrite (output_ext d P (cfg_run h') p' _ (seq_in (un_x e) (ent (q_state (o_seq (l_o s1))))) i j) by (exact Hi || (intros a b Ha Hb; apply S1; [lia|exact Hb])).
      now apply output_in.
  Qed.
End Units.

(** ** C72: wider bounds *)
Section Wider.
  Context {F : Type} {SO : ScalarOps F} {SL : ScalarLaws F}.
  Add Field SFmw : (@s_field F SO SL).
  Variables (junk : nat -> nat -> F) (ejunk : nat -> nat -> ext F) (d : dims).
  Notation nx := (d_nx d). Notation nu := (d_nu d). Notation ndu := (d_ndu d).
  Notation ny := (d_ny d). Notation ph := (d_ph d). Notation ch := (d_ch d).
  Notation reached := (SpecLMPC.reached junk ejunk d).
  Notation step := (l_step junk ejunk d).

  (** the same model: the same predictions *)
  Lemma same_output p p' c c' x i j : 0 < ph -> g_plant c = Some p -> g_plant c' = Some p' -> same_model d c c' -> same_dist d c c' -> i <= ph -> j < ny ->
    output d p' c' x i j = output d p c x i j.
  Proof.
    intros P G G' (MP & _ & MD) D Hi Hj. rewrite G, G' in MP. destruct MP as (_ & _ & MC). unfold output. f_equal; apply ssum_ext; intros l Hl.
    - now rewrite (MC j l Hj Hl).
    - rewrite (MD j l Hj Hl), (D (stp i) l); [reflexivity|unfold stp; lia|exact Hl].
  Qed.
  Lemma same_cost p p' c c' um x u : 0 < ph -> g_plant c = Some p -> g_plant c' = Some p' -> same_model d c c' -> same_dist d c c' -> same_weights d c c' -> same_refs d c c' ->
    tracking_cost d p' c' um x u = tracking_cost d p c um x u.
  Proof.
    intros P G G' M D (W1 & W2 & W3) (R1 & R2 & R3). assert (SP : forall i, i < ph + 1 -> stp i < ph) by (intros; unfold stp; lia). assert (SP' : forall i, i < ph -> stp i < ph) by (intros; unfold stp; lia).
    unfold tracking_cost. f_equal; [f_equal|]; apply ssum_ext; intros i Hi; apply ssum_ext; intros j Hj.
    - rewrite (same_output p p' c c') by (assumption || lia). now rewrite (W1 (stp i) j (SP i Hi) Hj), (R1 (stp i) j (SP i Hi) Hj).
    - now rewrite (W2 (stp i) j (SP i Hi) Hj), (R2 (stp i) j (SP i Hi) Hj).
    - now rewrite (W3 i j Hi Hj), (R3 (stp i) j (SP' i Hi) Hj).
  Qed.
  Lemma relaxed_admissible p p' c c' x0 um x u : 0 < ph -> g_plant c = Some p -> g_plant c' = Some p' -> relaxed d c c' ->
    admissible d p c x0 um x u -> admissible d p' c' x0 um x u.
  Proof.
    intros P G G' R ((A1 & A2) & A3 & A4 & A5 & A6 & A7). assert (SP : forall i, i <= ph -> stp i < ph) by (intros; unfold stp; lia).
    pose proof (rx_model _ _ _ R) as M. pose proof (rx_dist _ _ _ R) as D. pose proof M as (MP & MB & MD). rewrite G, G' in MP. destruct MP as (MA & MBu & MC).
    destruct (rx_mult _ _ _ R) as [MX MU].
    refine (conj (conj A1 _) (conj _ (conj _ (conj _ (conj A6 _))))).
    - intros k j Hk Hj. rewrite (A2 k j Hk Hj). f_equal; [f_equal|]; apply ssum_ext; intros l Hl.
      + now rewrite (MA j l Hj Hl).
      + now rewrite (MBu j l Hj Hl).
      + now rewrite (MB j l Hj Hl), (D k l Hk Hl).
    - intros i j Hi Hj. apply (rx_x _ _ _ R); [now apply SP|exact Hj|now apply A3].
    - intros i j Hi Hj. rewrite (same_output p p' c c') by assumption. apply (rx_y _ _ _ R); [now apply SP|exact Hj|now apply A4].
    - intros i j Hi Hj. apply (rx_u _ _ _ R); [lia|exact Hj|now apply A5].
    - intros i Hi. rewrite <- (ssum_ext nx (fun l => g_sX c l * x i l)%S) by (intros l Hl; now rewrite (MX l Hl)).
      rewrite <- (ssum_ext nu (fun l => g_sU c l * ucmd um u i l)%S) by (intros l Hl; now rewrite (MU l Hl)). apply (rx_s _ _ _ R); [now apply SP|now apply A7].
  Qed.

  Implicit Types (s : lmpc F) (h : list (lop F * ret F)) (z : nat -> F).
  (** a problem that has a solution still has it *)
  Theorem C72_feasible_stays_feasible s h p s' h' p' x0 u0 z :
    0 < ph -> reached s h -> reached s' h' -> g_plant (cfg_run h) = Some p -> g_plant (cfg_run h') = Some p' -> sized x0 nx 1 -> sized u0 nu 1 ->
    relaxed d (cfg_run h) (cfg_run h') ->
    qp_feasible (l_call d s x0 u0) z -> qp_feasible (l_call d s' x0 u0) z.
  Proof.
    intros P H H' G G' X U R Q. apply (C01_feasible_iff_admissible junk ejunk d s' h' p' x0 u0 z P H' G' X U).
    apply (C01_feasible_iff_admissible junk ejunk d s h p x0 u0 z P H G X U) in Q. destruct Q as [A T]. split; [|exact T]. now apply (relaxed_admissible p p' (cfg_run h) (cfg_run h')).
  Qed.
  (** the optimal cost does not increase *)
  Theorem C72_optimal_cost_decreases s h p s' h' p' x0 u0 z z' :
    0 < ph -> reached s h -> reached s' h' -> g_plant (cfg_run h) = Some p -> g_plant (cfg_run h') = Some p' -> sized x0 nx 1 -> sized u0 nu 1 ->
    relaxed d (cfg_run h) (cfg_run h') ->
    qp_optimal (l_call d s x0 u0) z -> qp_optimal (l_call d s' x0 u0) z' ->
    (tracking_cost d p' (cfg_run h') (vec u0) (z_state d z') (z_cmd d z') <= tracking_cost d p (cfg_run h) (vec u0) (z_state d z) (z_cmd d z))%S.
  Proof.
    intros P H H' G G' X U R O O'.
    destruct (C15_optimality_transfer junk ejunk d s h p x0 u0 z P H G X U O) as [A _].
    destruct (C15_optimality_transfer junk ejunk d s' h' p' x0 u0 z' P H' G' X U O') as [_ Op].
    rewrite <- (same_cost p p' (cfg_run h) (cfg_run h')) by (assumption || apply R). apply Op. now apply (relaxed_admissible p p' (cfg_run h) (cfg_run h')).
  Qed.
  (** bounds that the optimum without them respects change nothing *)
  Theorem C72_respected_bounds_change_nothing s h p s' h' p' x0 u0 z' :
    0 < ph -> reached s h -> reached s' h' -> g_plant (cfg_run h) = Some p -> g_plant (cfg_run h') = Some p' -> sized x0 nx 1 -> sized u0 nu 1 ->
    relaxed d (cfg_run h) (cfg_run h') ->
    qp_optimal (l_call d s' x0 u0) z' -> qp_feasible (l_call d s x0 u0) z' -> qp_optimal (l_call d s x0 u0) z'.
  Proof.
    intros P H H' G G' X U R O' Q. split; [exact Q|]. intros z1 Q1.
    destruct (C02_cost_is_tracking_cost junk ejunk d s h p x0 u0 P H G X U) as [K HK].
    destruct (C02_cost_is_tracking_cost junk ejunk d s' h' p' x0 u0 P H' G' X U) as [K' HK'].
    pose proof (proj1 (C01_feasible_iff_admissible junk ejunk d s h p x0 u0 _ P H G X U) Q) as [_ T].
    pose proof (proj1 (C01_feasible_iff_admissible junk ejunk d s h p x0 u0 _ P H G X U) Q1) as [_ T1].
    pose proof (proj2 O' z1 (C72_feasible_stays_feasible s h p s' h' p' x0 u0 z1 P H H' G G' X U R Q1)) as L.
    apply (mul_le_pos s2 _ _ two_pos). apply (mul_le_pos s2 _ _ two_pos) in L. apply (sle_add_cancel _ _ K). apply (sle_add_cancel _ _ K') in L.
    rewrite (HK z' T), (HK z1 T1). rewrite (HK' z' T), (HK' z1 T1) in L. now rewrite !(same_cost p p' (cfg_run h) (cfg_run h')) in L by (assumption || apply R).
  Qed.
End Wider.

(** ** C73: superposition *)
Section Super.
  Context {F : Type} {SO : ScalarOps F} {SL : ScalarLaws F}.
  Add Field SFms : (@s_field F SO SL).
  Variables (junk : nat -> nat -> F) (ejunk : nat -> nat -> ext F) (d : dims).
  Notation nx := (d_nx d). Notation nu := (d_nu d). Notation ndu := (d_ndu d).
  Notation ny := (d_ny d). Notation ph := (d_ph d). Notation ch := (d_ch d).
  Notation reached := (SpecLMPC.reached junk ejunk d).
  Notation step := (l_step junk ejunk d).

  (** a direction: the difference of two trajectories of the same plant from the same state and last command *)
  Definition z1 : nat -> F := fun _ => s0.
  Definition direction (p : plant F) (dx du : nat -> nat -> F) : Prop :=
    (forall j, j < nx -> dx 0 j = s0) /\
    (forall k j, k < ph -> j < nx -> dx (S k) j = (ssum nx (fun l => pl_A p j l * dx k l) + ssum nu (fun l => pl_B p j l * du k l))%S) /\
    frozen d z1 du.
  Definition out0 (p : plant F) (dx : nat -> nat -> F) (i j : nat) : F := ssum nx (fun l => pl_C p j l * dx i l)%S.
  Definition bil n m (w a b : nat -> nat -> F) : F := ssum n (fun i => ssum m (fun j => w i j * a i j * b i j)%S).
  (** first and second variation of the cost *)
  Definition lin p c um x u dx du : F :=
    (bil (ph + 1) ny (fun i j => g_wy c (stp i) j) (fun i j => output d p c x i j - g_yr c (stp i) j) (out0 p dx)
     + bil (ph + 1) nu (fun i j => g_wu c (stp i) j) (fun i j => ucmd um u i j - g_ur c (stp i) j) (ucmd z1 du)
     + bil ph nu (g_wdu c) (fun i j => dcmd um u i j - g_dur c (stp i) j) (dcmd z1 du))%S.
  Definition quad (p : plant F) c dx du : F :=
    (bil (ph + 1) ny (fun i j => g_wy c (stp i) j) (out0 p dx) (out0 p dx)
     + bil (ph + 1) nu (fun i j => g_wu c (stp i) j) (ucmd z1 du) (ucmd z1 du)
     + bil ph nu (g_wdu c) (dcmd z1 du) (dcmd z1 du))%S.
  (** x + t dx *)
  Definition along (t : F) (x dx : nat -> nat -> F) (i j : nat) : F := (x i j + t * dx i j)%S.

  Lemma bil_along n m w (y' y r dy : nat -> nat -> F) t : (forall i j, i < n -> j < m -> y' i j = (y i j + t * dy i j)%S) ->
    ssum n (fun i => ssum m (fun j => w i j * sq (y' i j - r i j)))%S =
    (ssum n (fun i => ssum m (fun j => w i j * sq (y i j - r i j))) + s2 * t * bil n m w (fun i j => y i j - r i j) dy + t * t * bil n m w dy dy)%S.
  Proof.
    intros E. unfold bil. rewrite <- !ssum_mul_l, <- !ssum_add. apply ssum_ext. intros i Hi. rewrite <- !ssum_mul_l, <- !ssum_add. apply ssum_ext. intros j Hj.
    rewrite (E i j Hi Hj). unfold sq, s2. ring.
  Qed.
  Lemma out_along p c x dx t i j : output d p c (along t x dx) i j = (output d p c x i j + t * out0 p dx i j)%S.
  Proof. unfold output, out0, along. rewrite <- ssum_mul_l. rewrite (ssum_ext nx _ (fun l => pl_C p j l * x i l + t * (pl_C p j l * dx i l))%S) by (intros; ring). rewrite ssum_add. ring. Qed.
  Lemma ucmd_along um u du t i j : ucmd um (along t u du) i j = (ucmd um u i j + t * ucmd z1 du i j)%S.
  Proof. destruct i; cbn [ucmd]; [unfold z1; ring|reflexivity]. Qed.
  Lemma dcmd_along um u du t i j : dcmd um (along t u du) i j = (dcmd um u i j + t * dcmd z1 du i j)%S.
  Proof. unfold dcmd. rewrite ucmd_along. unfold along. ring. Qed.
  Lemma cost_along p c um x u dx du t :
    tracking_cost d p c um (along t x dx) (along t u du) = (tracking_cost d p c um x u + s2 * t * lin p c um x u dx du + t * t * quad p c dx du)%S.
  Proof.
    unfold tracking_cost, lin, quad.
    rewrite (bil_along (ph + 1) ny (fun i j => g_wy c (stp i) j) _ (output d p c x) (fun i j => g_yr c (stp i) j) (out0 p dx) t) by (intros; apply out_along).
    rewrite (bil_along (ph + 1) nu (fun i j => g_wu c (stp i) j) _ (ucmd um u) (fun i j => g_ur c (stp i) j) (ucmd z1 du) t) by (intros; apply ucmd_along).
    rewrite (bil_along ph nu (g_wdu c) _ (dcmd um u) (fun i j => g_dur c (stp i) j) (dcmd z1 du) t) by (intros; apply dcmd_along). ring.
  Qed.
  Lemma quad_nonneg p c dx du : 0 < ph -> weights_nonneg d c -> (s0 <= quad p c dx du)%S.
  Proof.
    intros P (W1 & W2 & W3). unfold quad, bil. replace s0 with (s0 + s0 + s0 : F)%S by ring.
    assert (T : forall w a : F, (s0 <= w)%S -> (s0 <= w * a * a)%S) by (intros w a Hw; replace (w * a * a)%S with (w * sq a)%S by (unfold sq; ring); now apply weight_nonneg).
    apply sle_add; [apply sle_add|]; apply sum2_nonneg; intros i j Hi Hj; apply T; [apply W1|apply W2|apply W3]; try assumption; unfold stp; lia.
  Qed.
  (** a polynomial 2 t a + t^2 b that is never negative has a = 0 *)
  Lemma no_slope (a b : F) : (s0 <= b)%S -> (forall t, (s0 <= s2 * t * a + t * t * b)%S) -> a = s0.
  Proof.
    intros B H. destruct (s_eq_dec a s0) as [E|N]; [exact E|exfalso].
    assert (B1 : (s0 < b + s1)%S) by (apply slt_add_l_nonneg; [exact B|apply s01_lt]). assert (N1 : (b + s1)%S <> s0) by (intros E1; exact (slt_neq _ _ B1 (eq_sym E1))).
    specialize (H (- a / (b + s1))%S).
    assert (E : (s2 * (- a / (b + s1)) * a + (- a / (b + s1)) * (- a / (b + s1)) * b)%S = (- (sq (a / (b + s1)) * (b + s2)))%S) by (unfold sq, s2; field; exact N1).
    rewrite E in H. apply sle_opp in H. replace (- - (sq (a / (b + s1)) * (b + s2)))%S with (sq (a / (b + s1)) * (b + s2))%S in H by ring. replace (- s0)%S with (s0 : F) in H by ring.
    assert (Q : a <> s0 -> (a / (b + s1))%S <> s0). { intros _ Z. apply N. transitivity ((a / (b + s1)) * (b + s1))%S; [field; exact N1|]. rewrite Z. ring. }
    pose proof (sq_pos _ (Q N)) as P1. assert (P2 : (s0 < b + s2)%S) by (apply slt_add_l_nonneg; [exact B|apply two_pos]).
    assert (E0 : (sq (a / (b + s1)) * (b + s2))%S = s0) by (apply sle_antisym; [exact H|apply smul_nonneg; now apply slt_le]).
    apply slt_neq in P1, P2. destruct (smul_integral _ _ E0); congruence.
  Qed.

  (** without bounds, admissible = trajectory + frozen tail *)
  Lemma unbounded_admissible p c x0 um x u : 0 < ph -> unbounded d c -> admissible d p c x0 um x u <-> trajectory d p c x0 x u /\ frozen d um u.
  Proof.
    intros P (B1 & B2 & B3 & B4). assert (SP : forall i, i <= ph -> stp i < ph) by (intros; unfold stp; lia). split.
    - intros (A1 & _ & _ & _ & A6 & _). now split.
    - intros [A1 A6]. refine (conj A1 (conj _ (conj _ (conj _ (conj A6 _))))).
      + intros i j Hi Hj. destruct (B1 (stp i) j (SP i Hi) Hj) as [-> ->]. now split.
      + intros i j Hi Hj. destruct (B2 (stp i) j (SP i Hi) Hj) as [-> ->]. now split.
      + intros i j Hi Hj. destruct (B3 (Nat.min i (ph - 1)) j ltac:(lia) Hj) as [-> ->]. now split.
      + intros i Hi. destruct (B4 (stp i) (SP i Hi)) as [-> ->]. now split.
  Qed.
  Lemma free_along p c x0 um x u dx du t : direction p dx du -> trajectory d p c x0 x u /\ frozen d um u -> trajectory d p c x0 (along t x dx) (along t u du) /\ frozen d um (along t u du).
  Proof.
    intros (D1 & D2 & D3) ((A1 & A2) & A3). refine (conj (conj _ _) _).
    - intros j Hj. unfold along. rewrite (A1 j Hj), (D1 j Hj). ring.
    - intros k j Hk Hj. unfold along. rewrite (A2 k j Hk Hj), (D2 k j Hk Hj).
      rewrite (ssum_ext nx (fun l => pl_A p j l * (x k l + t * dx k l))%S (fun l => pl_A p j l * x k l + t * (pl_A p j l * dx k l))%S) by (intros; ring).
      rewrite (ssum_ext nu (fun l => pl_B p j l * (u k l + t * du k l))%S (fun l => pl_B p j l * u k l + t * (pl_B p j l * du k l))%S) by (intros; ring).
      rewrite !ssum_add, !ssum_mul_l. ring.
    - intros i j Hc Hi Hj. rewrite ucmd_along. unfold along. now rewrite (A3 i j Hc Hi Hj), (D3 i j Hc Hi Hj).
  Qed.
  Definition diff (x' x : nat -> nat -> F) (i j : nat) : F := (x' i j - x i j)%S.
  Lemma diff_direction p c x0 um x u x' u' : trajectory d p c x0 x u /\ frozen d um u -> trajectory d p c x0 x' u' /\ frozen d um u' -> direction p (diff x' x) (diff u' u).
  Proof.
    intros ((A1 & A2) & A3) ((B1 & B2) & B3). refine (conj _ (conj _ _)).
    - intros j Hj. unfold diff. rewrite (A1 j Hj), (B1 j Hj). ring.
    - intros k j Hk Hj. unfold diff. rewrite (A2 k j Hk Hj), (B2 k j Hk Hj).
      rewrite (ssum_ext nx (fun l => pl_A p j l * (x' k l - x k l))%S (fun l => pl_A p j l * x' k l - pl_A p j l * x k l)%S) by (intros; ring).
      rewrite (ssum_ext nu (fun l => pl_B p j l * (u' k l - u k l))%S (fun l => pl_B p j l * u' k l - pl_B p j l * u k l)%S) by (intros; ring).
      rewrite !ssum_sub. ring.
    - intros i j Hc Hi Hj. unfold diff at 1. rewrite (A3 i j Hc Hi Hj), (B3 i j Hc Hi Hj). destruct i; [lia|]. reflexivity.
  Qed.
  Lemma stationary p c x0 um x u : 0 < ph -> weights_nonneg d c -> trajectory d p c x0 x u /\ frozen d um u ->
    (forall x' u', trajectory d p c x0 x' u' /\ frozen d um u' -> (tracking_cost d p c um x u <= tracking_cost d p c um x' u')%S) <->
    (forall dx du, direction p dx du -> lin p c um x u dx du = s0).
  Proof.
    intros P W A. split.
    - intros O dx du D. apply (no_slope _ (quad p c dx du)); [now apply quad_nonneg|]. intros t. pose proof (O _ _ (free_along p c x0 um x u dx du t D A)) as L. rewrite cost_along in L.
      apply sle_sub_0 in L. now replace (tracking_cost d p c um x u + s2 * t * lin p c um x u dx du + t * t * quad p c dx du - tracking_cost d p c um x u)%S with (s2 * t * lin p c um x u dx du + t * t * quad p c dx du)%S in L by ring.
    - intros L x' u' A'. pose proof (diff_direction p c x0 um x u x' u' A A') as D.
      assert (E : tracking_cost d p c um x' u' = tracking_cost d p c um (along s1 x (diff x' x)) (along s1 u (diff u' u))) by (apply tracking_ext; [exact P| |]; intros; unfold along, diff; ring).
      rewrite E, cost_along, (L _ _ D). apply sle_sub_0. replace (_ - _)%S with (quad p c (diff x' x) (diff u' u)) by ring. now apply quad_nonneg.
  Qed.

  (** same model: same directions *)
  Lemma dir_same p p' c c' dx du : g_plant c = Some p -> g_plant c' = Some p' -> same_model d c c' -> direction p' dx du -> direction p dx du.
  Proof.
    intros G G' (MP & _ & _) (D1 & D2 & D3). rewrite G, G' in MP. destruct MP as (MA & MB & _). refine (conj D1 (conj _ D3)).
    intros k j Hk Hj. rewrite (D2 k j Hk Hj). f_equal; apply ssum_ext; intros l Hl; [now rewrite (MA j l Hj Hl)|now rewrite (MB j l Hj Hl)].
  Qed.
  Lemma bil_mix n m (w w1 w2 y y1 y2 e e1 e2 : nat -> nat -> F) a b :
    (forall i j, i < n -> j < m -> w1 i j = w i j /\ w2 i j = w i j /\ e1 i j = e i j /\ e2 i j = e i j /\ y i j = (a * y1 i j + b * y2 i j)%S) ->
    bil n m w y e = (a * bil n m w1 y1 e1 + b * bil n m w2 y2 e2)%S.
  Proof.
    intros H. unfold bil. rewrite <- !ssum_mul_l, <- ssum_add. apply ssum_ext. intros i Hi. rewrite <- !ssum_mul_l, <- ssum_add. apply ssum_ext. intros j Hj.
    destruct (H i j Hi Hj) as (-> & -> & -> & -> & ->). ring.
  Qed.
  Lemma ssum_mix n a b (m f g : nat -> F) : ssum n (fun l => m l * (a * f l + b * g l))%S = (a * ssum n (fun l => m l * f l) + b * ssum n (fun l => m l * g l))%S.
  Proof. rewrite <- !ssum_mul_l, <- ssum_add. apply ssum_ext. intros; ring. Qed.

  Section Mix.
    Variables (a b : F) (p1 p2 p3 : plant F) (c1 c2 c3 : cfg F) (x01 um1 x02 um2 x03 um3 : nat -> F).
    Hypotheses (P : 0 < ph) (G1 : g_plant c1 = Some p1) (G2 : g_plant c2 = Some p2) (G3 : g_plant c3 = Some p3) (S : superposed d a b c1 c2 c3)
      (HX : forall j, j < nx -> x03 j = mix a b x01 x02 j) (HU : forall j, j < nu -> um3 j = mix a b um1 um2 j).
    Lemma SP i : i <= ph -> stp i < ph. Proof using P. unfold stp. lia. Qed.
    Lemma out_mix x1 x2 i j : i <= ph -> j < ny -> output d p3 c3 (mix2 a b x1 x2) i j = (a * output d p1 c1 x1 i j + b * output d p2 c2 x2 i j)%S.
    Proof using P G1 G2 G3 S SL.
      intros Hi Hj. destruct (sp_m1 _ _ _ _ _ _ S) as (M1 & _ & D1). destruct (sp_m2 _ _ _ _ _ _ S) as (M2 & _ & D2). rewrite G1, G3 in M1. rewrite G2, G3 in M2.
      destruct M1 as (_ & _ & C1). destruct M2 as (_ & _ & C2). unfold output, mix2. rewrite ssum_mix.
      rewrite (ssum_ext ndu (fun l => g_Dd c3 j l * g_d c3 (stp i) l)%S (fun l => g_Dd c3 j l * (a * g_d c1 (stp i) l + b * g_d c2 (stp i) l))%S) by (intros l Hl; now rewrite (sp_d _ _ _ _ _ _ S (stp i) l (SP i Hi) Hl)).
      rewrite ssum_mix. rewrite (ssum_ext nx (fun l => pl_C p1 j l * x1 i l)%S (fun l => pl_C p3 j l * x1 i l)%S) by (intros l Hl; now rewrite (C1 j l Hj Hl)).
      rewrite (ssum_ext nx (fun l => pl_C p2 j l * x2 i l)%S (fun l => pl_C p3 j l * x2 i l)%S) by (intros l Hl; now rewrite (C2 j l Hj Hl)).
      rewrite (ssum_ext ndu (fun l => g_Dd c1 j l * g_d c1 (stp i) l)%S (fun l => g_Dd c3 j l * g_d c1 (stp i) l)%S) by (intros l Hl; now rewrite (D1 j l Hj Hl)).
      rewrite (ssum_ext ndu (fun l => g_Dd c2 j l * g_d c2 (stp i) l)%S (fun l => g_Dd c3 j l * g_d c2 (stp i) l)%S) by (intros l Hl; now rewrite (D2 j l Hj Hl)). ring.
    Qed.
    Lemma ucmd_mix u1 u2 i j : j < nu -> ucmd um3 (mix2 a b u1 u2) i j = (a * ucmd um1 u1 i j + b * ucmd um2 u2 i j)%S.
    Proof using HU. intros Hj. destruct i; cbn [ucmd]; [now apply HU|reflexivity]. Qed.
    Lemma dcmd_mix u1 u2 i j : j < nu -> dcmd um3 (mix2 a b u1 u2) i j = (a * dcmd um1 u1 i j + b * dcmd um2 u2 i j)%S.
    Proof using HU SL. intros Hj. unfold dcmd. rewrite ucmd_mix by exact Hj. unfold mix2. ring. Qed.
    Lemma free_mix x1 u1 x2 u2 : trajectory d p1 c1 x01 x1 u1 /\ frozen d um1 u1 -> trajectory d p2 c2 x02 x2 u2 /\ frozen d um2 u2 ->
      trajectory d p3 c3 x03 (mix2 a b x1 x2) (mix2 a b u1 u2) /\ frozen d um3 (mix2 a b u1 u2).
    Proof using P G1 G2 G3 S HX HU SL.
      intros ((A1 & A2) & A3) ((B1 & B2) & B3).
      destruct (sp_m1 _ _ _ _ _ _ S) as (M1 & D1 & _). destruct (sp_m2 _ _ _ _ _ _ S) as (M2 & D2 & _). rewrite G1, G3 in M1. rewrite G2, G3 in M2.
      destruct M1 as (MA1 & MB1 & _). destruct M2 as (MA2 & MB2 & _).
      refine (conj (conj _ _) _).
      - intros j Hj. unfold mix2. rewrite (A1 j Hj), (B1 j Hj). symmetry. now apply HX.
      - intros k j Hk Hj. unfold mix2 at 1. rewrite (A2 k j Hk Hj), (B2 k j Hk Hj). unfold mix2. rewrite !ssum_mix.
        rewrite (ssum_ext ndu (fun l => g_Bd c3 j l * g_d c3 k l)%S (fun l => g_Bd c3 j l * (a * g_d c1 k l + b * g_d c2 k l))%S) by (intros l Hl; now rewrite (sp_d _ _ _ _ _ _ S k l Hk Hl)).
        rewrite ssum_mix.
        rewrite (ssum_ext nx (fun l => pl_A p1 j l * x1 k l)%S (fun l => pl_A p3 j l * x1 k l)%S) by (intros l Hl; now rewrite (MA1 j l Hj Hl)).
        rewrite (ssum_ext nx (fun l => pl_A p2 j l * x2 k l)%S (fun l => pl_A p3 j l * x2 k l)%S) by (intros l Hl; now rewrite (MA2 j l Hj Hl)).
        rewrite (ssum_ext nu (fun l => pl_B p1 j l * u1 k l)%S (fun l => pl_B p3 j l * u1 k l)%S) by (intros l Hl; now rewrite (MB1 j l Hj Hl)).
        rewrite (ssum_ext nu (fun l => pl_B p2 j l * u2 k l)%S (fun l => pl_B p3 j l * u2 k l)%S) by (intros l Hl; now rewrite (MB2 j l Hj Hl)).
        rewrite (ssum_ext ndu (fun l => g_Bd c1 j l * g_d c1 k l)%S (fun l => g_Bd c3 j l * g_d c1 k l)%S) by (intros l Hl; now rewrite (D1 j l Hj Hl)).
        rewrite (ssum_ext ndu (fun l => g_Bd c2 j l * g_d c2 k l)%S (fun l => g_Bd c3 j l * g_d c2 k l)%S) by (intros l Hl; now rewrite (D2 j l Hj Hl)). ring.
      - intros i j Hc Hi Hj. rewrite ucmd_mix by exact Hj. unfold mix2. now rewrite (A3 i j Hc Hi Hj), (B3 i j Hc Hi Hj).
    Qed.
    Lemma lin_mix x1 u1 x2 u2 dx du : lin p3 c3 um3 (mix2 a b x1 x2) (mix2 a b u1 u2) dx du = (a * lin p1 c1 um1 x1 u1 dx du + b * lin p2 c2 um2 x2 u2 dx du)%S.
    Proof using P G1 G2 G3 S HU SL.
      destruct (sp_m1 _ _ _ _ _ _ S) as (M1 & _ & _). destruct (sp_m2 _ _ _ _ _ _ S) as (M2 & _ & _). rewrite G1, G3 in M1. rewrite G2, G3 in M2.
      destruct M1 as (_ & _ & C1). destruct M2 as (_ & _ & C2). destruct (sp_w1 _ _ _ _ _ _ S) as (V1 & V2 & V3). destruct (sp_w2 _ _ _ _ _ _ S) as (V1' & V2' & V3').
      pose proof (sp_yr _ _ _ _ _ _ S) as RY. pose proof (sp_ur _ _ _ _ _ _ S) as RU. pose proof (sp_dur _ _ _ _ _ _ S) as RD.
      unfold lin.
      rewrite (bil_mix (ph + 1) ny _ (fun i j => g_wy c1 (stp i) j) (fun i j => g_wy c2 (stp i) j) _ (fun i j => output d p1 c1 x1 i j - g_yr c1 (stp i) j)%S (fun i j => output d p2 c2 x2 i j - g_yr c2 (stp i) j)%S _ (out0 p1 dx) (out0 p2 dx) a b).
      rewrite (bil_mix (ph + 1) nu _ (fun i j => g_wu c1 (stp i) j) (fun i j => g_wu c2 (stp i) j) _ (fun i j => ucmd um1 u1 i j - g_ur c1 (stp i) j)%S (fun i j => ucmd um2 u2 i j - g_ur c2 (stp i) j)%S _ (ucmd z1 du) (ucmd z1 du) a b).
      rewrite (bil_mix ph nu _ (g_wdu c1) (g_wdu c2) _ (fun i j => dcmd um1 u1 i j - g_dur c1 (stp i) j)%S (fun i j => dcmd um2 u2 i j - g_dur c2 (stp i) j)%S _ (dcmd z1 du) (dcmd z1 du) a b).
      - ring.
      - intros i j Hi Hj. rewrite dcmd_mix by exact Hj. rewrite (RD (stp i) j (SP i ltac:(lia)) Hj). unfold mix2.
        refine (conj (V3 i j Hi Hj) (conj (V3' i j Hi Hj) (conj eq_refl (conj eq_refl _)))). ring.
      - intros i j Hi Hj. rewrite ucmd_mix by exact Hj. rewrite (RU (stp i) j (SP i ltac:(lia)) Hj). unfold mix2.
        refine (conj (V2 _ j (SP i ltac:(lia)) Hj) (conj (V2' _ j (SP i ltac:(lia)) Hj) (conj eq_refl (conj eq_refl _)))). ring.
      - intros i j Hi Hj. rewrite out_mix by (lia || exact Hj). rewrite (RY (stp i) j (SP i ltac:(lia)) Hj). unfold mix2.
        refine (conj (V1 _ j (SP i ltac:(lia)) Hj) (conj (V1' _ j (SP i ltac:(lia)) Hj) (conj _ (conj _ _)))); [| |ring]; unfold out0; apply ssum_ext; intros l Hl; [now rewrite (C1 j l Hj Hl)|now rewrite (C2 j l Hj Hl)].
    Qed.
  End Mix.
  Lemma same_weights_nonneg c c' : same_weights d c c' -> weights_nonneg d c -> weights_nonneg d c'.
  Proof. intros (E1 & E2 & E3) (W1 & W2 & W3). refine (conj _ (conj _ _)); intros k j Hk Hj; [rewrite <- (E1 k j)|rewrite <- (E2 k j)|rewrite <- (E3 k j)]; auto. Qed.
  Lemma same_weights_commands c c' : same_weights d c c' -> commands_weighted d c -> commands_weighted d c'.
  Proof. intros (E1 & E2 & E3) W k j Hk Hj. rewrite <- (E2 k j), <- (E3 k j) by assumption. now apply W. Qed.
  Lemma same_weights_back (c1 c2 c3 : cfg F) : same_weights d c1 c3 -> same_weights d c2 c3 -> same_weights d c1 c2.
  Proof. intros (A1 & A2 & A3) (B1 & B2 & B3). refine (conj _ (conj _ _)); intros k j Hk Hj; [rewrite (A1 k j), (B1 k j)|rewrite (A2 k j), (B2 k j)|rewrite (A3 k j), (B3 k j)]; auto. Qed.

  Implicit Types (s : lmpc F) (h : list (lop F * ret F)) (z : nat -> F).
  (** the combination of two optima is an optimum of the combined problem *)
  Theorem C73_optima_superpose a b s1 h1 p1 x1 u1 s2 h2 p2 x2 u2 s3 h3 p3 x3 u3 z1 z2 :
    0 < ph -> reached s1 h1 -> reached s2 h2 -> reached s3 h3 ->
    g_plant (cfg_run h1) = Some p1 -> g_plant (cfg_run h2) = Some p2 -> g_plant (cfg_run h3) = Some p3 ->
    sized x1 nx 1 -> sized u1 nu 1 -> sized x2 nx 1 -> sized u2 nu 1 -> sized x3 nx 1 -> sized u3 nu 1 ->
    unbounded d (cfg_run h1) -> unbounded d (cfg_run h2) -> unbounded d (cfg_run h3) -> weights_nonneg d (cfg_run h1) ->
    superposed d a b (cfg_run h1) (cfg_run h2) (cfg_run h3) ->
    (forall j, j < nx -> vec x3 j = mix a b (vec x1) (vec x2) j) -> (forall j, j < nu -> vec u3 j = mix a b (vec u1) (vec u2) j) ->
    qp_optimal (l_call d s1 x1 u1) z1 -> qp_optimal (l_call d s2 x2 u2) z2 ->
    qp_optimal (l_call d s3 x3 u3) (z_of d (vec u3) (mix2 a b (z_state d z1) (z_state d z2)) (mix2 a b (z_cmd d z1) (z_cmd d z2))).
  Proof.
    intros P H1 H2 H3 G1 G2 G3 X1 U1 X2 U2 X3 U3 B1 B2 B3 W1 S HX HU O1 O2.
    destruct (C15_optimality_transfer junk ejunk d s1 h1 p1 x1 u1 z1 P H1 G1 X1 U1 O1) as [A1 Op1].
    destruct (C15_optimality_transfer junk ejunk d s2 h2 p2 x2 u2 z2 P H2 G2 X2 U2 O2) as [A2 Op2].
    pose proof (same_weights_nonneg _ _ (sp_w1 _ _ _ _ _ _ S) W1) as W3.
    pose proof (same_weights_nonneg _ _ (same_weights_back _ _ _ (sp_w1 _ _ _ _ _ _ S) (sp_w2 _ _ _ _ _ _ S)) W1) as W2.
    pose proof (proj1 (unbounded_admissible p1 _ _ _ _ _ P B1) A1) as T1. pose proof (proj1 (unbounded_admissible p2 _ _ _ _ _ P B2) A2) as T2.
    pose proof (free_mix a b p1 p2 p3 _ _ _ (vec x1) (vec u1) (vec x2) (vec u2) (vec x3) (vec u3) P G1 G2 G3 S HX HU _ _ _ _ T1 T2) as T3.
    apply (C15_converse junk ejunk d s3 h3 p3 x3 u3 _ _ P H3 G3 X3 U3).
    - apply (proj2 (unbounded_admissible p3 _ _ _ _ _ P B3) T3).
    - intros x' u' A'. apply (unbounded_admissible p3 _ _ _ _ _ P B3) in A'. revert x' u' A'.
      apply (proj2 (stationary p3 _ (vec x3) (vec u3) _ _ P W3 T3)). intros dx du D.
      rewrite (lin_mix a b p1 p2 p3 _ _ _ (vec u1) (vec u2) (vec u3) P G1 G2 G3 S HU).
      rewrite (proj1 (stationary p1 _ (vec x1) (vec u1) _ _ P W1 T1)); [rewrite (proj1 (stationary p2 _ (vec x2) (vec u2) _ _ P W2 T2)); [ring| |]| |].
      + intros x' u' A'. apply Op2. now apply (proj2 (unbounded_admissible p2 _ _ _ _ _ P B2)).
      + exact (dir_same p2 p3 _ _ dx du G2 G3 (sp_m2 _ _ _ _ _ _ S) D).
      + intros x' u' A'. apply Op1. now apply (proj2 (unbounded_admissible p1 _ _ _ _ _ P B1)).
      + exact (dir_same p1 p3 _ _ dx du G1 G3 (sp_m1 _ _ _ _ _ _ S) D).
  Qed.
  (** without bounds the returned command is linear in (state, last command, references, disturbances) *)
  Theorem C73_linear_feedback a b s1 h1 p1 x1 u1 s2 h2 p2 x2 u2 s3 h3 p3 x3 u3 z1 y1 c1 o1 t1 r1 z2 y2 c2 o2 t2 r2 z3 y3 c3 o3 t3 r3 :
    0 < ph -> reached s1 h1 -> reached s2 h2 -> reached s3 h3 ->
    g_plant (cfg_run h1) = Some p1 -> g_plant (cfg_run h2) = Some p2 -> g_plant (cfg_run h3) = Some p3 ->
    sized x1 nx 1 -> sized u1 nu 1 -> sized x2 nx 1 -> sized u2 nu 1 -> sized x3 nx 1 -> sized u3 nu 1 ->
    unbounded d (cfg_run h1) -> unbounded d (cfg_run h2) -> unbounded d (cfg_run h3) -> weights_nonneg d (cfg_run h1) -> commands_weighted d (cfg_run h1) ->
    superposed d a b (cfg_run h1) (cfg_run h2) (cfg_run h3) ->
    (forall j, j < nx -> vec x3 j = mix a b (vec x1) (vec x2) j) -> (forall j, j < nu -> vec u3 j = mix a b (vec u1) (vec u2) j) ->
    qp_optimal (l_call d s1 x1 u1) z1 -> qp_optimal (l_call d s2 x2 u2) z2 -> qp_optimal (l_call d s3 x3 u3) z3 ->
    step s1 (LOptimize x1 u1 (ASolution z1 y1 c1 o1)) = Ok (t1, RResult r1) ->
    step s2 (LOptimize x2 u2 (ASolution z2 y2 c2 o2)) = Ok (t2, RResult r2) ->
    step s3 (LOptimize x3 u3 (ASolution z3 y3 c3 o3)) = Ok (t3, RResult r3) ->
    (forall j, j < nu -> vec (r_cmd r3) j = (a * vec (r_cmd r1) j + b * vec (r_cmd r2) j)%S) /\
    (forall i j, i <= ph -> j < nx -> ent (q_state (o_seq (l_o t3))) i j = (a * ent (q_state (o_seq (l_o t1))) i j + b * ent (q_state (o_seq (l_o t2))) i j)%S) /\
    (forall i j, i <= ph -> j < nu -> ent (q_input (o_seq (l_o t3))) i j = (a * ent (q_input (o_seq (l_o t1))) i j + b * ent (q_input (o_seq (l_o t2))) i j)%S).
  Proof.
    intros P H1 H2 H3 G1 G2 G3 X1 U1 X2 U2 X3 U3 B1 B2 B3 W1 Wc S HX HU O1 O2 O3 E1 E2 E3.
    pose proof (C73_optima_superpose a b s1 h1 p1 x1 u1 s2 h2 p2 x2 u2 s3 h3 p3 x3 u3 z1 z2 P H1 H2 H3 G1 G2 G3 X1 U1 X2 U2 X3 U3 B1 B2 B3 W1 S HX HU O1 O2) as O.
    pose proof (same_weights_nonneg _ _ (sp_w1 _ _ _ _ _ _ S) W1) as W3. pose proof (same_weights_commands _ _ (sp_w1 _ _ _ _ _ _ S) Wc) as Wc3.
    destruct (C54_unique_optimum junk ejunk d s3 h3 p3 x3 u3 z3 _ P H3 G3 X3 U3 W3 Wc3 O3 O) as [EU EX].
    assert (EU' : forall k j, k < ph -> j < nu -> z_cmd d z3 k j = (a * z_cmd d z1 k j + b * z_cmd d z2 k j)%S) by (intros k j Hk Hj; rewrite EU by assumption; now rewrite z_of_u).
    assert (EX' : forall k j, k <= ph -> j < nx -> z_state d z3 k j = (a * z_state d z1 k j + b * z_state d z2 k j)%S) by (intros k j Hk Hj; rewrite EX by assumption; rewrite z_of_x by (lia || assumption); reflexivity).
    clear EU EX O.
    destruct (C14_sequences junk ejunk d s1 h1 p1 x1 u1 z1 y1 c1 o1 t1 _ P H1 G1 X1 U1 E1) as (q1 & Er1 & A1 & A2 & A3 & _ & A5 & _).
    destruct (C14_sequences junk ejunk d s2 h2 p2 x2 u2 z2 y2 c2 o2 t2 _ P H2 G2 X2 U2 E2) as (q2 & Er2 & A1' & A2' & A3' & _ & A5' & _).
    destruct (C14_sequences junk ejunk d s3 h3 p3 x3 u3 z3 y3 c3 o3 t3 _ P H3 G3 X3 U3 E3) as (q3 & Er3 & A1'' & A2'' & A3'' & _ & A5'' & _).
    injection Er1 as <-. injection Er2 as <-. injection Er3 as <-.
    refine (conj _ (conj _ _)).
    - intros j Hj. rewrite A5, A5', A5'', A2, A2', A2'' by (assumption || lia). apply EU'; [exact P|exact Hj].
    - intros i j Hi Hj. rewrite A1, A1', A1'' by assumption. now apply EX'.
    - intros i j Hi Hj. destruct (Nat.eq_dec i ph) as [->|N]; [rewrite A3, A3', A3'' by exact Hj|rewrite A2, A2', A2'' by (exact Hj || lia)]; apply EU'; (exact Hj || lia).
  Qed.
End Super.

(** *** Instances (the rest point of PropLMPC4 in other units, with wider bounds, without bounds) *)
Definition ext_b (a b : ext Qc) : bool :=
  match a, b with Fin x, Fin y => sleb x y && sleb y x | PInf, PInf | MInf, MInf => true | _, _ => false end.
Lemma ext_b_ok a b : ext_b a b = true -> a = b.
Proof. destruct a, b; cbn; intros H; try discriminate H; try reflexivity. f_equal. now apply qc_eq. Qed.
Definition box_b (a : Qc) lo hi lo' hi' : bool :=
  if sltb s0 a then ext_b lo' (emul a lo) && ext_b hi' (emul a hi) else ext_b lo' (emul a hi) && ext_b hi' (emul a lo).
Lemma box_b_ok a lo hi lo' hi' : box_b a lo hi lo' hi' = true -> box_in a lo hi lo' hi'.
Proof. unfold box_b, box_in. destruct (sltb s0 a); intros H; apply andb_true_iff in H as [H1 H2]; split; now apply ext_b_ok. Qed.
Definition all2 (n m : nat) (f : nat -> nat -> bool) : bool := forallb (fun i => forallb (f i) (seq 0 m)) (seq 0 n).
Lemma all2_ok n m f : all2 n m f = true -> forall i j, i < n -> j < m -> f i j = true.
Proof.
  unfold all2. rewrite forallb_forall. intros H i j Hi Hj. specialize (H i ltac:(rewrite in_seq; lia)). rewrite forallb_forall in H. apply H. rewrite in_seq. lia.
Qed.
Ltac qsteps k Hk := destruct k as [|[|k]]; [| |cbn in Hk; lia].
Ltac qrow j Hj := destruct j as [|j]; [|cbn in Hj; lia].
Ltac qeq := apply qc_eq; vm_compute; reflexivity.

Local Notation one := (qm 1 1 [[1]]%Z).
(** lengths in halves of the old unit, reversed commands, ... *)
Definition m_units : units Qc := mkUnits (fun _ => q 2) (fun _ => q (-1)) (fun _ => q 2) (fun _ => q 1) (q (-2)) (q 4).
Definition m_ops : list (lop Qc) :=
  [ LSetModel one (qm 1 1 [[-2]]%Z) one; LSetDisturbances (qm 1 1 [[2]]%Z) (qm 1 1 [[2]]%Z);
    LSetStateBounds (qe [-18]%Z) (qe [18]%Z) slice_all; LSetOutputBounds (qe [-18]%Z) (qe [18]%Z) (mkSlice 0 1);
    LSetInputBoundsMat (qme 1 2 [[-4; -5]]%Z) (qme 1 2 [[4; 5]]%Z);
    LSetScalar (Fin (q (-40))) (Fin (q 40)) (qv [-1]%Z) (qv [2]%Z) slice_all;
    LSetWeights (qv [1]%Z) (qv [0]%Z) (qv [4]%Z) slice_all;
    LSetRefs (qv [6]%Z) (qv [-5]%Z) (qv [0]%Z) slice_all; LSetExo (qv [1]%Z) slice_all ].
Definition m_h := wH ex_d m_ops. Definition m_s := wS ex_d m_ops.
Lemma m_reached : reached qj qej ex_d m_s m_h. Proof. w_reach. Qed.
Lemma m_plant : g_plant (cfg_run m_h) = Some (wp m_h). Proof. apply w_plant. vm_compute. reflexivity. Qed.
Lemma m_ok : units_ok ex_d m_units.
Proof.
  refine (conj _ (conj _ (conj _ (conj _ (conj _ _))))); [intros j Hj| intros j Hj| intros j Hj|intros j Hj| |vm_compute; reflexivity];
    intros E; apply (f_equal (fun x => sleb x s0 && sleb s0 x)) in E; vm_compute in E; discriminate E.
Qed.
Lemma m_plant_in : plant_in ex_d m_units (wp r_h) (wp m_h).
Proof. refine (conj _ (conj _ _)); intros i l Hi Hl; qrow i Hi; qrow l Hl; qeq. Qed.
Lemma m_cfg_in : cfg_in ex_d m_units (cfg_run r_h) (cfg_run m_h).
Proof.
  constructor.
  - intros i l Hi Hl; qrow i Hi; qrow l Hl; qeq.
  - intros i l Hi Hl; qrow i Hi; qrow l Hl; qeq.
  - intros i l Hi Hl; qsteps i Hi; qrow l Hl; qeq.
  - intros i l Hi Hl; qsteps i Hi; qrow l Hl; qeq.
  - intros i l Hi Hl; qsteps i Hi; qrow l Hl; qeq.
  - intros i l Hi Hl; qsteps i Hi; qrow l Hl; qeq.
  - intros i l Hi Hl; qsteps i Hi; qrow l Hl; qeq.
  - intros i l Hi Hl; qsteps i Hi; qrow l Hl; qeq.
  - intros i l Hi Hl; qsteps i Hi; qrow l Hl; qeq.
  - intros i l Hi Hl; qsteps i Hi; qrow l Hl; apply box_b_ok; vm_compute; reflexivity.
  - intros i l Hi Hl; qsteps i Hi; qrow l Hl; apply box_b_ok; vm_compute; reflexivity.
  - intros i l Hi Hl; qsteps i Hi; qrow l Hl; apply box_b_ok; vm_compute; reflexivity.
  - intros i Hi; qsteps i Hi; apply box_b_ok; vm_compute; reflexivity.
  - intros l Hl; qrow l Hl; qeq.
  - intros l Hl; qrow l Hl; qeq.
Qed.
Lemma m_x : forall j, j < d_nx ex_d -> vec (qv [4]%Z) j = (un_x m_units j * vec (qv [2]%Z) j)%S.
Proof. intros j Hj. qrow j Hj. qeq. Qed.
Lemma m_u : forall j, j < d_nu ex_d -> vec (qv [1]%Z) j = (un_u m_units j * vec (qv [-1]%Z) j)%S.
Proof. intros j Hj. qrow j Hj. qeq. Qed.
Definition runs (d : dims) (s : lmpc Qc) (x0 u0 : mat Qc) (z : nat -> Qc) : Prop :=
  exists s1 r1, l_step qj qej d s (LOptimize x0 u0 (ASolution z (fun _ => q 0) 1 (Fin (q 0)))) = Ok (s1, RResult r1).
Lemma runs_b d s x0 u0 z : match l_step qj qej d s (LOptimize x0 u0 (ASolution z (fun _ => q 0) 1 (Fin (q 0)))) with Ok (_, RResult _) => true | _ => false end = true -> runs d s x0 u0 z.
Proof. unfold runs. destruct (l_step _ _ _ _ _) as [[s1 [| | |r1]]|]; intros E; try discriminate E. exists s1, r1. reflexivity. Qed.
Example C71_instance : exists z', reached qj qej ex_d r_s r_h /\ reached qj qej ex_d m_s m_h /\ units_ok ex_d m_units /\ plant_in ex_d m_units (wp r_h) (wp m_h) /\
  cfg_in ex_d m_units (cfg_run r_h) (cfg_run m_h) /\ weights_nonneg ex_d (cfg_run r_h) /\ commands_weighted ex_d (cfg_run r_h) /\
  qp_optimal (l_call ex_d r_s (qv [2]%Z) (qv [-1]%Z)) r_z /\ qp_optimal (l_call ex_d m_s (qv [4]%Z) (qv [1]%Z)) z' /\
  runs ex_d r_s (qv [2]%Z) (qv [-1]%Z) r_z /\ runs ex_d m_s (qv [4]%Z) (qv [1]%Z) z'.
Proof.
  eexists. refine (conj r_reached (conj m_reached (conj m_ok (conj m_plant_in (conj m_cfg_in (conj r_weights (conj r_weighted (conj r_optimal (conj _ (conj _ _)))))))))).
  - exact (C71_optimum_converts qj qej ex_d m_units r_s r_h (wp r_h) (qv [2]%Z) (qv [-1]%Z) m_s m_h (wp m_h) (qv [4]%Z) (qv [1]%Z) r_z ltac:(cbn; lia) r_reached m_reached r_plant m_plant
      ltac:(repeat split) ltac:(repeat split) ltac:(repeat split) ltac:(repeat split) m_ok m_plant_in m_cfg_in m_x m_u r_optimal).
  - apply runs_b. vm_compute. reflexivity.
  - apply runs_b. vm_compute. reflexivity.
Qed.

(** wider state bounds, no output bounds *)
Definition k_ops : list (lop Qc) :=
  [ LSetModel one one one; LSetDisturbances one one; LSetStateBounds (qe [-10]%Z) (qe [30]%Z) slice_all;
    LSetInputBoundsMat (qme 1 2 [[-4; -5]]%Z) (qme 1 2 [[4; 8]]%Z);
    LSetScalar (Fin (q (-20))) (Fin (q 20)) (qv [1]%Z) (qv [1]%Z) slice_all;
    LSetWeights (qv [1]%Z) (qv [0]%Z) (qv [1]%Z) slice_all;
    LSetRefs (qv [3]%Z) (qv [5]%Z) (qv [0]%Z) slice_all; LSetExo (qv [1]%Z) slice_all ].
Definition k_h := wH ex_d k_ops. Definition k_s := wS ex_d k_ops.
Lemma k_reached : reached qj qej ex_d k_s k_h. Proof. w_reach. Qed.
Lemma k_plant : g_plant (cfg_run k_h) = Some (wp k_h). Proof. apply w_plant. vm_compute. reflexivity. Qed.
Definition wider_b (lo hi lo' hi' : ext Qc) : bool :=
  match lo', lo with MInf, _ => true | Fin a', Fin a => sleb a' a | _, _ => false end && match hi', hi with PInf, _ => true | Fin a', Fin a => sleb a a' | _, _ => false end.
Lemma wider_b_ok lo hi lo' hi' : wider_b lo hi lo' hi' = true -> wider lo hi lo' hi'.
Proof.
  unfold wider_b, wider, within. intros H v [A B]. apply andb_true_iff in H as [H1 H2]. split.
  - destruct lo' as [x'| |], lo as [x| |]; cbn in *; try discriminate H1; try exact I. exact (s_le_trans x' x v H1 A).
  - destruct hi' as [x'| |], hi as [x| |]; cbn in *; try discriminate H2; try exact I. exact (s_le_trans v x x' B H2).
Qed.
Lemma plants_same (h h' : list (lop Qc * ret Qc)) (d : dims) : has_plant h = true -> has_plant h' = true ->
  eqm (d_nx d) (d_nx d) (pl_A (wp h)) (pl_A (wp h')) -> eqm (d_nx d) (d_nu d) (pl_B (wp h)) (pl_B (wp h')) -> eqm (d_ny d) (d_nx d) (pl_C (wp h)) (pl_C (wp h')) ->
  same_plant d (g_plant (cfg_run h)) (g_plant (cfg_run h')).
Proof. intros A B E1 E2 E3. rewrite (w_plant h A), (w_plant h' B). exact (conj E1 (conj E2 E3)). Qed.
Ltac qm1 := intros i l Hi Hl; qrow i Hi; qrow l Hl; qeq.
Ltac qms := intros i l Hi Hl; qsteps i Hi; qrow l Hl; qeq.
Ltac q_model := refine (conj _ (conj _ _)); [apply plants_same; [vm_compute; reflexivity|vm_compute; reflexivity|qm1|qm1|qm1]|qm1|qm1].
Lemma k_relaxed : relaxed ex_d (cfg_run r_h) (cfg_run k_h).
Proof.
  constructor.
  - q_model.
  - refine (conj _ (conj _ _)); qms.
  - split; intros l Hl; qrow l Hl; qeq.
  - refine (conj _ (conj _ _)); qms.
  - qms.
  - intros i l Hi Hl; qsteps i Hi; qrow l Hl; apply wider_b_ok; vm_compute; reflexivity.
  - intros i l Hi Hl; qsteps i Hi; qrow l Hl; apply wider_b_ok; vm_compute; reflexivity.
  - intros i l Hi Hl; qsteps i Hi; qrow l Hl; apply wider_b_ok; vm_compute; reflexivity.
  - intros i Hi; qsteps i Hi; apply wider_b_ok; vm_compute; reflexivity.
Qed.
Ltac q_weights := refine (conj _ (conj _ _)); intros k j Hk Hj; qsteps k Hk; qrow j Hj; vm_compute; reflexivity.
Lemma k_rest : rest_point ex_d (wp k_h) (cfg_run k_h) (vec (qv [2]%Z)) (vec (qv [-1]%Z)).
Proof.
  refine (conj _ (conj _ (conj _ (conj _ (conj _ (conj _ (conj _ _))))))).
  - intros k j Hk Hj; qsteps k Hk; qrow j Hj; qeq.
  - intros k j Hk Hj; right; qsteps k Hk; qrow j Hj; qeq.
  - intros k j Hk Hj; left; qsteps k Hk; qrow j Hj; qeq.
  - intros k j Hk Hj; right; qsteps k Hk; qrow j Hj; qeq.
  - intros k j Hk Hj; qsteps k Hk; qrow j Hj; apply within_b_ok; vm_compute; reflexivity.
  - intros k j Hk Hj; qsteps k Hk; qrow j Hj; apply within_b_ok; vm_compute; reflexivity.
  - intros k j Hk Hj; qsteps k Hk; qrow j Hj; apply within_b_ok; vm_compute; reflexivity.
  - intros k Hk; qsteps k Hk; apply within_b_ok; vm_compute; reflexivity.
Qed.
Lemma k_weights : weights_nonneg ex_d (cfg_run k_h). Proof. q_weights. Qed.
Example C72_instance : reached qj qej ex_d r_s r_h /\ reached qj qej ex_d k_s k_h /\ relaxed ex_d (cfg_run r_h) (cfg_run k_h) /\
  qp_optimal (l_call ex_d r_s (qv [2]%Z) (qv [-1]%Z)) r_z /\ qp_optimal (l_call ex_d k_s (qv [2]%Z) (qv [-1]%Z)) r_z.
Proof.
  refine (conj r_reached (conj k_reached (conj k_relaxed (conj r_optimal _)))).
  exact (C55_rest_is_optimal qj qej ex_d k_s k_h (wp k_h) (qv [2]%Z) (qv [-1]%Z) ltac:(cbn; lia) k_reached k_plant ltac:(repeat split) ltac:(repeat split) k_weights k_rest).
Qed.

(** no bounds: the problem with reference 7 and disturbance 4 is twice the first minus the second *)
Definition p_ops (r dd : Z) : list (lop Qc) :=
  [ LSetModel one one one; LSetDisturbances one one; LSetWeights (qv [1]%Z) (qv [0]%Z) (qv [1]%Z) slice_all;
    LSetRefs (qv [r]%Z) (qv [0]%Z) (qv [0]%Z) slice_all; LSetExo (qv [dd]%Z) slice_all ].
Definition p_h r dd := wH ex_d (p_ops r dd). Definition p_s r dd := wS ex_d (p_ops r dd).
Lemma p_reached1 : reached qj qej ex_d (p_s 3 1) (p_h 3 1). Proof. w_reach. Qed.
Lemma p_reached2 : reached qj qej ex_d (p_s (-1) (-2)) (p_h (-1) (-2)). Proof. w_reach. Qed.
Lemma p_reached3 : reached qj qej ex_d (p_s 7 4) (p_h 7 4). Proof. w_reach. Qed.
Ltac q_plant := apply w_plant; vm_compute; reflexivity.
Ltac q_unb := refine (conj _ (conj _ (conj _ _))); [intros k j Hk Hj; qsteps k Hk; qrow j Hj|intros k j Hk Hj; qsteps k Hk; qrow j Hj|intros k j Hk Hj; qsteps k Hk; qrow j Hj|intros k Hk; qsteps k Hk]; vm_compute; split; reflexivity.
Ltac q_rest := refine (conj _ (conj _ (conj _ (conj _ (conj _ (conj _ (conj _ _))))))); intros k;
  [intros j Hk Hj; qsteps k Hk; qrow j Hj; qeq|intros j Hk Hj; right; qsteps k Hk; qrow j Hj; qeq|intros j Hk Hj; left; qsteps k Hk; qrow j Hj; qeq|intros j Hk Hj; right; qsteps k Hk; qrow j Hj; qeq
  |intros j Hk Hj; qsteps k Hk; qrow j Hj; apply within_b_ok; vm_compute; reflexivity|intros j Hk Hj; qsteps k Hk; qrow j Hj; apply within_b_ok; vm_compute; reflexivity
  |intros j Hk Hj; qsteps k Hk; qrow j Hj; apply within_b_ok; vm_compute; reflexivity|intros Hk; qsteps k Hk; apply within_b_ok; vm_compute; reflexivity].
Lemma p_rest1 : rest_point ex_d (wp (p_h 3 1)) (cfg_run (p_h 3 1)) (vec (qv [2]%Z)) (vec (qv [-1]%Z)). Proof. q_rest. Qed.
Lemma p_rest2 : rest_point ex_d (wp (p_h (-1) (-2))) (cfg_run (p_h (-1) (-2))) (vec (qv [1]%Z)) (vec (qv [2]%Z)). Proof. q_rest. Qed.
Lemma p_rest3 : rest_point ex_d (wp (p_h 7 4)) (cfg_run (p_h 7 4)) (vec (qv [3]%Z)) (vec (qv [-4]%Z)). Proof. q_rest. Qed.
Lemma p_super : superposed ex_d (q 2) (q (-1)) (cfg_run (p_h 3 1)) (cfg_run (p_h (-1) (-2))) (cfg_run (p_h 7 4)).
Proof.
  constructor; [q_model|q_model|refine (conj _ (conj _ _)); qms|refine (conj _ (conj _ _)); qms|qms|qms|qms|qms].
Qed.
Lemma p_opt r dd x u : reached qj qej ex_d (p_s r dd) (p_h r dd) -> g_plant (cfg_run (p_h r dd)) = Some (wp (p_h r dd)) -> weights_nonneg ex_d (cfg_run (p_h r dd)) ->
  sized x 1 1 -> sized u 1 1 -> rest_point ex_d (wp (p_h r dd)) (cfg_run (p_h r dd)) (vec x) (vec u) -> exists z, qp_optimal (l_call ex_d (p_s r dd) x u) z.
Proof. intros H G W X U R. eexists. exact (C55_rest_is_optimal qj qej ex_d _ _ _ x u ltac:(cbn; lia) H G X U W R). Qed.
Example C73_instance :
  reached qj qej ex_d (p_s 3 1) (p_h 3 1) /\ reached qj qej ex_d (p_s (-1) (-2)) (p_h (-1) (-2)) /\ reached qj qej ex_d (p_s 7 4) (p_h 7 4) /\
  unbounded ex_d (cfg_run (p_h 3 1)) /\ unbounded ex_d (cfg_run (p_h (-1) (-2))) /\ unbounded ex_d (cfg_run (p_h 7 4)) /\
  weights_nonneg ex_d (cfg_run (p_h 3 1)) /\ commands_weighted ex_d (cfg_run (p_h 3 1)) /\
  superposed ex_d (q 2) (q (-1)) (cfg_run (p_h 3 1)) (cfg_run (p_h (-1) (-2))) (cfg_run (p_h 7 4)) /\
  (exists z, qp_optimal (l_call ex_d (p_s 3 1) (qv [2]%Z) (qv [-1]%Z)) z) /\ (exists z, qp_optimal (l_call ex_d (p_s (-1) (-2)) (qv [1]%Z) (qv [2]%Z)) z) /\
  (exists z, qp_optimal (l_call ex_d (p_s 7 4) (qv [3]%Z) (qv [-4]%Z)) z).
Proof.
  assert (P1 : g_plant (cfg_run (p_h 3 1)) = Some (wp (p_h 3 1))) by q_plant. assert (P2 : g_plant (cfg_run (p_h (-1) (-2))) = Some (wp (p_h (-1) (-2)))) by q_plant.
  assert (P3 : g_plant (cfg_run (p_h 7 4)) = Some (wp (p_h 7 4))) by q_plant.
  assert (W1 : weights_nonneg ex_d (cfg_run (p_h 3 1))) by q_weights. assert (W2 : weights_nonneg ex_d (cfg_run (p_h (-1) (-2)))) by q_weights. assert (W3 : weights_nonneg ex_d (cfg_run (p_h 7 4))) by q_weights.
  refine (conj p_reached1 (conj p_reached2 (conj p_reached3 (conj _ (conj _ (conj _ (conj W1 (conj _ (conj p_super (conj _ (conj _ _))))))))))).
  - q_unb.
  - q_unb.
  - q_unb.
  - intros k j Hk Hj. right; left. qsteps k Hk; qrow j Hj; vm_compute; reflexivity.
  - apply p_opt; [exact p_reached1|exact P1|exact W1|repeat split|repeat split|exact p_rest1].
  - apply p_opt; [exact p_reached2|exact P2|exact W2|repeat split|repeat split|exact p_rest2].
  - apply p_opt; [exact p_reached3|exact P3|exact W3|repeat split|repeat split|exact p_rest3].
Qed.
Print Assumptions C71_same_commands. Print Assumptions C72_respected_bounds_change_nothing. Print Assumptions C73_linear_feedback.
