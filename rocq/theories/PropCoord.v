(** Property C84: state coordinates and operating point do not matter (vocabulary: SpecCoord.v). *)
From Coq Require Import Bool Arith ZArith List Lia QArith Qcanon Ring Field.
From Verif Require Import Scalar Sums Mat Slice Csc CscProof Builder BuilderEnt LMPC SpecLMPC SpecQP LMPCRef LQP LRows LUniq Wit PropLMPC1 PropLMPC2 PropLMPC3 PropLMPC4 SpecCoord.
Import ListNotations.
Local Open Scope nat_scope.

Section Lin.
  Context {F : Type} {SO : ScalarOps F} {SL : ScalarLaws F}.
  Add Field SFcl : (@s_field F SO SL).
  Lemma mv_mm n m (A B : nat -> nat -> F) v i : mv n A (mv m B v) i = mv m (mm n A B) v i.
  Proof.
    unfold mv, mm. transitivity (ssum n (fun l => ssum m (fun k => A i l * B l k * v k))%S).
    - apply ssum_ext. intros l _. rewrite <- ssum_mul_l. apply ssum_ext. intros k _. ring.
    - rewrite ssum_swap. apply ssum_ext. intros k _. now rewrite ssum_mul_r.
  Qed.
  Lemma mv_ext n (A B : nat -> nat -> F) v w i : (forall l, l < n -> A i l = B i l) -> (forall l, l < n -> v l = w l) -> mv n A v i = mv n B w i.
  Proof. intros H K. apply ssum_ext. intros l Hl. now rewrite H, K. Qed.
  Lemma mv_sub n (A : nat -> nat -> F) v w i : mv n A (fun l => v l - w l)%S i = (mv n A v i - mv n A w i)%S.
  Proof. unfold mv. rewrite <- ssum_sub. apply ssum_ext. intros l _. ring. Qed.
  Lemma mv_add n (A : nat -> nat -> F) v w i : mv n A (fun l => v l + w l)%S i = (mv n A v i + mv n A w i)%S.
  Proof. unfold mv. rewrite <- ssum_add. apply ssum_ext. intros l _. ring. Qed.
  Lemma mv_id n (A : nat -> nat -> F) v i : i < n -> (forall j, j < n -> A i j = if i =? j then s1 else s0) -> mv n A v i = v i.
  Proof.
    intros Hi H. unfold mv. rewrite (ssum_single n i _ Hi).
    - rewrite H, Nat.eqb_refl by exact Hi. ring.
    - intros j Hj N. rewrite H by exact Hj. replace (i =? j) with false by (symmetry; apply Nat.eqb_neq; congruence). ring.
  Qed.
  Lemma within_sub lo hi (b v : F) : within (sub_ext lo b) (sub_ext hi b) (v - b)%S <-> within lo hi v.
  Proof.
    assert (L : forall x y : F, (x - b <= y - b)%S <-> (x <= y)%S).
    { intros a y. split; intros H; [apply (sle_add_r _ _ b) in H; now replace (a - b + b)%S with a in H by ring; replace (y - b + b)%S with y in H by ring|].
      apply (sle_add_r _ _ (- b)%S) in H. now replace (a - b)%S with (a + - b)%S by ring; replace (y - b)%S with (y + - b)%S by ring. }
    unfold within. destruct lo, hi; cbn; rewrite ?L; tauto.
  Qed.
End Lin.

Section Coord.
  Context {F : Type} {SO : ScalarOps F} {SL : ScalarLaws F}.
  Add Field SFco : (@s_field F SO SL).
  Variables (junk : nat -> nat -> F) (ejunk : nat -> nat -> ext F) (d : dims).
  Notation nx := (d_nx d). Notation nu := (d_nu d). Notation ndu := (d_ndu d).
  Notation ny := (d_ny d). Notation ph := (d_ph d). Notation ch := (d_ch d).
  Notation reached := (SpecLMPC.reached junk ejunk d).
  Notation step := (l_step junk ejunk d).

  Section Spec.
    Variables (e : coords F) (p p' : plant F) (c c' : cfg F) (x0 um x0' um' : nat -> F).
    Hypotheses (P : 0 < ph) (OK : invertible d (co_T e)) (Op : operating_point d e p) (Hp : plant_at d e p p') (Hc : cfg_at d e c c')
      (Hx : forall j, j < nx -> x0' j = new_x d e x0 j) (Hu : forall j, j < nu -> um' j = new_u e um j).
    Notation X x := (fun k => new_x d e (x k)). Notation U u := (fun k => new_u e (u k)).

    Lemma new_x_inj v w : (forall j, j < nx -> new_x d e v j = new_x d e w j) -> forall j, j < nx -> v j = w j.
    Proof.
      destruct OK as (Ti & I1 & _). intros H j Hj.
      assert (K : forall u, mv nx Ti (new_x d e u) j = (u j - co_x e j)%S).
      { intros u. unfold new_x. rewrite mv_mm. apply (mv_id nx (mm nx Ti (co_T e)) (fun l => u l - co_x e l)%S); [exact Hj|]. intros l Hl. now apply I1. }
      assert (E : mv nx Ti (new_x d e v) j = mv nx Ti (new_x d e w) j) by (apply mv_ext; [reflexivity|exact H]).
      rewrite !K in E. replace (v j) with (v j - co_x e j + co_x e j)%S by ring. rewrite E. ring.
    Qed.
    Lemma new_x_surj v : exists w, forall j, j < nx -> new_x d e w j = v j.
    Proof.
      destruct OK as (Ti & _ & I2). exists (fun j => mv nx Ti v j + co_x e j)%S. intros j Hj. unfold new_x.
      rewrite (mv_ext nx (co_T e) (co_T e) _ (mv nx Ti v)) by (reflexivity || (intros; ring)).
      rewrite mv_mm. apply mv_id; [exact Hj|]. intros l Hl. now apply I2.
    Qed.
    Lemma stp_lt i : i <= ph -> stp i < ph. Proof. unfold stp. lia. Qed.
    Lemma output_at x i j : i <= ph -> j < ny -> output d p' c' (X x) i j = new_y e (output d p c x i) j.
    Proof.
      intros Hi Hj. destruct Op as [_ OY]. unfold output, new_y. change (ssum nx (fun l => pl_C p' j l * new_x d e (x i) l)%S) with (mv nx (pl_C p') (new_x d e (x i)) j).
      unfold new_x. rewrite mv_mm. rewrite (mv_ext nx _ (pl_C p) _ (fun l => x i l - co_x e l)%S) by ((intros; now apply Hp) || reflexivity). rewrite mv_sub, <- (OY j Hj).
      rewrite (ssum_ext ndu (fun l => g_Dd c' j l * g_d c' (stp i) l)%S (fun l => g_Dd c j l * g_d c (stp i) l)%S); [unfold mv; ring|].
      intros l Hl. rewrite (at_Dd _ _ _ _ Hc), (at_d _ _ _ _ Hc) by (assumption || now apply stp_lt). reflexivity.
    Qed.
    Lemma ucmd_at u i j : j < nu -> ucmd um' (U u) i j = new_u e (ucmd um u i) j.
    Proof. intros Hj. destruct i; cbn [ucmd]; [now apply Hu|reflexivity]. Qed.
    Lemma dcmd_at u i j : j < nu -> dcmd um' (U u) i j = dcmd um u i j.
    Proof. intros Hj. unfold dcmd. rewrite ucmd_at by exact Hj. unfold new_u. ring. Qed.
    Lemma next_at x u k j : k < ph -> j < nx ->
      (ssum nx (fun l => pl_A p' j l * X x k l) + ssum nu (fun l => pl_B p' j l * U u k l) + ssum ndu (fun l => g_Bd c' j l * g_d c' k l))%S =
      new_x d e (fun a => ssum nx (fun l => pl_A p a l * x k l) + ssum nu (fun l => pl_B p a l * u k l) + ssum ndu (fun l => g_Bd c a l * g_d c k l))%S j.
    Proof.
      intros Hk Hj. destruct Op as [OX _].
      assert (E1 : ssum nx (fun l => pl_A p' j l * X x k l)%S = mv nx (co_T e) (mv nx (pl_A p) (fun l => x k l - co_x e l)%S) j).
      { transitivity (mv nx (pl_A p') (mv nx (co_T e) (fun l => x k l - co_x e l)%S) j); [reflexivity|]. rewrite !mv_mm. apply mv_ext; [|reflexivity]. intros l Hl. now apply Hp. }
      assert (E2 : ssum nu (fun l => pl_B p' j l * U u k l)%S = mv nx (co_T e) (mv nu (pl_B p) (fun l => u k l - co_u e l)%S) j).
      { rewrite mv_mm. apply (mv_ext nu (pl_B p')); [|reflexivity]. intros l Hl. now apply Hp. }
      assert (E3 : ssum ndu (fun l => g_Bd c' j l * g_d c' k l)%S = mv nx (co_T e) (mv ndu (g_Bd c) (g_d c k)) j).
      { rewrite mv_mm. apply (mv_ext ndu (g_Bd c')); intros l Hl; [now apply Hc|now apply (at_d _ _ _ _ Hc)]. }
      rewrite E1, E2, E3, <- !mv_add. unfold new_x. apply mv_ext; [reflexivity|]. intros l Hl. rewrite !mv_sub. rewrite (OX l Hl). unfold mv. ring.
    Qed.
    Lemma scalar_at x u i : (ssum nx (fun l => g_sX c' l * X x i l) + ssum nu (fun l => g_sU c' l * ucmd um' (U u) i l))%S =
      (ssum nx (fun l => g_sX c l * x i l) + ssum nu (fun l => g_sU c l * ucmd um u i l) - (ssum nx (fun l => g_sX c l * co_x e l) + ssum nu (fun l => g_sU c l * co_u e l)))%S.
    Proof.
      change (ssum nx (fun l => g_sX c' l * X x i l)%S) with (mv nx (fun _ => g_sX c') (new_x d e (x i)) 0). unfold new_x. rewrite mv_mm.
      rewrite (mv_ext nx _ (fun _ => g_sX c) _ (fun l => x i l - co_x e l)%S) by ((intros l Hl; exact (at_sX _ _ _ _ Hc l Hl)) || reflexivity). rewrite mv_sub.
      rewrite (ssum_ext nu (fun l => g_sU c' l * ucmd um' (U u) i l)%S (fun l => g_sU c l * ucmd um u i l - g_sU c l * co_u e l)%S).
      - rewrite ssum_sub. unfold mv. ring.
      - intros l Hl. rewrite (at_sU _ _ _ _ Hc), ucmd_at by exact Hl. unfold new_u. ring.
    Qed.
    Lemma admissible_at x u : admissible d p' c' x0' um' (X x) (U u) <-> admissible d p c x0 um x u.
    Proof.
      unfold admissible, trajectory, state_ok, output_ok, input_ok, frozen, scalar_ok.
      split; intros ((A1 & A2) & A3 & A4 & A5 & A6 & A7); refine (conj (conj _ _) (conj _ (conj _ (conj _ (conj _ _))))).
      - apply new_x_inj. intros j Hj. rewrite <- (Hx j Hj). now apply A1.
      - intros k j Hk. revert j. apply new_x_inj. intros j Hj. rewrite <- (next_at x u k j Hk Hj). now apply A2.
      - intros i j Hi. revert j. apply (proj2 (at_xb _ _ _ _ Hc (stp i) (x i) (stp_lt i Hi))). intros j Hj. now apply A3.
      - intros i j Hi Hj. specialize (A4 i j Hi Hj). rewrite output_at in A4 by assumption. destruct (at_yb _ _ _ _ Hc (stp i) j (stp_lt i Hi) Hj) as [E1 E2]. rewrite E1, E2 in A4. exact (proj1 (within_sub _ _ _ _) A4).
      - intros i j Hi Hj. specialize (A5 i j Hi Hj). rewrite ucmd_at in A5 by assumption. destruct (at_ub _ _ _ _ Hc (Nat.min i (ph - 1)) j ltac:(lia) Hj) as [E1 E2]. rewrite E1, E2 in A5. exact (proj1 (within_sub _ _ _ _) A5).
      - intros i j Hi Hk Hj. specialize (A6 i j Hi Hk Hj). rewrite ucmd_at in A6 by exact Hj. unfold new_u in A6. replace (u i j) with (u i j - co_u e j + co_u e j)%S by ring. rewrite A6. ring.
      - intros i Hi. specialize (A7 i Hi). rewrite scalar_at in A7. destruct (at_sb _ _ _ _ Hc (stp i) (stp_lt i Hi)) as [E1 E2]. rewrite E1, E2 in A7. exact (proj1 (within_sub _ _ _ _) A7).
      - intros j Hj. rewrite (Hx j Hj). apply mv_ext; [reflexivity|]. intros l Hl. now rewrite A1.
      - intros k j Hk Hj. rewrite (next_at x u k j Hk Hj). apply mv_ext; [reflexivity|]. intros l Hl. now rewrite A2.
      - intros i j Hi. revert j. apply (proj1 (at_xb _ _ _ _ Hc (stp i) (x i) (stp_lt i Hi))). intros j Hj. now apply A3.
      - intros i j Hi Hj. rewrite output_at by assumption. destruct (at_yb _ _ _ _ Hc (stp i) j (stp_lt i Hi) Hj) as [-> ->]. apply (proj2 (within_sub _ _ _ _)). now apply A4.
      - intros i j Hi Hj. rewrite ucmd_at by assumption. destruct (at_ub _ _ _ _ Hc (Nat.min i (ph - 1)) j ltac:(lia) Hj) as [-> ->]. apply (proj2 (within_sub _ _ _ _)). now apply A5.
      - intros i j Hi Hk Hj. rewrite ucmd_at by exact Hj. unfold new_u. now rewrite (A6 i j Hi Hk Hj).
      - intros i Hi. rewrite scalar_at. destruct (at_sb _ _ _ _ Hc (stp i) (stp_lt i Hi)) as [-> ->]. apply (proj2 (within_sub _ _ _ _)). now apply A7.
    Qed.
    Lemma sq_at (w x r o : F) : (w * sq (x - o - (r - o)))%S = (w * sq (x - r))%S. Proof. unfold sq. ring. Qed.
    Lemma cost_at x u : tracking_cost d p' c' um' (X x) (U u) = tracking_cost d p c um x u.
    Proof.
      unfold tracking_cost. f_equal; [f_equal|]; apply ssum_ext; intros i Hi; apply ssum_ext; intros j Hj.
      - rewrite output_at by (assumption || lia). rewrite (at_wy _ _ _ _ Hc), (at_yr _ _ _ _ Hc) by (assumption || (apply stp_lt; lia)). apply sq_at.
      - rewrite ucmd_at by exact Hj. rewrite (at_wu _ _ _ _ Hc), (at_ur _ _ _ _ Hc) by (assumption || (apply stp_lt; lia)). apply sq_at.
      - rewrite dcmd_at by exact Hj. rewrite (at_wdu _ _ _ _ Hc), (at_dur _ _ _ _ Hc) by (assumption || (apply stp_lt; lia)). reflexivity.
    Qed.
    Lemma weights_at : (weights_nonneg d c -> weights_nonneg d c') /\ (commands_weighted d c -> commands_weighted d c').
    Proof.
      split.
      - intros (A1 & A2 & A3). refine (conj _ (conj _ _)); intros k j Hk Hj.
        + rewrite (at_wy _ _ _ _ Hc) by assumption. auto.
        + rewrite (at_wu _ _ _ _ Hc) by assumption. auto.
        + rewrite (at_wdu _ _ _ _ Hc) by assumption. auto.
      - intros A k j Hk Hj. rewrite (at_wu _ _ _ _ Hc), (at_wdu _ _ _ _ Hc) by assumption. destruct (A k j Hk Hj) as [B|[B|B]]; auto.
    Qed.
    Lemma surj2 (x1 : nat -> nat -> F) n : exists xb, forall i a, i < n -> a < nx -> x1 i a = X xb i a.
    Proof.
      induction n as [|n [xb IH]]; [exists x1; intros; lia|]. destruct (new_x_surj (x1 n)) as [w Hw].
      exists (fun i => if i =? n then w else xb i). intros i a Hi Ha. destruct (Nat.eqb_spec i n) as [->|N]; [now rewrite Hw|apply IH; [lia|exact Ha]].
    Qed.
    Lemma optimal_at x u : (forall x1 u1, admissible d p c x0 um x1 u1 -> (tracking_cost d p c um x u <= tracking_cost d p c um x1 u1)%S) ->
      forall x1 u1, admissible d p' c' x0' um' x1 u1 -> (tracking_cost d p' c' um' (X x) (U u) <= tracking_cost d p' c' um' x1 u1)%S.
    Proof.
      intros O x1 u1 A1. destruct (surj2 x1 (ph + 1)) as [xb EX]. set (ub := fun i j => (u1 i j + co_u e j)%S).
      assert (EU : forall i a, i < ph -> a < nu -> u1 i a = U ub i a) by (intros i a _ Ha; unfold new_u, ub; ring).
      rewrite (tracking_ext d P c' p' um' x1 (X xb) u1 (U ub) EX EU). rewrite !cost_at. apply O.
      apply admissible_at. exact (admissible_ext d P c' p' x0' um' x1 (X xb) u1 (U ub) EX EU A1).
    Qed.
  End Spec.

  (** *** Theorems *)
  (** the trajectories allowed and what they cost *)
  Theorem C84_same_problem e p p' c c' x0 um x0' um' x u :
    0 < ph -> invertible d (co_T e) -> operating_point d e p -> plant_at d e p p' -> cfg_at d e c c' ->
    (forall j, j < nx -> x0' j = new_x d e x0 j) -> (forall j, j < nu -> um' j = new_u e um j) ->
    (admissible d p' c' x0' um' (fun k => new_x d e (x k)) (fun k => new_u e (u k)) <-> admissible d p c x0 um x u) /\
    tracking_cost d p' c' um' (fun k => new_x d e (x k)) (fun k => new_u e (u k)) = tracking_cost d p c um x u.
  Proof. intros P OK Op Hp Hc Hx Hu. split; [now apply admissible_at|now apply cost_at]. Qed.

  Implicit Types (s : lmpc F) (h : list (lop F * ret F)) (z : nat -> F).
  (** an optimum of one controller's problem, converted, is an optimum of the other's *)
  Theorem C84_optimum_converts e s h p x0 u0 s' h' p' x0' u0' z :
    0 < ph -> reached s h -> reached s' h' -> g_plant (cfg_run h) = Some p -> g_plant (cfg_run h') = Some p' ->
    sized x0 nx 1 -> sized u0 nu 1 -> sized x0' nx 1 -> sized u0' nu 1 ->
    invertible d (co_T e) -> operating_point d e p -> plant_at d e p p' -> cfg_at d e (cfg_run h) (cfg_run h') ->
    (forall j, j < nx -> vec x0' j = new_x d e (vec x0) j) -> (forall j, j < nu -> vec u0' j = new_u e (vec u0) j) ->
    qp_optimal (l_call d s x0 u0) z ->
    qp_optimal (l_call d s' x0' u0') (z_of d (vec u0') (fun k => new_x d e (z_state d z k)) (fun k => new_u e (z_cmd d z k))).
  Proof.
    intros P H H' Gp Gp' X U X' U' OK Op Hp Hc Hx Hu O.
    destruct (C15_optimality_transfer junk ejunk d s h p x0 u0 z P H Gp X U O) as [A Opt].
    apply (C15_converse junk ejunk d s' h' p' x0' u0' _ _ P H' Gp' X' U').
    - now apply (admissible_at e p p' (cfg_run h) (cfg_run h') (vec x0) (vec u0)).
    - now apply (optimal_at e p p' (cfg_run h) (cfg_run h') (vec x0) (vec u0) (vec x0') (vec u0')).
  Qed.
  (** so both controllers return the same command and the same predictions, each in its own coordinates *)
  Theorem C84_same_commands e s h p x0 u0 s' h' p' x0' u0' z y code obj s1 r1 z' y' code' obj' s1' r1' :
    0 < ph -> reached s h -> reached s' h' -> g_plant (cfg_run h) = Some p -> g_plant (cfg_run h') = Some p' ->
    sized x0 nx 1 -> sized u0 nu 1 -> sized x0' nx 1 -> sized u0' nu 1 ->
    invertible d (co_T e) -> operating_point d e p -> plant_at d e p p' -> cfg_at d e (cfg_run h) (cfg_run h') ->
    (forall j, j < nx -> vec x0' j = new_x d e (vec x0) j) -> (forall j, j < nu -> vec u0' j = new_u e (vec u0) j) ->
    weights_nonneg d (cfg_run h) -> commands_weighted d (cfg_run h) ->
    qp_optimal (l_call d s x0 u0) z -> qp_optimal (l_call d s' x0' u0') z' ->
    step s (LOptimize x0 u0 (ASolution z y code obj)) = Ok (s1, RResult r1) ->
    step s' (LOptimize x0' u0' (ASolution z' y' code' obj')) = Ok (s1', RResult r1') ->
    (forall j, j < nu -> vec (r_cmd r1') j = new_u e (vec (r_cmd r1)) j) /\
    (forall i j, i <= ph -> j < nx -> ent (q_state (o_seq (l_o s1'))) i j = new_x d e (ent (q_state (o_seq (l_o s1))) i) j) /\
    (forall i j, i <= ph -> j < nu -> ent (q_input (o_seq (l_o s1'))) i j = new_u e (ent (q_input (o_seq (l_o s1))) i) j) /\
    (forall i j, i <= ph -> j < ny -> ent (q_output (o_seq (l_o s1'))) i j = new_y e (ent (q_output (o_seq (l_o s1))) i) j).
  Proof.
    intros P H H' Gp Gp' X U X' U' OK Op Hp Hc Hx Hu Wn W O O' E1 E2.
    pose proof (C84_optimum_converts e s h p x0 u0 s' h' p' x0' u0' z P H H' Gp Gp' X U X' U' OK Op Hp Hc Hx Hu O) as O2.
    destruct (weights_at e (cfg_run h) (cfg_run h') Hc) as [Wn' W'].
    destruct (C54_unique_optimum junk ejunk d s' h' p' x0' u0' z' _ P H' Gp' X' U' (Wn' Wn) (W' W) O' O2) as [EU EX].
    assert (EU' : forall k j, k < ph -> j < nu -> z_cmd d z' k j = new_u e (z_cmd d z k) j) by (intros k j Hk Hj; rewrite EU by assumption; now rewrite z_of_u).
    assert (EX' : forall k j, k <= ph -> j < nx -> z_state d z' k j = new_x d e (z_state d z k) j) by (intros k j Hk Hj; rewrite EX by assumption; rewrite z_of_x by (lia || assumption); reflexivity).
    clear EU EX.
    destruct (C14_sequences junk ejunk d s h p x0 u0 z y code obj s1 _ P H Gp X U E1) as (res1 & Er1 & A1 & A2 & A3 & A4 & A5 & _).
    destruct (C14_sequences junk ejunk d s' h' p' x0' u0' z' y' code' obj' s1' _ P H' Gp' X' U' E2) as (res2 & Er2 & B1 & B2 & B3 & B4 & B5 & _).
    injection Er1 as <-. injection Er2 as <-.
    assert (S1 : forall i j, i <= ph -> j < nx -> ent (q_state (o_seq (l_o s1'))) i j = new_x d e (ent (q_state (o_seq (l_o s1))) i) j).
    { intros i j Hi Hj. rewrite B1, EX' by assumption. apply mv_ext; [reflexivity|]. intros l Hl. now rewrite A1. }
    refine (conj _ (conj S1 (conj _ _))).
    - intros j Hj. unfold new_u. rewrite A5, B5, A2, B2 by (assumption || lia). apply EU'; [exact P|exact Hj].
    - intros i j Hi Hj. unfold new_u. destruct (Nat.eq_dec i ph) as [->|N]; [rewrite A3, B3 by exact Hj|rewrite A2, B2 by (exact Hj || lia)]; apply EU'; (exact Hj || lia).
    - intros i j Hi Hj. rewrite B4 by assumption.
      rewrite (output_ext d P (cfg_run h') p' _ (fun k => new_x d e (ent (q_state (o_seq (l_o s1))) k)) i j) by (exact Hi || (intros a b Ha Hb; apply S1; [lia|exact Hb])).
      rewrite (output_at e p p' (cfg_run h) (cfg_run h') P Op Hp Hc) by assumption. unfold new_y. now rewrite A4.
  Qed.
End Coord.

(** *** Instance: two states, a shear as change of coordinates, operating point x = (2, 2), u = 2, y = 2; disturbance, bounds, scalar constraint *)
Definition k_d : dims := mkDims 2 1 1 1 2 2.
Definition k_base (yr lo_y hi_y lo_u hi_u lo_s hi_s : Z) (sX : list Z) : list (lop Qc) :=
  [ LSetOutputBounds (qe [lo_y]) (qe [hi_y]) slice_all; LSetInputBounds (qe [lo_u]) (qe [hi_u]) slice_all;
    LSetScalar (Fin (q lo_s)) (Fin (q hi_s)) (qv sX) (qv [1]%Z) slice_all;
    LSetWeights (qv [1]%Z) (qv [0]%Z) (qv [1]%Z) slice_all; LSetExo (qv [1]%Z) slice_all ].
Definition k_ops : list (lop Qc) :=
  [ LSetModel (qm 2 2 [[0; 1]; [0; 0]]%Z) (qm 2 1 [[0]; [1]]%Z) (qm 1 2 [[1; 0]]%Z); LSetDisturbances (qm 2 1 [[1]; [0]]%Z) (qm 1 1 [[1]]%Z);
    LSetRefs (qv [3]%Z) (qv [0]%Z) (qv [0]%Z) slice_all ] ++ k_base 3 (-8) 8 (-4) 4 (-20) 20 [1; 0]%Z.
Definition k_ops' : list (lop Qc) :=
  [ LSetModel (qm 2 2 [[0; 1]; [0; 0]]%Z) (qm 2 1 [[1]; [1]]%Z) (qm 1 2 [[1; -1]]%Z); LSetDisturbances (qm 2 1 [[1]; [0]]%Z) (qm 1 1 [[1]]%Z);
    LSetRefs (qv [1]%Z) (qv [-2]%Z) (qv [0]%Z) slice_all ] ++ k_base 1 (-10) 6 (-6) 2 (-24) 16 [1; -1]%Z.
Definition k_e : coords Qc := mkCoords (ent (qm 2 2 [[1; 1]; [0; 1]]%Z)) (qf [2; 2]%Z) (qf [2]%Z) (qf [2]%Z).
Local Notation k_s := (wS k_d k_ops). Local Notation k_h := (wH k_d k_ops). Local Notation k_s' := (wS k_d k_ops'). Local Notation k_h' := (wH k_d k_ops').
Lemma k_reached : reached qj qej k_d k_s k_h. Proof. w_reach. Qed.
Lemma k_reached' : reached qj qej k_d k_s' k_h'. Proof. w_reach. Qed.
Lemma k_plant : g_plant (cfg_run k_h) = Some (wp k_h). Proof. apply w_plant. vm_compute. reflexivity. Qed.
Lemma k_plant' : g_plant (cfg_run k_h') = Some (wp k_h'). Proof. apply w_plant. vm_compute. reflexivity. Qed.
Ltac upto a H := first [one_row a H | two_steps a H].
Lemma k_invertible : invertible k_d (co_T k_e).
Proof.
  exists (ent (qm 2 2 [[1; -1]; [0; 1]]%Z)). split; intros i j Hi Hj; two_steps i Hi; two_steps j Hj; apply qc_eq; vm_compute; reflexivity.
Qed.
Lemma k_operating : operating_point k_d k_e (wp k_h).
Proof. split; intros j Hj; upto j Hj; apply qc_eq; vm_compute; reflexivity. Qed.
Lemma k_plant_at : plant_at k_d k_e (wp k_h) (wp k_h').
Proof. refine (conj _ (conj _ _)); intros i j Hi Hj; upto i Hi; upto j Hj; apply qc_eq; vm_compute; reflexivity. Qed.
Definition ext_eqb (a b : ext Qc) : bool := match a, b with Fin x, Fin y => sleb x y && sleb y x | PInf, PInf | MInf, MInf => true | _, _ => false end.
Lemma ext_eqb_ok a b : ext_eqb a b = true -> a = b.
Proof. destruct a, b; cbn [ext_eqb]; try discriminate; try reflexivity. intros H. f_equal. now apply qc_eq. Qed.
Lemma k_cfg_at : cfg_at k_d k_e (cfg_run k_h) (cfg_run k_h').
Proof.
  constructor.
  1-9: intros i j Hi Hj; upto i Hi; upto j Hj; apply qc_eq; vm_compute; reflexivity.
  - intros k v Hk. split; intros _ j Hj; two_steps k Hk; two_steps j Hj; split; exact I.
  - intros k j Hk Hj. two_steps k Hk; one_row j Hj; split; apply ext_eqb_ok; vm_compute; reflexivity.
  - intros k j Hk Hj. two_steps k Hk; one_row j Hj; split; apply ext_eqb_ok; vm_compute; reflexivity.
  - intros j Hj. two_steps j Hj; apply qc_eq; vm_compute; reflexivity.
  - intros j Hj. one_row j Hj; apply qc_eq; vm_compute; reflexivity.
  - intros k Hk. two_steps k Hk; split; apply ext_eqb_ok; vm_compute; reflexivity.
Qed.
Lemma k_weights : weights_nonneg k_d (cfg_run k_h) /\ commands_weighted k_d (cfg_run k_h).
Proof.
  split.
  - refine (conj _ (conj _ _)); intros k j Hk Hj; two_steps k Hk; one_row j Hj; vm_compute; reflexivity.
  - intros k j Hk Hj. right; left. two_steps k Hk; one_row j Hj; vm_compute; reflexivity.
Qed.
Lemma k_rest : rest_point k_d (wp k_h) (cfg_run k_h) (vec (qv [2; 1]%Z)) (vec (qv [1]%Z)).
Proof.
  refine (conj _ (conj _ (conj _ (conj _ (conj _ (conj _ (conj _ _))))))).
  - intros k j Hk Hj; two_steps k Hk; two_steps j Hj; apply qc_eq; vm_compute; reflexivity.
  - intros k j Hk Hj; right; two_steps k Hk; one_row j Hj; apply qc_eq; vm_compute; reflexivity.
  - intros k j Hk Hj; left; two_steps k Hk; one_row j Hj; apply qc_eq; vm_compute; reflexivity.
  - intros k j Hk Hj; right; two_steps k Hk; one_row j Hj; apply qc_eq; vm_compute; reflexivity.
  - intros k j Hk Hj; two_steps k Hk; two_steps j Hj; apply within_b_ok; vm_compute; reflexivity.
  - intros k j Hk Hj; two_steps k Hk; one_row j Hj; apply within_b_ok; vm_compute; reflexivity.
  - intros k j Hk Hj; two_steps k Hk; one_row j Hj; apply within_b_ok; vm_compute; reflexivity.
  - intros k Hk; two_steps k Hk; apply within_b_ok; vm_compute; reflexivity.
Qed.
Definition k_z : nat -> Qc := z_of k_d (vec (qv [1]%Z)) (fun _ => vec (qv [2; 1]%Z)) (fun _ => vec (qv [1]%Z)).
Example C84_instance : 0 < d_ph k_d /\ reached qj qej k_d k_s k_h /\ reached qj qej k_d k_s' k_h' /\ g_plant (cfg_run k_h) = Some (wp k_h) /\ g_plant (cfg_run k_h') = Some (wp k_h') /\
  invertible k_d (co_T k_e) /\ operating_point k_d k_e (wp k_h) /\ plant_at k_d k_e (wp k_h) (wp k_h') /\ cfg_at k_d k_e (cfg_run k_h) (cfg_run k_h') /\
  (forall j, j < 2 -> vec (qv [-1; -1]%Z) j = new_x k_d k_e (vec (qv [2; 1]%Z)) j) /\ (forall j, j < 1 -> vec (qv [-1]%Z) j = new_u k_e (vec (qv [1]%Z)) j) /\
  weights_nonneg k_d (cfg_run k_h) /\ commands_weighted k_d (cfg_run k_h) /\
  qp_optimal (l_call k_d k_s (qv [2; 1]%Z) (qv [1]%Z)) k_z /\ (exists z', qp_optimal (l_call k_d k_s' (qv [-1; -1]%Z) (qv [-1]%Z)) z') /\
  is_ok (l_step qj qej k_d k_s (LOptimize (qv [2; 1]%Z) (qv [1]%Z) (ASolution k_z (fun _ => q 0) 1 (Fin (q 0))))) = true.
Proof.
  assert (P : 0 < d_ph k_d) by (cbn; lia).
  assert (X : forall j, j < 2 -> vec (qv [-1; -1]%Z) j = new_x k_d k_e (vec (qv [2; 1]%Z)) j) by (intros j Hj; two_steps j Hj; apply qc_eq; vm_compute; reflexivity).
  assert (U : forall j, j < 1 -> vec (qv [-1]%Z) j = new_u k_e (vec (qv [1]%Z)) j) by (intros j Hj; one_row j Hj; apply qc_eq; vm_compute; reflexivity).
  assert (O : qp_optimal (l_call k_d k_s (qv [2; 1]%Z) (qv [1]%Z)) k_z)
    by exact (C55_rest_is_optimal qj qej k_d k_s k_h (wp k_h) (qv [2; 1]%Z) (qv [1]%Z) P k_reached k_plant ltac:(repeat split) ltac:(repeat split) (proj1 k_weights) k_rest).
  refine (conj P (conj k_reached (conj k_reached' (conj k_plant (conj k_plant' (conj k_invertible (conj k_operating (conj k_plant_at (conj k_cfg_at
    (conj X (conj U (conj (proj1 k_weights) (conj (proj2 k_weights) (conj O (conj _ _))))))))))))))).
  - eexists. exact (C84_optimum_converts qj qej k_d k_e k_s k_h (wp k_h) (qv [2; 1]%Z) (qv [1]%Z) k_s' k_h' (wp k_h') (qv [-1; -1]%Z) (qv [-1]%Z) k_z P k_reached k_reached' k_plant k_plant'
      ltac:(repeat split) ltac:(repeat split) ltac:(repeat split) ltac:(repeat split) k_invertible k_operating k_plant_at k_cfg_at X U O).
  - vm_compute. reflexivity.
Qed.
Print Assumptions C84_same_problem. Print Assumptions C84_optimum_converts. Print Assumptions C84_same_commands.
