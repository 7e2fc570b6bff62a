(** Properties C80, C81, C82 of the non-linear controller: what scales do, fewer constraints never hurt, a plant at rest stays at rest (vocabulary: SpecNLMeta.v). *)
From Coq Require Import Bool Arith ZArith List Lia QArith Qcanon Ring Field.
From Verif Require Import Scalar Sums Mat Slice Builder BuilderEnt LMPC SpecLMPC NLMap NLTraj NLFun SpecNL NLLoop NLGrad NLEval NLSlope NLSlope2 NLMPC SpecNLC SpecNLP SpecNLO NLRef NLRun NLCall NLObs PropNL1 PropNL6 Wit WitNL SpecMeta PropMeta SpecNLoop PropNLoop SpecNLMeta.
Import ListNotations.
Local Open Scope nat_scope.

Section Scales.
  Context {F : Type} {SO : ScalarOps F} {SM : ScalarMild F} {SL : ScalarLaws F}.
  Add Field SFnlmeta : (@s_field F SO SL).
  Variables (junk : nat -> nat -> F) (d : dims) (ni ne : nat) (dyn_eq : bool).
  Notation nx := (d_nx d). Notation nu := (d_nu d). Notation ny := (d_ny d).
  Notation ph := (d_ph d). Notation ch := (d_ch d).
  Notation reached := (nreached junk d ni ne dyn_eq). Notation cf := (ncfg_run d ni ne).
  Notation step := (n_step junk d ni ne dyn_eq). Notation call := (n_call junk d ni ne).
  Implicit Types (s : nmpc F) (h : list (nop F * ret F)).
  Hypothesis C0 : 0 < ch.
  Hypothesis C : ch <= ph.

  Lemma sabs_scaled (a v : F) : a <> s0 -> (sabs v <= sabs a * s0)%S <-> v = s0.
  Proof using SL.
    intros N. replace (sabs a * s0)%S with (s0 : F) by ring. split; [intros L; apply sabs_le in L as [H1 H2]; replace (- s0)%S with (s0 : F) in H1 by ring; now apply sle_antisym|]. intros ->. rewrite (sabs_pos s0) by apply sle_refl. apply sle_refl.
  Qed.
  Lemma mul_div (a v : F) : a <> s0 -> (a * (v / a))%S = v.
  Proof using SL. intros N. field. exact N. Qed.
  (** the scales enter the problem only through their products with the bounds and with the measured state *)
  Theorem C80_same_problem c c' x0 x0' (X U : nat -> nat -> F) : scales_ok d c -> scales_ok d c' -> same_functions c c' -> same_times_scale d c c' x0 x0' ->
    (nl_admissible d ni ne c x0 exactly X U <-> nl_admissible d ni ne c' x0' exactly X U) /\
    forall J, nl_cost d c J X U = nl_cost d c' J X U.
  Proof using SL.
    assert (D : forall c c' x0 x0', scales_ok d c -> scales_ok d c' -> same_functions c c' -> same_times_scale d c c' x0 x0' ->
      nl_admissible d ni ne c x0 exactly X U -> nl_admissible d ni ne c' x0' exactly X U).
    { clear c c' x0 x0'. intros c c' x0 x0' [Nx Nu] [Nx' Nu'] (E1 & E2 & E3 & E4 & E5 & E6) (B0 & B1 & B2) (A1 & A2 & A3 & A4 & A5 & A6 & A7).
      refine (conj _ (conj A2 (conj _ (conj _ (conj _ (conj _ _)))))).
      - intros j Hj. rewrite B0 by exact Hj. auto.
      - intros k j Hk Hj. specialize (A3 k j Hk Hj). destruct (B1 k j Hk Hj) as (L & H & Q & Q').
        apply (proj1 (within_box (k_sx c' j) _ _ L H _ (Nx' j Hj) Q')). apply (proj2 (within_box (k_sx c j) _ _ L H _ (Nx j Hj) Q)) in A3.
        rewrite mul_div in A3 |- * by auto. exact A3.
      - intros k j Hk Hj. specialize (A4 k j Hk Hj). destruct (B2 k j Hk Hj) as (L & H & Q & Q').
        apply (proj1 (within_box (k_su c' j) _ _ L H _ (Nu' j Hj) Q')). apply (proj2 (within_box (k_su c j) _ _ L H _ (Nu j Hj) Q)) in A4.
        rewrite mul_div in A4 |- * by auto. exact A4.
      - intros f Hf i l Hi Hl. rewrite E3 in Hf. specialize (A5 f Hf i l Hi Hl). cbn [t_dyn exactly] in *. rewrite E1. apply (sabs_scaled _ _ (Nx' l Hl)). exact (proj1 (sabs_scaled _ _ (Nx l Hl)) A5).
      - intros f Hf k Hk. rewrite E5 in Hf. rewrite E4. auto.
      - intros f Hf k Hk. rewrite E6 in Hf. auto. }
    intros S S' (E1 & E2 & E3 & E4 & E5 & E6) (B0 & B1 & B2). split; [split|].
    - apply D; [exact S|exact S'|refine (conj E1 (conj E2 (conj E3 (conj E4 (conj E5 E6)))))|exact (conj B0 (conj B1 B2))].
    - apply D; [exact S'|exact S|refine (conj _ (conj _ (conj _ (conj _ (conj _ _))))); now symmetry|].
      refine (conj _ (conj _ _)); [intros j Hj; symmetry; auto| |]; intros k j Hk Hj; [destruct (B1 k j Hk Hj) as (L & H & Q & Q')|destruct (B2 k j Hk Hj) as (L & H & Q & Q')]; exists L, H; auto.
    - intros J. unfold nl_cost. now rewrite E4.
  Qed.
  (** hence two controllers that differ by their scales, with bounds and measured states that agree after multiplication by the scales, are interchangeable: every
      optimum of one is an optimum of the other, with the same sequences and the same command *)
  Theorem C80_same_commands s h x0 u0 s' h' x0' u0' z code cost t r :
    reached s h -> reached s' h' -> gm x0 nx 1 -> gm x0' nx 1 -> scales_ok d (cf h) -> scales_ok d (cf h') -> all_accepted (cf h) -> all_accepted (cf h') -> k_obj (cf h) <> None ->
    same_functions (cf h) (cf h') -> same_times_scale d (cf h) (cf h') x0 x0' ->
    nlp_optimal d exactly (call s x0 u0) z -> step s (NOptimize x0 u0 (NSolved (dvar z) code cost)) = Ok (t, RResult r) ->
    exists z', nlp_optimal d exactly (call s' x0' u0') z' /\ forall code' cost' t' r', step s' (NOptimize x0' u0' (NSolved (dvar z') code' cost')) = Ok (t', RResult r') ->
      (forall j, j < nu -> vec (r_cmd r') j = vec (r_cmd r) j) /\
      (forall i j, i <= ph -> j < nx -> ent (q_state (n_seq t')) i j = ent (q_state (n_seq t)) i j) /\
      (forall i j, i <= ph -> j < nu -> ent (q_input (n_seq t')) i j = ent (q_input (n_seq t)) i j) /\
      (forall i j, i <= ph -> j < ny -> ent (q_output (n_seq t')) i j = ent (q_output (n_seq t)) i j).
  Proof using C0 C SL SM.
    intros R R' G G' [Sx Su] [Sx' Su'] A A' HJ E B O St. destruct (k_obj (cf h)) as [J|] eqn:EJ; [|now elim HJ]. clear HJ.
    destruct (C53_trajectory_optimal junk d ni ne dyn_eq C0 C s h x0 u0 exactly z J R G Sx Su A EJ O) as [Ad Op].
    assert (EJ' : k_obj (cf h') = Some J) by (destruct E as (_ & -> & _); exact EJ).
    set (X := x_traj d (cf h) x0 (dvar z)) in *. set (U := u_traj d (cf h) (dvar z)) in *.
    assert (Same : forall X U, (nl_admissible d ni ne (cf h) x0 exactly X U <-> nl_admissible d ni ne (cf h') x0' exactly X U) /\ forall J, nl_cost d (cf h) J X U = nl_cost d (cf h') J X U)
      by (intros; apply C80_same_problem; [split|split| |]; assumption).
    destruct (C53_converse junk d ni ne dyn_eq C0 C s' h' x0' u0' exactly X U J R' G' Sx' Su' A' EJ') as (z' & O' & EX & EU).
    - exact (proj1 (proj1 (Same X U)) Ad).
    - intros X' U' Ad'. rewrite <- (proj2 (Same X U) J), <- (proj2 (Same X' U') J). apply Op. exact (proj2 (proj1 (Same X' U')) Ad').
    - exists z'. split; [exact O'|]. intros code' cost' t' r' St'.
      pose proof (nreached_NR junk d ni ne dyn_eq C0 C s h R) as H. pose proof (nreached_NR junk d ni ne dyn_eq C0 C s' h' R') as H'.
      destruct (solved_obs junk d ni ne dyn_eq C0 C s _ x0 u0 (dvar z) code cost t _ H G Sx St) as (res & Er & _ & [_ Ex] & [_ Ey] & [_ Eu] & _ & Ec & _). injection Er as <-.
      destruct (solved_obs junk d ni ne dyn_eq C0 C s' _ x0' u0' (dvar z') code' cost' t' _ H' G' Sx' St') as (res' & Er' & _ & [_ Ex'] & [_ Ey'] & [_ Eu'] & _ & Ec' & _). injection Er' as <-.
      refine (conj _ (conj _ (conj _ _))).
      + intros j Hj. unfold vec. rewrite Ec, Ec' by exact Hj. apply EU; [lia|exact Hj].
      + intros i j Hi Hj. rewrite Ex, Ex' by (lia || exact Hj). apply EX; [exact Hi|exact Hj].
      + intros i j Hi Hj. rewrite Eu, Eu' by (lia || exact Hj). apply EU; [exact Hi|exact Hj].
      + intros i j Hi Hj. rewrite Ey, Ey' by (lia || exact Hj). destruct E as (_ & _ & _ & Eo & _). unfold y_traj. rewrite Eo.
        apply out_traj_ext; [| |lia]; intros a b Ha Hb; [apply EX|apply EU]; (lia || exact Hb).
  Qed.

  (** *** C81 *)
  Lemma relaxed_admissible c c' x0 t t' (X U : nat -> nat -> F) : nl_relaxed d c c' -> tols_le t t' -> nl_admissible d ni ne c x0 t X U -> nl_admissible d ni ne c' x0 t' X U.
  Proof using SL.
    intros R (T1 & T2 & T3) (A1 & A2 & A3 & A4 & A5 & A6 & A7). refine (conj _ (conj A2 (conj _ (conj _ (conj _ (conj _ _)))))).
    - intros j Hj. rewrite (rl_sx d c c' R) by exact Hj. auto.
    - intros k j Hk Hj. rewrite (rl_sx d c c' R) by exact Hj. apply (rl_x d c c' R k j Hk Hj). auto.
    - intros k j Hk Hj. rewrite (rl_su d c c' R) by exact Hj. apply (rl_u d c c' R k j Hk Hj). auto.
    - intros f Hf i l Hi Hl. rewrite (rl_dyn d c c' R) in Hf. rewrite (rl_ts d c c' R), (rl_sx d c c' R) by exact Hl.
      eapply sle_trans; [exact (A5 f Hf i l Hi Hl)|]. apply smul_le_l; [apply sabs_nonneg|exact T3].
    - intros f Hf k Hk. destruct (rl_ieq d c c' R) as [E|E]; rewrite E in Hf; [|discriminate Hf]. rewrite (rl_out d c c' R). eapply sle_trans; [exact (A6 f Hf k Hk)|exact T1].
    - intros f Hf k Hk. destruct (rl_eqc d c c' R) as [E|E]; rewrite E in Hf; [|discriminate Hf]. eapply sle_trans; [exact (A7 f Hf k Hk)|exact T2].
  Qed.
  Lemma relaxed_traj c c' x0 z : nl_relaxed d c c' ->
    (forall i j, i < ph + 1 -> j < nx -> x_traj d c x0 z i j = x_traj d c' x0 z i j) /\ (forall i j, i < ph + 1 -> j < nu -> u_traj d c z i j = u_traj d c' z i j).
  Proof using.
    intros R. split; intros i j Hi Hj.
    - unfold x_traj, st_traj. now rewrite (rl_sx d c c' R) by exact Hj.
    - unfold u_traj, in_traj. now rewrite (rl_su d c c' R) by exact Hj.
  Qed.
  Lemma relaxed_cost c c' J X U : nl_relaxed d c c' -> nl_cost d c' J X U = nl_cost d c J X U.
  Proof using. intros R. unfold nl_cost. now rewrite (rl_out d c c' R). Qed.
  Lemma relaxed_scales c c' : nl_relaxed d c c' -> scales_ok d c -> scales_ok d c'.
  Proof using. intros R [A B]. split; intros j Hj; [rewrite (rl_sx d c c' R) by exact Hj|rewrite (rl_su d c c' R) by exact Hj]; auto. Qed.
  (** a point that satisfies the problem satisfies the relaxed one, also with larger tolerances *)
  Theorem C81_feasible_stays_feasible s h s' h' x0 u0 t t' z :
    reached s h -> reached s' h' -> gm x0 nx 1 -> scales_ok d (cf h) -> all_accepted (cf h) -> all_accepted (cf h') -> nl_relaxed d (cf h) (cf h') -> tols_le t t' ->
    nlp_feasible d t (call s x0 u0) z -> nlp_feasible d t' (call s' x0 u0) z.
  Proof using C0 C SL SM.
    intros R R' G [Sx Su] A A' Rx T Fz. destruct (relaxed_scales _ _ Rx (conj Sx Su)) as [Sx' Su'].
    apply (proj1 (C53_feasible_iff junk d ni ne dyn_eq C0 C s h x0 u0 t z R G Sx Su A)) in Fz as (Lz & Sl & Az).
    apply (proj2 (C53_feasible_iff junk d ni ne dyn_eq C0 C s' h' x0 u0 t' z R' G Sx' Su' A')). refine (conj Lz (conj Sl _)).
    destruct (relaxed_traj _ _ x0 (dvar z) Rx) as [EX EU]. apply (adm_ext d ni ne C0 C (cf h') x0 t' _ _ _ _ EX EU). exact (relaxed_admissible _ _ _ _ _ _ _ Rx T Az).
  Qed.
  (** and the optimum of the relaxed problem costs no more *)
  Theorem C81_optimal_cost_decreases s h s' h' x0 u0 t t' z z' J :
    reached s h -> reached s' h' -> gm x0 nx 1 -> scales_ok d (cf h) -> all_accepted (cf h) -> all_accepted (cf h') -> nl_relaxed d (cf h) (cf h') -> tols_le t t' -> k_obj (cf h) = Some J ->
    nlp_feasible d t (call s x0 u0) z -> nlp_optimal d t' (call s' x0 u0) z' ->
    (nl_cost d (cf h') J (x_traj d (cf h') x0 (dvar z')) (u_traj d (cf h') (dvar z')) <= nl_cost d (cf h) J (x_traj d (cf h) x0 (dvar z)) (u_traj d (cf h) (dvar z)))%S.
  Proof using C0 C SL SM.
    intros R R' G [Sx Su] A A' Rx T EJ Fz O. destruct (relaxed_scales _ _ Rx (conj Sx Su)) as [Sx' Su'].
    assert (EJ' : k_obj (cf h') = Some J) by (rewrite (rl_obj d _ _ Rx); exact EJ).
    destruct (C53_trajectory_optimal junk d ni ne dyn_eq C0 C s' h' x0 u0 t' z' J R' G Sx' Su' A' EJ' O) as [_ Op].
    apply (proj1 (C53_feasible_iff junk d ni ne dyn_eq C0 C s h x0 u0 t z R G Sx Su A)) in Fz as (_ & _ & Az).
    rewrite <- (relaxed_cost _ _ J _ _ Rx). apply Op. exact (relaxed_admissible _ _ _ _ _ _ _ Rx T Az).
  Qed.
  (** constraints that the optimum of the relaxed problem satisfies change nothing *)
  Theorem C81_respected_constraints_change_nothing s h s' h' x0 u0 t z :
    reached s h -> reached s' h' -> gm x0 nx 1 -> scales_ok d (cf h) -> all_accepted (cf h) -> all_accepted (cf h') -> nl_relaxed d (cf h) (cf h') -> k_obj (cf h) <> None ->
    nlp_optimal d t (call s' x0 u0) z -> nlp_feasible d t (call s x0 u0) z -> nlp_optimal d t (call s x0 u0) z.
  Proof using C0 C SL SM.
    intros R R' G [Sx Su] A A' Rx HJ O Fz. destruct (k_obj (cf h)) as [J|] eqn:EJ; [|now elim HJ]. clear HJ.
    assert (EJ' : k_obj (cf h') = Some J) by (rewrite (rl_obj d _ _ Rx); exact EJ).
    destruct (relaxed_scales _ _ Rx (conj Sx Su)) as [Sx' Su'].
    destruct (C53_trajectory_optimal junk d ni ne dyn_eq C0 C s' h' x0 u0 t z J R' G Sx' Su' A' EJ' O) as [_ Op].
    refine (conj Fz _). pose proof (nreached_NR junk d ni ne dyn_eq C0 C s h R) as H.
    pose proof A as (_ & _ & _ & AO). pose proof (AO ltac:(congruence)) as B.
    assert (Ho : nc_obj (call s x0 u0) = Some (eval_obj junk d s x0)) by (cbn; rewrite (nr_bobj d s _ H), B; reflexivity).
    destruct (proj1 (C53_feasible_iff junk d ni ne dyn_eq C0 C s h x0 u0 t z R G Sx Su A) Fz) as (Lz & Sl & Az).
    destruct (C21_cost_sees_the_trajectories junk d ni ne dyn_eq s h x0 u0 z _ C0 C R G Sx Lz Ho) as (f1 & g1 & Hf1 & _ & E1).
    rewrite EJ in Hf1. injection Hf1 as <-. eexists _, _, _. refine (conj Ho (conj E1 _)). intros z' Fz'.
    apply (proj1 (C53_feasible_iff junk d ni ne dyn_eq C0 C s h x0 u0 t z' R G Sx Su A)) in Fz' as (L' & S' & A1).
    destruct (C21_cost_sees_the_trajectories junk d ni ne dyn_eq s h x0 u0 z' _ C0 C R G Sx L' Ho) as (f2 & g2 & Hf2 & _ & E2).
    rewrite EJ in Hf2. injection Hf2 as <-. eexists _, _. refine (conj E2 _).
    assert (T : tols_le t t) by (repeat split; apply sle_refl). specialize (Op _ _ (relaxed_admissible _ _ _ _ _ _ _ Rx T A1)). rewrite !(relaxed_cost _ _ J _ _ Rx) in Op.
    destruct (relaxed_traj _ _ x0 (dvar z) Rx) as [EX EU]. unfold nl_cost in Op. rewrite <- (obj_at_ext d J (k_out (cf h)) _ _ _ _ s0 EX EU) in Op. rewrite Sl, S'. exact Op.
  Qed.

  (** *** C82 *)
  Lemma staying_admissible c x0 xs us f : unit_scales d c -> rest_allowed d ni ne c xs us -> k_dyn c = Some f -> model_rests d f (k_ts c) xs us ->
    (forall j, j < nx -> vec x0 j = xs j) -> nl_admissible d ni ne c x0 exactly (staying xs) (staying us).
  Proof using SL.
    intros [Ux Uu] (B1 & B2 & K1 & K2) Hd Hr Ex. apply (proj2 (C53_unit_scales d ni ne c x0 _ _ Ux Uu)).
    refine (conj _ (conj _ (conj B1 (conj B2 (conj _ (conj K1 K2)))))).
    - intros j Hj. symmetry. auto.
    - reflexivity.
    - intros f' Hf i l Hi Hl. rewrite Hd in Hf. injection Hf as <-. unfold predicted. specialize (Hr i l Hi Hl). unfold comps in Hr. unfold traj_row, staying.
      destruct (k_ts c) as [ts|]; rewrite Hr; [|reflexivity]. ring.
  Qed.
  Theorem C82_rest_is_kept s h x0 u0 xs us z code cost t r : reached s h -> gm x0 nx 1 -> keeps_rest d ni ne (cf h) xs us -> (forall j, j < nx -> vec x0 j = xs j) ->
    nlp_optimal d exactly (call s x0 u0) z -> step s (NOptimize x0 u0 (NSolved (dvar z) code cost)) = Ok (t, RResult r) -> forall j, j < nu -> vec (r_cmd r) j = us j.
  Proof using C0 C SL SM.
    intros R G (Un & A & Ra & (f & Hd & Hm) & J & HJ & Be) Ex O St j Hj. destruct (unit_nz d _ Un) as [Sx Su].
    destruct (C53_trajectory_optimal junk d ni ne dyn_eq C0 C s h x0 u0 exactly z J R G Sx Su A HJ O) as [Ad Op].
    destruct (seq_is junk d ni ne dyn_eq C0 C s h x0 u0 (dvar z) code cost t r R G Sx St) as [_ Q]. rewrite Q by exact Hj.
    destruct (Be x0 Ex _ _ Ad) as [Le Eq]. apply Eq; [|exact Hj]. apply sle_antisym; [|exact Le]. apply Op. eapply staying_admissible; eassumption.
  Qed.
  (** staying is an optimum of the solver's problem, so an exact solver exists for the closed loop below *)
  Theorem C82_rest_is_optimal s h x0 u0 xs us : reached s h -> gm x0 nx 1 -> keeps_rest d ni ne (cf h) xs us -> (forall j, j < nx -> vec x0 j = xs j) ->
    exists z, nlp_optimal d exactly (call s x0 u0) z /\ (forall i j, i <= ph -> j < nx -> x_traj d (cf h) x0 (dvar z) i j = xs j) /\ (forall i j, i <= ph -> j < nu -> u_traj d (cf h) (dvar z) i j = us j).
  Proof using C0 C SL SM.
    intros R G (Un & A & Ra & (f & Hd & Hm) & J & HJ & Be) Ex. destruct (unit_nz d _ Un) as [Sx Su].
    apply (C53_converse junk d ni ne dyn_eq C0 C s h x0 u0 exactly (staying xs) (staying us) J R G Sx Su A HJ); [eapply staying_admissible; eassumption|].
    intros X' U' Ad. exact (proj1 (Be x0 Ex X' U' Ad)).
  Qed.
  (** closed loop: a plant that rests at (xs, us) stays there for ever, whatever else is called in between, as long as every period is solved to optimality under
      a configuration for which it pays to stay *)
  Theorem C82_closed_loop plant s h x u pe0 ps xs us : nl_control_run junk d ni ne dyn_eq plant s h x u (pe0 :: ps) ->
    (forall j, j < nx -> vec (ne_x pe0) j = xs j) -> (forall j, j < nx -> plant (comps nx xs) (comps nu us) j = xs j) ->
    (forall pe, In pe (pe0 :: ps) -> keeps_rest d ni ne (ne_cfg pe) xs us /\ nl_optimally d pe) ->
    forall pe, In pe (pe0 :: ps) -> (forall j, j < nu -> vec (r_cmd (ne_res pe)) j = us j) /\ (forall j, j < nx -> vec (ne_next pe) j = xs j).
  Proof using C0 C SL SM.
    intros H E0 Ep Hk. assert (K : forall qs, nl_control_run junk d ni ne dyn_eq plant s h x u qs -> qs = pe0 :: ps ->
      (forall pe, In pe qs -> (forall j, j < nu -> vec (r_cmd (ne_res pe)) j = us j) /\ (forall j, j < nx -> vec (ne_next pe) j = xs j)) /\ (forall j, j < nx -> vec x j = xs j)).
    { intros qs Hq. clear H. revert ps Hk. induction Hq as [s x u E X U|s h x u qs op s' r Hq IH Hs N E|s h x u qs a s' res x' Hq IH E X' EN]; intros ps Hk Eq; [discriminate Eq|eauto|].
      assert (Ex : forall j, j < nx -> vec x j = xs j).
      { destruct qs as [|q0 qs].
        - cbn in Eq. injection Eq as <- _. exact E0.
        - cbn [app] in Eq. injection Eq as -> Eq. destruct (IH qs) as [_ Z]; [|reflexivity|exact Z]. intros pe I. apply Hk. rewrite <- Eq. destruct I as [I|I]; [now left|right]. apply in_or_app. now left. }
      assert (Hl : forall j, j < nu -> vec (r_cmd res) j = us j).
      { match type of Eq with _ ++ [?p] = _ => destruct (Hk p) as [Kr (z & code & cost & Ea & O)]; [rewrite <- Eq; apply in_or_app; right; now left|] end.
        cbn [ne_cfg ne_ans ne_call] in *. subst a. destruct (nrun_reached junk d ni ne dyn_eq plant C0 C _ _ _ _ _ Hq) as (R0 & X & U).
        eapply C82_rest_is_kept; eassumption. }
      assert (Hn : forall j, j < nx -> vec x' j = xs j).
      { intros j Hj. rewrite EN by exact Hj. rewrite (comps_ext nx _ xs Ex), (comps_ext nu _ us Hl). auto. }
      split; [|exact Hn]. intros pe I. apply in_app_or in I. destruct I as [I|[<-|[]]]; [|split; assumption].
      destruct qs as [|q0 qs]; [destruct I|]. cbn [app] in Eq. injection Eq as -> Eq. destruct (IH qs) as [Z _]; [|reflexivity|exact (Z pe I)].
      intros pe' I'. apply Hk. rewrite <- Eq. destruct I' as [I'|I']; [now left|right]. apply in_or_app. now left. }
    intros pe I. exact (proj1 (K _ H eq_refl) pe I).
  Qed.
End Scales.

(** *** Instances *)
(** one state, one command, horizon 1: x+ = 2 x + u, cost (x1 - 1)^2; it rests at x = 1 under u = -1 *)
Definition w_J : obj_t Qc := fun X Y U e => ((at2 X 1 0 - q 1) * (at2 X 1 0 - q 1))%S.
Definition w_ops (sx b : Z) : list (nop Qc) :=
  [NSetStateScale (qv [sx]); NSetObjective w_J true; NSetDynamics e_f (q 0) true; NSetStateBounds (qe [- b]%Z) (qe [b]) (mkSlice (-1) (-1))].
Notation wS sx b := (nS e_d 0 0 (w_ops sx b)). Notation wH sx b := (nH e_d 0 0 (w_ops sx b)).
Notation wC sx b := (ncfg_run e_d 0 0 (nH e_d 0 0 (w_ops sx b))).
Definition w_facts (c : ncfg Qc) (sx : Qc) : Prop :=
  k_sx c 0 = sx /\ sx <> s0 /\ k_su c 0 = s1 /\ all_accepted c /\ k_obj c = Some w_J /\ k_dyn c = Some e_f /\ k_ts c = None /\ k_ieq c = None /\ k_eqc c = None /\
  k_ulo c 0 0 = MInf /\ k_uhi c 0 0 = PInf /\ within (k_xlo c 0 0) (k_xhi c 0 0) (q 1 / sx)%S.
Section Ring.
  Context {F : Type} {SO : ScalarOps F} {SL : ScalarLaws F}.
  Add Field SFwr : (@s_field F SO SL).
  Lemma wr1 (c a b : F) : (c * a + (b - c * a) = b)%S. Proof. ring. Qed.
  Lemma wr2 (a b : F) : ((a - b) * (a - b) <= s0)%S -> a = b.
  Proof.
    intros L. pose proof (sle_antisym _ _ L (ssq_nonneg (a - b)%S)) as E. assert (Z : (a - b)%S = s0) by (destruct (smul_integral _ _ E); assumption).
    transitivity (b + (a - b))%S; [ring|]. rewrite Z. ring.
  Qed.
  Lemma wr3 (a b c : F) : a = (b + c)%S -> c = (a - b)%S. Proof. intros ->. ring. Qed.
  Lemma wr4 (a : F) : ((a - a) * (a - a))%S = s0. Proof. ring. Qed.
  Lemma wr5 (a : F) : (a / s1 = a)%S. Proof. field. apply (@F_1_neq_0 _ _ _ _ _ _ _ _ _ _ (@s_field F SO SL)). Qed.
  Lemma wr6 (a : F) : (sabs a <= s0)%S -> a = s0.
  Proof. intros L. apply sabs_le in L as [H1 H2]. replace (- s0)%S with (s0 : F) in H1 by ring. now apply sle_antisym. Qed.
  Lemma wr7 (a b : F) : (a - b)%S = s0 -> a = b. Proof. intros E. transitivity (b + (a - b))%S; [ring|]. rewrite E. ring. Qed.
  Lemma wr8 (a : F) : (sabs (a - a) <= s0)%S. Proof. replace (a - a)%S with (s0 : F) by ring. rewrite (sabs_pos s0) by apply sle_refl. apply sle_refl. Qed.
  Lemma wr9 (a : F) : (s0 * a)%S = s0 /\ (a * s0)%S = s0 /\ (s1 * a)%S = a. Proof. refine (conj _ (conj _ _)); ring. Qed.
  Lemma nz1 : (s1 : F) <> s0. Proof. apply (@F_1_neq_0 _ _ _ _ _ _ _ _ _ _ (@s_field F SO SL)). Qed.
End Ring.
Definition w_X (sx x : Qc) (i j : nat) : Qc := if i =? 0 then (sx * x)%S else q 1.
Definition w_U (sx x : Qc) (i j : nat) : Qc := (q 1 - q 2 * (sx * x))%S.
Lemma w_cost c X U : nl_cost e_d c w_J X U = ((X 1%nat 0%nat - q 1) * (X 1%nat 0%nat - q 1))%S. Proof. reflexivity. Qed.
Lemma w_adm c sx x0 : w_facts c sx -> nl_admissible e_d 0 0 c x0 exactly (w_X sx (vec x0 0)) (w_U sx (vec x0 0)).
Proof.
  intros (E1 & Nz & E2 & A & EJ & Ed & Et & Ei & Ee & L & H & W). refine (conj _ (conj _ (conj _ (conj _ (conj _ (conj _ _)))))).
  - intros j Hj. destruct j as [|j]; [|cbn in Hj; lia]. rewrite E1. reflexivity.
  - reflexivity.
  - intros k j Hk Hj. destruct k as [|k]; [|cbn in Hk; lia]. destruct j as [|j]; [|cbn in Hj; lia]. rewrite E1. exact W.
  - intros k j Hk Hj. destruct k as [|k]; [|cbn in Hk; lia]. destruct j as [|j]; [|cbn in Hj; lia]. rewrite L, H. split; exact I.
  - intros f Hf i l Hi Hl. rewrite Ed in Hf. injection Hf as <-. destruct i as [|i]; [|cbn in Hi; lia]. destruct l as [|l]; [|cbn in Hl; lia]. rewrite E1.
    unfold predicted. rewrite Et. unfold e_f, traj_row. cbn [d_nx d_nu e_d seq map nth]. unfold w_X, w_U. cbn [Nat.eqb t_dyn exactly].
    rewrite wr1, (proj1 (proj2 (wr9 (sabs sx)))). apply wr8.
  - intros f Hf. rewrite Ei in Hf. discriminate Hf.
  - intros f Hf. rewrite Ee in Hf. discriminate Hf.
Qed.
Lemma w_scales c sx : w_facts c sx -> scales_ok e_d c.
Proof. intros (E1 & Nz & E2 & _). split; intros j Hj; (destruct j as [|j]; [|cbn in Hj; lia]); [rewrite E1; exact Nz|rewrite E2; apply nz1]. Qed.
Lemma w_acc c sx : w_facts c sx -> all_accepted c. Proof. intros (_ & _ & _ & A & _). exact A. Qed.
Lemma w_optimum s h sx x0 u0 : nreached qj e_d 0 0 false s h -> w_facts (ncfg_run e_d 0 0 h) sx -> gm x0 (d_nx e_d) 1 ->
  exists z, nlp_optimal e_d exactly (n_call qj e_d 0 0 s x0 u0) z /\
    (forall i j, i <= 1 -> j < 1 -> x_traj e_d (ncfg_run e_d 0 0 h) x0 (dvar z) i j = w_X sx (vec x0 0) i j) /\ (forall i j, i <= 1 -> j < 1 -> u_traj e_d (ncfg_run e_d 0 0 h) (dvar z) i j = w_U sx (vec x0 0) i j).
Proof.
  intros R K G. pose proof (w_adm _ sx x0 K) as A. destruct (w_scales _ _ K) as [Sx Su]. pose proof K as (E1 & Nz & E2 & Ac & EJ & _).
  destruct (C53_converse qj e_d 0 0 false e_ch e_ph s h x0 u0 exactly _ _ w_J R G Sx Su Ac EJ A) as (z & O & T); [|exists z; exact (conj O T)].
  intros X' U' _. rewrite !w_cost. change (w_X sx (vec x0 0) 1 0) with (q 1). rewrite wr4. apply ssq_nonneg.
Qed.
Lemma w_unique s h sx x0 u0 z : nreached qj e_d 0 0 false s h -> w_facts (ncfg_run e_d 0 0 h) sx -> gm x0 (d_nx e_d) 1 -> nlp_optimal e_d exactly (n_call qj e_d 0 0 s x0 u0) z ->
  u_traj e_d (ncfg_run e_d 0 0 h) (dvar z) 0 0 = (q 1 - q 2 * (sx * vec x0 0))%S.
Proof.
  intros R K G O. destruct (w_scales _ _ K) as [Sx Su]. pose proof (w_adm _ sx x0 K) as A. destruct K as (E1 & Nz & E2 & Ac & EJ & Ed & Et & _).
  destruct (C53_trajectory_optimal qj e_d 0 0 false e_ch e_ph s h x0 u0 exactly z w_J R G Sx Su Ac EJ O) as [(A1 & _ & _ & _ & A5 & _) Op].
  specialize (Op _ _ A). rewrite !w_cost in Op. change (w_X sx (vec x0 0) 1 0) with (q 1) in Op. rewrite wr4 in Op. apply wr2 in Op.
  specialize (A5 e_f Ed 0 0 ltac:(cbn; lia) ltac:(cbn; lia)). specialize (A1 0 ltac:(cbn; lia)). rewrite E1 in A1. unfold predicted in A5. rewrite Et in A5.
  unfold e_f, traj_row in A5. cbn [d_nx d_nu e_d seq map nth t_dyn exactly] in A5. rewrite (proj1 (proj2 (wr9 _))) in A5. apply wr6, wr7 in A5. rewrite Op, A1 in A5. now apply wr3.
Qed.
Lemma w_ok s h sx x0 u0 z : nreached qj e_d 0 0 false s h -> w_facts (ncfg_run e_d 0 0 h) sx -> gm x0 (d_nx e_d) 1 -> gm u0 (d_nu e_d) 1 ->
  exists t r, n_step qj e_d 0 0 false s (NOptimize x0 u0 (NSolved (dvar z) 1 (Fin (q 3)))) = Ok (t, RResult r).
Proof.
  intros R K G Gu. pose proof (nreached_NR qj e_d 0 0 false e_ch e_ph s h R) as H. eexists _, _. cbn [n_step].
  rewrite (run_solved qj e_d 0 0 e_ch e_ph _ _ x0 u0 (dvar z) 1 (Fin (q 3)) H G). reflexivity.
  unfold has_eq. rewrite (nr_eqc e_d s _ H). destruct K as (_ & _ & _ & _ & _ & _ & _ & _ & -> & _). intros K. discriminate K.
Qed.
Ltac w_f := refine (conj _ (conj _ (conj _ (conj _ (conj eq_refl (conj eq_refl (conj eq_refl (conj eq_refl (conj eq_refl (conj eq_refl (conj eq_refl _)))))))))));
  [apply qeq; vm_compute; reflexivity|intros K; apply (f_equal (fun v => sleb v s0)) in K; vm_compute in K; discriminate K|apply qeq; vm_compute; reflexivity|
   refine (conj _ (conj _ (conj _ _))); intros K; [apply con_in_ok; vm_compute; reflexivity| | |vm_compute; reflexivity]; exfalso; apply K; reflexivity|
   apply within_dec_true; vm_compute; reflexivity].
Lemma wa_facts : w_facts (wC 1 20) (q 1). Proof. w_f. Qed.
Lemma wb_facts : w_facts (wC 2 20) (q 2). Proof. w_f. Qed.
Lemma wd_facts : w_facts (wC 1 40) (q 1). Proof. w_f. Qed.
Lemma wa_reached : nreached qj e_d 0 0 false (wS 1 20) (wH 1 20). Proof. n_reach. Qed.
Lemma wb_reached : nreached qj e_d 0 0 false (wS 2 20) (wH 2 20). Proof. n_reach. Qed.
Lemma wd_reached : nreached qj e_d 0 0 false (wS 1 40) (wH 1 40). Proof. n_reach. Qed.
Lemma w_same a b c d : same_functions (wC a b) (wC c d). Proof. repeat apply conj; reflexivity. Qed.
Lemma cmd_of s h sx x0 u0 z t r : nreached qj e_d 0 0 false s h -> w_facts (ncfg_run e_d 0 0 h) sx -> gm x0 (d_nx e_d) 1 -> nlp_optimal e_d exactly (n_call qj e_d 0 0 s x0 u0) z ->
  n_step qj e_d 0 0 false s (NOptimize x0 u0 (NSolved (dvar z) 1 (Fin (q 3)))) = Ok (t, RResult r) -> vec (r_cmd r) 0 = (q 1 - q 2 * (sx * vec x0 0))%S.
Proof.
  intros R K G O St. destruct (w_scales _ _ K) as [Sx Su]. destruct (seq_is qj e_d 0 0 false e_ch e_ph s h x0 u0 (dvar z) _ _ t r R G Sx St) as [_ Q].
  rewrite Q by (cbn; lia). eapply w_unique; eassumption.
Qed.
(** the controller with state scale 2 and bounds 20 at x = 1 is the unscaled controller with bounds 40 at x = 2 *)
Example C80_instance : exists z t r, nreached qj e_d 0 0 false (wS 2 20) (wH 2 20) /\ nreached qj e_d 0 0 false (wS 1 40) (wH 1 40) /\ scales_ok e_d (wC 2 20) /\ scales_ok e_d (wC 1 40) /\
  all_accepted (wC 2 20) /\ all_accepted (wC 1 40) /\ same_functions (wC 2 20) (wC 1 40) /\ same_times_scale e_d (wC 2 20) (wC 1 40) (qv [1]%Z) (qv [2]%Z) /\
  nlp_optimal e_d exactly (n_call qj e_d 0 0 (wS 2 20) (qv [1]%Z) (qv [0]%Z)) z /\ n_step qj e_d 0 0 false (wS 2 20) (NOptimize (qv [1]%Z) (qv [0]%Z) (NSolved (dvar z) 1 (Fin (q 3)))) = Ok (t, RResult r) /\
  vec (r_cmd r) 0 = q (-3).
Proof.
  assert (G : gm (qv [1]%Z) (d_nx e_d) 1) by (repeat split). assert (Gu : gm (qv [0]%Z) (d_nu e_d) 1) by (repeat split).
  destruct (w_optimum _ _ _ (qv [1]%Z) (qv [0]%Z) wb_reached wb_facts G) as (z & O & _). destruct (w_ok _ _ _ (qv [1]%Z) (qv [0]%Z) z wb_reached wb_facts G Gu) as (t & r & St).
  exists z, t, r. refine (conj wb_reached (conj wd_reached (conj (w_scales _ _ wb_facts) (conj (w_scales _ _ wd_facts) (conj _ (conj _ (conj (w_same _ _ _ _) (conj _ (conj O (conj St _)))))))))).
  - exact (w_acc _ _ wb_facts).
  - exact (w_acc _ _ wd_facts).
  - refine (conj _ (conj _ _)).
    + intros j Hj. destruct j as [|j]; [|cbn in Hj; lia]. apply qeq. vm_compute. reflexivity.
    + intros k j Hk Hj. destruct k as [|k]; [|cbn in Hk; lia]. destruct j as [|j]; [|cbn in Hj; lia]. exists (Fin (q (-40))), (Fin (q 40)). split; apply box_b_ok; vm_compute; reflexivity.
    + intros k j Hk Hj. destruct k as [|k]; [|cbn in Hk; lia]. destruct j as [|j]; [|cbn in Hj; lia]. exists MInf, PInf. split; apply box_b_ok; vm_compute; reflexivity.
  - rewrite (cmd_of _ _ _ _ _ _ _ _ wb_reached wb_facts G O St). apply qeq. vm_compute. reflexivity.
Qed.
(** as intended - scales are internal, the command does not depend on them - refuted: scale 2 instead of 1, everything else the same: -3 instead of -1 *)
Theorem C80_scales_do_not_matter_refuted :
  ~ (forall d ni ne s h s' h' (x0 u0 : mat Qc) z z' code cost t r t' r', 0 < d_ch d -> d_ch d <= d_ph d -> nreached qj d ni ne false s h -> nreached qj d ni ne false s' h' ->
       gm x0 (d_nx d) 1 -> gm u0 (d_nu d) 1 -> let c := ncfg_run d ni ne h in let c' := ncfg_run d ni ne h' in
       unit_scales d c -> scales_ok d c' -> all_accepted c -> all_accepted c' -> same_functions c c' ->
       (forall k j, k < d_ph d -> j < d_nx d -> k_xlo c' k j = k_xlo c k j /\ k_xhi c' k j = k_xhi c k j) -> (forall k j, k < d_ch d -> j < d_nu d -> k_ulo c' k j = k_ulo c k j /\ k_uhi c' k j = k_uhi c k j) ->
       nlp_optimal d exactly (n_call qj d ni ne s x0 u0) z -> nlp_optimal d exactly (n_call qj d ni ne s' x0 u0) z' ->
       n_step qj d ni ne false s (NOptimize x0 u0 (NSolved (dvar z) code cost)) = Ok (t, RResult r) -> n_step qj d ni ne false s' (NOptimize x0 u0 (NSolved (dvar z') code cost)) = Ok (t', RResult r') ->
       forall j, j < d_nu d -> vec (r_cmd r') j = vec (r_cmd r) j).
Proof.
  intros H. assert (G : gm (qv [1]%Z) (d_nx e_d) 1) by (repeat split). assert (Gu : gm (qv [0]%Z) (d_nu e_d) 1) by (repeat split).
  destruct (w_optimum _ _ _ (qv [1]%Z) (qv [0]%Z) wa_reached wa_facts G) as (z & O & _). destruct (w_ok _ _ _ (qv [1]%Z) (qv [0]%Z) z wa_reached wa_facts G Gu) as (t & r & St).
  destruct (w_optimum _ _ _ (qv [1]%Z) (qv [0]%Z) wb_reached wb_facts G) as (z' & O' & _). destruct (w_ok _ _ _ (qv [1]%Z) (qv [0]%Z) z' wb_reached wb_facts G Gu) as (t' & r' & St').
  assert (K : vec (r_cmd r') 0 = vec (r_cmd r) 0).
  { refine (H e_d 0 0 _ _ _ _ _ _ z z' _ _ t r t' r' e_ch e_ph wa_reached wb_reached G Gu _ (w_scales _ _ wb_facts) _ _ (w_same _ _ _ _) _ _ O O' St St' 0 ltac:(cbn; lia)).
    - split; intros j Hj; (destruct j as [|j]; [|cbn in Hj; lia]); apply qeq; vm_compute; reflexivity.
    - exact (w_acc _ _ wa_facts).
    - exact (w_acc _ _ wb_facts).
    - intros k j Hk Hj. split; reflexivity.
    - intros k j Hk Hj. split; reflexivity. }
  rewrite (cmd_of _ _ _ _ _ _ _ _ wa_reached wa_facts G O St), (cmd_of _ _ _ _ _ _ _ _ wb_reached wb_facts G O' St') in K.
  apply (f_equal (fun v => sleb (q (-2)) v)) in K. vm_compute in K. discriminate K.
Qed.
Lemma w_relaxed : nl_relaxed e_d (wC 1 20) (wC 1 40).
Proof.
  constructor; try reflexivity; try (now left).
  - intros k j Hk Hj. destruct k as [|k]; [|cbn in Hk; lia]. destruct j as [|j]; [|cbn in Hj; lia]. intros v [A B]. split.
    + apply (sle_trans _ (q (-20))); [vm_compute; reflexivity|exact A].
    + apply (sle_trans _ (q 20)); [exact B|vm_compute; reflexivity].
  - intros k j Hk Hj v Hv. exact Hv.
Qed.
Example C81_instance : exists z, nreached qj e_d 0 0 false (wS 1 20) (wH 1 20) /\ nreached qj e_d 0 0 false (wS 1 40) (wH 1 40) /\ scales_ok e_d (wC 1 20) /\ all_accepted (wC 1 20) /\ all_accepted (wC 1 40) /\
  nl_relaxed e_d (wC 1 20) (wC 1 40) /\ nlp_optimal e_d exactly (n_call qj e_d 0 0 (wS 1 40) (qv [1]%Z) (qv [0]%Z)) z /\ nlp_feasible e_d exactly (n_call qj e_d 0 0 (wS 1 20) (qv [1]%Z) (qv [0]%Z)) z.
Proof.
  assert (G : gm (qv [1]%Z) (d_nx e_d) 1) by (repeat split).
  destruct (w_optimum _ _ _ (qv [1]%Z) (qv [0]%Z) wd_reached wd_facts G) as (z & O & TX & TU).
  exists z. refine (conj wa_reached (conj wd_reached (conj (w_scales _ _ wa_facts) (conj (w_acc _ _ wa_facts) (conj (w_acc _ _ wd_facts) (conj w_relaxed (conj O _))))))).
  pose proof (w_scales _ _ wa_facts) as [Sx Su]. pose proof (w_scales _ _ wd_facts) as [Sx' Su'].
  destruct (proj1 (C53_feasible_iff qj e_d 0 0 false e_ch e_ph _ _ _ _ exactly z wd_reached G Sx' Su' (w_acc _ _ wd_facts)) (proj1 O)) as (Lz & Sl & _).
  apply (proj2 (C53_feasible_iff qj e_d 0 0 false e_ch e_ph _ _ _ _ exactly z wa_reached G Sx Su (w_acc _ _ wa_facts))). refine (conj Lz (conj Sl _)).
  destruct (relaxed_traj e_d _ _ (qv [1]%Z) (dvar z) w_relaxed) as [EX EU].
  apply (adm_ext e_d 0 0 e_ch e_ph _ _ _ (w_X (q 1) (vec (qv [1]%Z) 0)) (w_U (q 1) (vec (qv [1]%Z) 0))); [| |exact (w_adm _ _ _ wa_facts)].
  - intros i j Hi Hj. rewrite EX by assumption. symmetry. apply TX; [change (i < 2) in Hi; lia|exact Hj].
  - intros i j Hi Hj. rewrite EU by assumption. symmetry. apply TU; [change (i < 2) in Hi; lia|exact Hj].
Qed.
(** C82: the unscaled controller keeps the plant at (1, -1) *)
Lemma w_rest : keeps_rest e_d 0 0 (wC 1 20) (fun _ => q 1) (fun _ => q (-1)).
Proof.
  refine (conj _ (conj (w_acc _ _ wa_facts) (conj _ (conj _ _)))).
  - split; intros j Hj; (destruct j as [|j]; [|cbn in Hj; lia]); apply qeq; vm_compute; reflexivity.
  - refine (conj _ (conj _ _)).
    + intros k j Hk Hj. destruct k as [|k]; [|cbn in Hk; lia]. destruct j as [|j]; [|cbn in Hj; lia]. apply within_dec_true. vm_compute. reflexivity.
    + intros k j Hk Hj. split; exact I.
    + split; intros f Hf; discriminate Hf.
  - exists e_f. split; [reflexivity|]. intros i l Hi Hl. cbn [k_ts]. change (k_ts (wC 1 20)) with (None : option Qc). apply qeq. vm_compute. reflexivity.
  - exists w_J. split; [reflexivity|]. intros x0 Ex X U (A1 & _ & _ & _ & A5 & _). rewrite !w_cost. unfold staying. rewrite wr4. split; [apply ssq_nonneg|].
    intros E j Hj. destruct j as [|j]; [|cbn in Hj; lia]. assert (E' : X 1%nat 0%nat = q 1) by (apply wr2; rewrite E; apply sle_refl).
    specialize (A5 e_f eq_refl 0 0 ltac:(cbn; lia) ltac:(cbn; lia)). specialize (A1 0 ltac:(cbn; lia)). pose proof wa_facts as (K1 & _). rewrite K1 in A1. rewrite Ex in A1 by (cbn; lia).
    unfold predicted in A5. change (k_ts (wC 1 20)) with (None : option Qc) in A5. unfold e_f, traj_row in A5. cbn [d_nx d_nu e_d seq map nth t_dyn exactly] in A5.
    rewrite (proj1 (proj2 (wr9 _))) in A5. apply wr6, wr7 in A5. rewrite E', A1 in A5. apply wr3 in A5. rewrite A5. apply qeq. vm_compute. reflexivity.
Qed.
Lemma keeps_rest_same d ni ne c c' (xs us : nat -> Qc) : k_sx c' = k_sx c /\ k_su c' = k_su c /\ k_dyn c' = k_dyn c /\ k_ts c' = k_ts c /\ k_xlo c' = k_xlo c /\ k_xhi c' = k_xhi c /\ k_ulo c' = k_ulo c /\ k_uhi c' = k_uhi c /\
    k_ieq c' = k_ieq c /\ k_eqc c' = k_eqc c /\ k_out c' = k_out c /\ k_cons c' = k_cons c /\ k_obj c' = k_obj c /\ k_bobj c' = k_bobj c /\ k_warm c' = k_warm c ->
  keeps_rest d ni ne c xs us -> keeps_rest d ni ne c' xs us.
Proof.
  intros (E1 & E2 & E3 & E4 & E5 & E6 & E7 & E8 & E9 & E10 & E11 & E12 & E13 & E14 & E15).
  unfold keeps_rest, unit_scales, all_accepted, rest_allowed, user_constraints, rest_is_best, nl_admissible, nl_cost. rewrite E1, E2, E3, E4, E5, E6, E7, E8, E9, E10, E11, E12, E13, E14. exact (fun H => H).
Qed.
Definition w_plant : list Qc -> list Qc -> nat -> Qc := fun x u j => e_f x u 0 j.
Lemma w_run : nl_control_run qj e_d 0 0 false w_plant (wS 1 20) (wH 1 20) (qv [1]%Z) (qv [0]%Z) [].
Proof. exact (nw_run e_d 0 0 w_plant (w_ops 1 20) (qv [1]%Z) (qv [0]%Z) ltac:(repeat split) ltac:(repeat split) ltac:(all_sized) ltac:(reflexivity) ltac:(vm_compute; reflexivity)). Qed.
Lemma w_plant_rests j : w_plant (comps (d_nx e_d) (fun _ => q 1)) (comps (d_nu e_d) (fun _ => q (-1))) j = q 1.
Proof. apply qeq. vm_compute. reflexivity. Qed.
(** one more optimal period can always be added *)
Lemma w_more s h x u ps : nl_control_run qj e_d 0 0 false w_plant s h x u ps -> keeps_rest e_d 0 0 (ncfg_run e_d 0 0 h) (fun _ => q 1) (fun _ => q (-1)) -> k_eqc (ncfg_run e_d 0 0 h) = None ->
  (forall j, j < d_nx e_d -> vec x j = q 1) ->
  exists s' h' x' u' pe, nl_control_run qj e_d 0 0 false w_plant s' h' x' u' (ps ++ [pe]) /\ ne_x pe = x /\ ne_cfg pe = ncfg_run e_d 0 0 h /\ nl_optimally e_d pe /\
    keeps_rest e_d 0 0 (ncfg_run e_d 0 0 h') (fun _ => q 1) (fun _ => q (-1)) /\ k_eqc (ncfg_run e_d 0 0 h') = None /\ (forall j, j < d_nx e_d -> vec x' j = q 1).
Proof.
  intros R K Ke Ex. destruct (nrun_reached qj e_d 0 0 false w_plant e_ch e_ph _ _ _ _ _ R) as (R0 & G & Gu).
  destruct (C82_rest_is_optimal qj e_d 0 0 false e_ch e_ph s h x u _ _ R0 G K Ex) as (z & O & _).
  pose proof (nreached_NR qj e_d 0 0 false e_ch e_ph s h R0) as H.
  assert (St : exists t r, n_step qj e_d 0 0 false s (NOptimize x u (NSolved (dvar z) 1 (Fin (q 3)))) = Ok (t, RResult r)).
  { eexists _, _. cbn [n_step]. rewrite (run_solved qj e_d 0 0 e_ch e_ph _ _ x u (dvar z) 1 (Fin (q 3)) H G). reflexivity.
    unfold has_eq. rewrite (nr_eqc e_d s _ H), Ke. intros Kd. discriminate Kd. }
  destruct St as (t & r & St). pose proof (next_period e_d 0 0 w_plant _ _ _ _ _ _ _ _ R St) as R1.
  pose proof (k_same e_d 0 0 h x u (NSolved (dvar z) 1 (Fin (q 3))) r) as Ks. cbv zeta in Ks.
  pose proof (C82_rest_is_kept qj e_d 0 0 false e_ch e_ph s h x u _ _ z _ _ t r R0 G K Ex O St) as Hc.
  eexists _, _, _, _, _. refine (conj R1 (conj eq_refl (conj eq_refl (conj _ (conj _ (conj _ _)))))).
  - exists z, 1%Z, (Fin (q 3)). exact (conj eq_refl O).
  - exact (keeps_rest_same _ _ _ _ _ _ _ Ks K).
  - destruct Ks as (_ & _ & _ & _ & _ & _ & _ & _ & _ & Kq & _). rewrite Kq. exact Ke.
  - intros j Hj. change (vec (after e_d w_plant x (r_cmd r)) j) with (w_plant (comps (d_nx e_d) (vec x)) (comps (d_nu e_d) (vec (r_cmd r))) j).
    rewrite (comps_ext _ (vec x) (fun _ => q 1) Ex), (comps_ext _ (vec (r_cmd r)) (fun _ => q (-1)) Hc). apply w_plant_rests.
Qed.
(** two optimal periods at rest *)
Example C82_instance : exists s h x u pe1 pe2, nl_control_run qj e_d 0 0 false w_plant s h x u [pe1; pe2] /\ (forall j, j < d_nx e_d -> vec (ne_x pe1) j = q 1) /\
  (forall j, j < d_nx e_d -> w_plant (comps (d_nx e_d) (fun _ => q 1)) (comps (d_nu e_d) (fun _ => q (-1))) j = q 1) /\
  forall pe, In pe [pe1; pe2] -> keeps_rest e_d 0 0 (ne_cfg pe) (fun _ => q 1) (fun _ => q (-1)) /\ nl_optimally e_d pe.
Proof.
  destruct (w_more _ _ _ _ _ w_run w_rest eq_refl) as (s1 & h1 & x1 & u1 & pe1 & R1 & X1 & C1 & O1 & K1 & E1 & N1).
  { intros j Hj. destruct j as [|j]; [|cbn in Hj; lia]. reflexivity. }
  destruct (w_more _ _ _ _ _ R1 K1 E1 N1) as (s2 & h2 & x2 & u2 & pe2 & R2 & X2 & C2 & O2 & K2 & E2 & N2).
  exists s2, h2, x2, u2, pe1, pe2. refine (conj R2 (conj _ (conj (fun j _ => w_plant_rests j) _))).
  - intros j Hj. rewrite X1. destruct j as [|j]; [|cbn in Hj; lia]. reflexivity.
  - intros pe [<-|[<-|[]]]; [rewrite C1|rewrite C2]; (split; [|assumption]); [exact w_rest|exact K1].
Qed.
(** with a state scale other than 1 the plant is driven away: the same model, objective and bounds with state scale 2; from x = 1, u = -1 the command is -3 *)
Theorem C82_scaled_refuted :
  ~ (forall d ni ne s h (x0 u0 : mat Qc) f J z code cost t r (xs us : nat -> Qc), 0 < d_ch d -> d_ch d <= d_ph d -> nreached qj d ni ne false s h ->
       gm x0 (d_nx d) 1 -> gm u0 (d_nu d) 1 -> let c := ncfg_run d ni ne h in
       scales_ok d c -> all_accepted c -> rest_allowed d ni ne c xs us -> k_dyn c = Some f -> k_ts c = None -> model_rests d f (k_ts c) xs us -> k_obj c = Some J ->
       (forall X U, (forall j, j < d_nx d -> X 0 j = xs j) -> (forall i l, i < d_ph d -> l < d_nx d -> X (S i) l = f (traj_row (d_nx d) X i) (traj_row (d_nu d) U i) i l) ->
          (nl_cost d c J (staying xs) (staying us) <= nl_cost d c J X U)%S /\ (nl_cost d c J X U = nl_cost d c J (staying xs) (staying us) -> forall j, j < d_nu d -> U 0 j = us j)) ->
       (forall j, j < d_nx d -> vec x0 j = xs j) -> (forall j, j < d_nu d -> vec u0 j = us j) ->
       nlp_optimal d exactly (n_call qj d ni ne s x0 u0) z -> n_step qj d ni ne false s (NOptimize x0 u0 (NSolved (dvar z) code cost)) = Ok (t, RResult r) ->
       forall j, j < d_nu d -> vec (r_cmd r) j = us j).
Proof.
  intros H. assert (G : gm (qv [1]%Z) (d_nx e_d) 1) by (repeat split). assert (Gu : gm (qv [-1]%Z) (d_nu e_d) 1) by (repeat split).
  destruct (w_optimum _ _ _ (qv [1]%Z) (qv [-1]%Z) wb_reached wb_facts G) as (z & O & _). destruct (w_ok _ _ _ (qv [1]%Z) (qv [-1]%Z) z wb_reached wb_facts G Gu) as (t & r & St).
  assert (K : vec (r_cmd r) 0 = q (-1)).
  { refine (H e_d 0 0 _ _ _ _ e_f w_J z _ _ t r (fun _ => q 1) (fun _ => q (-1)) e_ch e_ph wb_reached G Gu (w_scales _ _ wb_facts) (w_acc _ _ wb_facts) _ eq_refl eq_refl _ eq_refl _ _ _ O St 0 ltac:(cbn; lia)).
    - refine (conj _ (conj _ _)).
      + intros k j Hk Hj. destruct k as [|k]; [|cbn in Hk; lia]. destruct j as [|j]; [|cbn in Hj; lia]. apply within_dec_true. vm_compute. reflexivity.
      + intros k j Hk Hj. split; exact I.
      + split; intros f Hf; discriminate Hf.
    - intros i l Hi Hl. change (k_ts (wC 2 20)) with (None : option Qc). apply qeq. vm_compute. reflexivity.
    - intros X U A1 A5. rewrite !w_cost. unfold staying. rewrite wr4. split; [apply ssq_nonneg|].
      intros E j Hj. destruct j as [|j]; [|cbn in Hj; lia]. assert (E' : X 1%nat 0%nat = q 1) by (apply wr2; rewrite E; apply sle_refl).
      specialize (A5 0 0 ltac:(cbn; lia) ltac:(cbn; lia)). specialize (A1 0 ltac:(cbn; lia)). unfold e_f, traj_row in A5. cbn [d_nx d_nu e_d seq map nth] in A5. rewrite E', A1 in A5. apply wr3 in A5. rewrite A5. apply qeq. vm_compute. reflexivity.
    - intros j Hj. destruct j as [|j]; [|cbn in Hj; lia]. reflexivity.
    - intros j Hj. destruct j as [|j]; [|cbn in Hj; lia]. reflexivity. }
  rewrite (cmd_of _ _ _ _ _ _ _ _ wb_reached wb_facts G O St) in K.
  apply (f_equal (fun v => sleb (q (-2)) v)) in K. vm_compute in K. discriminate K.
Qed.
