(** Instance for C88: x+ = x + u, cost the sum of x^2 + u^2 over the rows, equality constraints x(2) = 0, u(2) = 0 on the last row, |x| <= 20, ph = ch = 2. *)
From Coq Require Import Bool Arith ZArith List Lia QArith Qcanon Ring Field.
From Verif Require Import Scalar Sums Mat Slice Builder BuilderEnt LMPC SpecLMPC NLMap NLTraj NLFun SpecNL NLLoop NLGrad NLEval NLSlope NLSlope2 NLMPC SpecNLC SpecNLP SpecNLO NLRef NLRun NLCall NLObs PropNL1 PropNL6 Wit WitNL SpecMeta PropMeta SpecNLoop PropNLoop SpecNLMeta PropNLMeta SpecStab PropStab SpecNLStab PropNLStab.
Import ListNotations.
Local Open Scope nat_scope.

Definition t_d : dims := mkDims 1 1 0 1 2 2.
Lemma t_ch : 0 < d_ch t_d. Proof. cbn. lia. Qed.
Lemma t_ph : d_ch t_d <= d_ph t_d. Proof. cbn. lia. Qed.
Section Ring.
  Context {F : Type} {SO : ScalarOps F} {SL : ScalarLaws F}.
  Add Field SFtr : (@s_field F SO SL).
  Definition t_l (x u : list F) : F := (sq (nth 0 x s0) + sq (nth 0 u s0))%S.
  Definition t_J : obj_t F := fun X Y U e => (t_l (nth 0 X []) (nth 0 U []) + t_l (nth 1 X []) (nth 1 U []) + t_l (nth 2 X []) (nth 2 U []))%S.
  Definition t_f : dyn_t F := fun x u _ _ => (nth 0 x s0 + nth 0 u s0)%S.
  Definition t_ce : eqc_t F := fun X U k => if k =? 0 then nth 0 (nth 2 X []) s0 else nth 0 (nth 2 U []) s0.
  Definition t_X (x : F) (i j : nat) : F := if i =? 0 then x else s0.
  Definition t_U (x : F) (i j : nat) : F := if i =? 0 then (- x)%S else s0.
  Lemma t_cost c X U : nl_cost t_d c t_J X U = ssum (2 + 1) (fun i => t_l (comps 1 (X i)) (comps 1 (U i))).
  Proof. unfold nl_cost, obj_at, t_J. cbn [d_ph d_nx d_nu t_d Nat.add ssum tab seq map nth]. unfold comps. cbn [seq map]. ring. Qed.
  Record t_facts (c : ncfg F) : Prop := {
    tf_u : unit_scales t_d c; tf_a : all_accepted c; tf_J : k_obj c = Some t_J; tf_d : k_dyn c = Some t_f; tf_t : k_ts c = None; tf_i : k_ieq c = None; tf_e : k_eqc c = Some t_ce;
    tf_x : forall k, k < 2 -> within (k_xlo c k 0) (k_xhi c k 0) s0 /\ k_xlo c k 0 = k_xlo c 0 0 /\ k_xhi c k 0 = k_xhi c 0 0;
    tf_v : forall k, k < 2 -> k_ulo c k 0 = MInf /\ k_uhi c k 0 = PInf }.
  Lemma t_cons c X U : t_facts c -> user_constraints t_d 0 2 c X U <-> X 2 0 = s0 /\ U 2 0 = s0.
  Proof.
    intros T. unfold user_constraints. rewrite (tf_i c T), (tf_e c T). split.
    - intros [_ H]. split; [exact (H t_ce eq_refl 0 ltac:(lia))|exact (H t_ce eq_refl 1 ltac:(lia))].
    - intros [E0 E1]. split; intros f Hf; [discriminate Hf|]. injection Hf as <-. intros k Hk. destruct k as [|[|k]]; [exact E0|exact E1|lia].
  Qed.
  Lemma t_ends c : t_facts c -> ends_at_rest t_d 0 2 t_l c t_J t_f (fun _ _ => True) (fun _ => s0) (fun _ => s0).
  Proof.
    intros T. constructor.
    - exact (tf_u c T).
    - exact (tf_d c T).
    - exact (tf_t c T).
    - intros x u k k' j. reflexivity.
    - split; intros k j Hk Hj; (destruct j as [|j]; [|cbn in Hj; lia]).
      + exact (proj2 (tf_x c T k Hk)).
      + destruct (tf_v c T k Hk) as [-> ->]. destruct (tf_v c T 0 ltac:(lia)) as [-> ->]. split; reflexivity.
    - intros X U. exact (t_cost c X U).
    - intros X U. split.
      + intros H. apply (t_cons c X U T) in H. destruct H as [E0 E1]. refine (conj (fun _ _ => I) (conj _ _)); intros j Hj; (destruct j as [|j]; [assumption|cbn in Hj; lia]).
      + intros (_ & E0 & E1). apply (t_cons c X U T). split; [apply E0|apply E1]; cbn; lia.
    - intros j Hj. unfold t_f, comps. cbn. ring.
    - unfold t_l, comps, sq. cbn. ring.
  Qed.
  Lemma t_adm c x0 : t_facts c -> nl_admissible t_d 0 2 c x0 exactly (t_X (vec x0 0)) (t_U (vec x0 0)).
  Proof.
    intros T. apply (proj2 (C53_unit_scales t_d 0 2 c x0 _ _ (proj1 (tf_u c T)) (proj2 (tf_u c T)))).
    destruct (proj2 (t_cons c (t_X (vec x0 0)) (t_U (vec x0 0)) T) (conj eq_refl eq_refl)) as [Ui Ue]. refine (conj _ (conj _ (conj _ (conj _ (conj _ (conj Ui Ue)))))).
    - intros j Hj. destruct j as [|j]; [reflexivity|cbn in Hj; lia].
    - intros i j Hi Hj. unfold held. destruct i as [|[|[|i]]]; [reflexivity|reflexivity|reflexivity|cbn in Hi; lia].
    - intros k j Hk Hj. destruct j as [|j]; [|cbn in Hj; lia]. rewrite Nat.add_1_r. exact (proj1 (tf_x c T k Hk)).
    - intros k j Hk Hj. destruct j as [|j]; [|cbn in Hj; lia]. destruct (tf_v c T k Hk) as [-> ->]. split; exact I.
    - intros f Hf i j Hi Hj. rewrite (tf_d c T) in Hf. injection Hf as <-. unfold predicted. rewrite (tf_t c T). unfold t_f, traj_row. cbn [d_nx d_nu t_d seq map nth].
      destruct i as [|[|i]]; [| |cbn in Hi; lia]; unfold t_X, t_U; cbn [Nat.eqb]; ring.
  Qed.
  Lemma t_forced c x0 X U : t_facts c -> nl_admissible t_d 0 2 c x0 exactly X U ->
    (forall i j, i <= 2 -> j < 1 -> X i j = t_X (vec x0 0) i j) /\ (forall i j, i <= 2 -> j < 1 -> U i j = t_U (vec x0 0) i j).
  Proof.
    intros T A. apply (proj1 (C53_unit_scales t_d 0 2 c x0 _ _ (proj1 (tf_u c T)) (proj2 (tf_u c T)))) in A. destruct A as (A1 & A2 & _ & _ & A5 & A6 & A7).
    destruct (proj1 (t_cons c X U T) (conj A6 A7)) as [E2 V2]. pose proof (A1 0 ltac:(cbn; lia)) as E0. pose proof (A2 2 0 ltac:(cbn; lia) ltac:(cbn; lia)) as V1. cbn [held d_ch t_d Nat.min Nat.sub] in V1.
    pose proof (A5 t_f (tf_d c T) 0 0 ltac:(cbn; lia) ltac:(cbn; lia)) as D0. pose proof (A5 t_f (tf_d c T) 1 0 ltac:(cbn; lia) ltac:(cbn; lia)) as D1.
    unfold predicted in D0, D1. rewrite (tf_t c T) in D0, D1. unfold t_f, traj_row in D0, D1. cbn [d_nx d_nu t_d seq map nth] in D0, D1.
    assert (W1 : U 1 0 = s0) by (rewrite <- V1; exact V2). assert (X1 : X 1 0 = s0) by (transitivity (X 1%nat O + U 1%nat O)%S; [rewrite W1; ring|rewrite <- D1; exact E2]).
    assert (W0 : U 0 0 = (- vec x0 O)%S) by (transitivity ((X O O + U O O) - X O O)%S; [ring|rewrite <- D0, X1, E0; ring]).
    split; intros i j Hi Hj; (destruct j as [|j]; [|lia]); (destruct i as [|[|[|i]]]; [| | |lia]); unfold t_X, t_U; cbn [Nat.eqb]; assumption.
  Qed.
  Lemma t_nonneg c X U : (s0 <= nl_cost t_d c t_J X U)%S.
  Proof. rewrite t_cost. apply ssum_nonneg. intros i _. unfold t_l, sq. replace (s0 : F) with (s0 + s0)%S at 1 by ring. apply sle_add; apply ssq_nonneg. Qed.
End Ring.

Definition t_ops : list (nop Qc) := [NSetObjective t_J true; NSetDynamics t_f (q 0) true; NSetEq t_ce (q 0) true; NSetStateBounds (qe [-20]%Z) (qe [20]%Z) (mkSlice (-1) (-1))].
Notation t_s := (nS t_d 0 2 t_ops). Notation t_h := (nH t_d 0 2 t_ops). Notation t_c := (ncfg_run t_d 0 2 t_h).
Lemma t_c_facts : t_facts t_c.
Proof.
  constructor; try reflexivity.
  - split; intros j Hj; (destruct j as [|j]; [|cbn in Hj; lia]); apply qeq; vm_compute; reflexivity.
  - refine (conj _ (conj _ (conj _ _))); intros K; [apply con_in_ok; vm_compute; reflexivity| |apply con_in_ok; vm_compute; reflexivity|vm_compute; reflexivity]. exfalso. apply K. reflexivity.
  - intros k Hk. destruct k as [|[|k]]; [| |lia]; (refine (conj _ (conj eq_refl eq_refl)); apply within_dec_true; vm_compute; reflexivity).
  - intros k Hk. destruct k as [|[|k]]; [| |lia]; split; reflexivity.
Qed.
Definition t_plant : list Qc -> list Qc -> nat -> Qc := fun x u j => t_f x u 0 j.
Lemma t_run : nl_control_run qj t_d 0 2 false t_plant t_s t_h (qv [1]%Z) (qv [0]%Z) [].
Proof. exact (nw_run t_d 0 2 t_plant t_ops (qv [1]%Z) (qv [0]%Z) ltac:(repeat split) ltac:(repeat split) ltac:(all_sized) ltac:(reflexivity) ltac:(vm_compute; reflexivity)). Qed.
Lemma t_facts_same c c' : k_sx c' = k_sx c /\ k_su c' = k_su c /\ k_dyn c' = k_dyn c /\ k_ts c' = k_ts c /\ k_xlo c' = k_xlo c /\ k_xhi c' = k_xhi c /\ k_ulo c' = k_ulo c /\ k_uhi c' = k_uhi c /\
    k_ieq c' = k_ieq c /\ k_eqc c' = k_eqc c /\ k_out c' = k_out c /\ k_cons c' = k_cons c /\ k_obj c' = k_obj c /\ k_bobj c' = k_bobj c /\ k_warm c' = k_warm c -> t_facts (c : ncfg Qc) -> t_facts c'.
Proof.
  intros (E1 & E2 & E3 & E4 & E5 & E6 & E7 & E8 & E9 & E10 & E11 & E12 & E13 & E14 & E15) [A B C D E G H I J].
  constructor; unfold unit_scales, all_accepted in *; rewrite ?E1, ?E2, ?E3, ?E4, ?E5, ?E6, ?E7, ?E8, ?E9, ?E10, ?E11, ?E12, ?E13, ?E14; assumption.
Qed.
Definition same_bounds_as (c c' : ncfg Qc) : Prop := k_sx c' = k_sx c /\ k_su c' = k_su c /\ k_xlo c' = k_xlo c /\ k_xhi c' = k_xhi c /\ k_ulo c' = k_ulo c /\ k_uhi c' = k_uhi c /\ k_out c' = k_out c.
Lemma t_relaxed c c' : t_facts c -> t_facts c' -> same_bounds_as c c' -> nl_relaxed t_d c c'.
Proof.
  intros T T' (E1 & E2 & E3 & E4 & E5 & E6 & E7). constructor; intros; rewrite ?E1, ?E2, ?E3, ?E4, ?E5, ?E6, ?E7; try reflexivity; try (intros v W; exact W).
  - rewrite (tf_t _ T), (tf_t _ T'). reflexivity.
  - rewrite (tf_J _ T), (tf_J _ T'). reflexivity.
  - rewrite (tf_d _ T), (tf_d _ T'). reflexivity.
  - left. rewrite (tf_i _ T), (tf_i _ T'). reflexivity.
  - left. rewrite (tf_e _ T), (tf_e _ T'). reflexivity.
Qed.
(** one more optimal period can always be added *)
Lemma t_more s h x u ps : nl_control_run qj t_d 0 2 false t_plant s h x u ps -> t_facts (ncfg_run t_d 0 2 h) ->
  exists s' h' x' u' pe, nl_control_run qj t_d 0 2 false t_plant s' h' x' u' (ps ++ [pe]) /\ ne_x pe = x /\ ne_cfg pe = ncfg_run t_d 0 2 h /\ nl_optimally t_d pe /\ as_planned t_d pe /\
    t_facts (ncfg_run t_d 0 2 h') /\ same_bounds_as (ncfg_run t_d 0 2 h) (ncfg_run t_d 0 2 h') /\ vec (r_cmd (ne_res pe)) 0 = (- vec x O)%S /\ x' = ne_next pe.
Proof.
  intros R T. destruct (nrun_reached qj t_d 0 2 false t_plant t_ch t_ph _ _ _ _ _ R) as (R0 & G & Gu). destruct (unit_nz t_d _ (tf_u _ T)) as [Sx Su].
  destruct (C53_converse qj t_d 0 2 false t_ch t_ph s h x u exactly _ _ t_J R0 G Sx Su (tf_a _ T) (tf_J _ T) (t_adm _ x T)) as (z & O & TX & TU).
  { intros X' U' A'. destruct (t_forced _ _ _ _ T A') as [EX EU]. rewrite !t_cost.
    rewrite (ssum_ext (2 + 1) (fun i => t_l (comps 1 (X' i)) (comps 1 (U' i))) (fun i => t_l (comps 1 (t_X (vec x 0) i)) (comps 1 (t_U (vec x 0) i)))); [apply sle_refl|].
    intros i Hi. f_equal; apply comps_ext; intros j Hj; [apply EX|apply EU]; lia. }
  pose proof (nreached_NR qj t_d 0 2 false t_ch t_ph s h R0) as H.
  assert (St : exists t r, n_step qj t_d 0 2 false s (NOptimize x u (NSolved (dvar z) 1 (Fin (q 3)))) = Ok (t, RResult r)).
  { eexists _, _. cbn [n_step]. rewrite (run_solved qj t_d 0 2 t_ch t_ph _ _ x u (dvar z) 1 (Fin (q 3)) H G). reflexivity. intros _. lia. }
  destruct St as (t & r & St). pose proof (next_period t_d 0 2 t_plant _ _ _ _ _ _ _ _ R St) as R1.
  pose proof (k_same t_d 0 2 h x u (NSolved (dvar z) 1 (Fin (q 3))) r) as Ks. cbv zeta in Ks.
  destruct (seq_is qj t_d 0 2 false t_ch t_ph s h x u (dvar z) _ _ t r R0 G Sx St) as [Q1 Q2].
  eexists _, _, _, _, _. refine (conj R1 (conj eq_refl (conj eq_refl (conj _ (conj _ (conj _ (conj _ (conj _ eq_refl)))))))).
  - exists z, 1%Z, (Fin (q 3)). exact (conj eq_refl O).
  - intros j Hj. refine (proj1 (C77_exact_periods qj t_d 0 2 false t_plant t_ch t_ph _ _ _ _ _ _ t_f R1 _ _ _ _ _ _ _ j Hj)).
    + apply in_or_app. right. left. reflexivity.
    + exists z, 1%Z, (Fin (q 3)). exact (conj eq_refl (proj1 O)).
    + exact (tf_u _ T).
    + exact (tf_a _ T).
    + exact (tf_d _ T).
    + exact (tf_t _ T).
    + reflexivity.
  - exact (t_facts_same _ _ Ks T).
  - destruct Ks as (K1 & K2 & _ & _ & K5 & K6 & K7 & K8 & _ & _ & K11 & _). repeat apply conj; assumption.
  - cbn [ne_res]. rewrite Q2 by (cbn; lia). rewrite TU by (cbn; lia). reflexivity.
Qed.

(** two periods: from 1 the plant is driven to 0 and stays *)
Example C88_instance : exists s h x u pe1 pe2, nl_control_run qj t_d 0 2 false t_plant s h x u [pe1; pe2] /\ nl_good_loop t_d 0 2 t_l t_J [pe1; pe2] /\
  (forall q x0 X U, In q [pe1; pe2] -> nl_admissible t_d 0 2 (ne_cfg q) x0 exactly X U -> (s0 <= nl_cost t_d (ne_cfg q) t_J X U)%S) /\
  (forall q, In q [pe1; pe2] -> ends_at_rest t_d 0 2 t_l (ne_cfg q) t_J t_f (fun _ _ => True) (fun _ => s0) (fun _ => s0)) /\
  vec (ne_x pe1) 0 = q 1 /\ vec (r_cmd (ne_res pe1)) 0 = (- q 1)%S.
Proof.
  destruct (t_more _ _ _ _ _ t_run t_c_facts) as (s1 & h1 & x1 & u1 & pe1 & R1 & X1 & C1 & O1 & P1 & T1 & B1 & V1 & N1).
  destruct (t_more _ _ _ _ _ R1 T1) as (s2 & h2 & x2 & u2 & pe2 & R2 & X2 & C2 & O2 & P2 & T2 & B2 & V2 & N2). cbn [app] in R2.
  pose proof t_c_facts as T0. rewrite <- C1 in T0, B1. rewrite <- C2 in T1, B1.
  assert (R : forall q q', In q [pe1; pe2] -> In q' [pe1; pe2] -> nl_relaxed t_d (ne_cfg q) (ne_cfg q')).
  { assert (Sy : same_bounds_as (ne_cfg pe2) (ne_cfg pe1)) by (destruct B1 as (? & ? & ? & ? & ? & ? & ?); repeat apply conj; symmetry; assumption).
    intros a b [<-|[<-|[]]] [<-|[<-|[]]]; apply t_relaxed; try assumption; repeat apply conj; reflexivity. }
  exists s2, h2, x2, u2, pe1, pe2. refine (conj R2 (conj _ (conj _ (conj _ (conj _ _))))).
  - intros a Ia. assert (T : t_facts (ne_cfg a)) by (destruct Ia as [<-|[<-|[]]]; assumption).
    refine (conj (tf_u _ T) (conj (tf_a _ T) (conj (tf_J _ T) (conj _ (conj _ (conj _ (fun b => R a b Ia))))))).
    + eapply (C88_terminal_constraint t_d 0 2 t_ch t_ph t_l). exact (t_ends _ T).
    + destruct Ia as [<-|[<-|[]]]; assumption.
    + destruct Ia as [<-|[<-|[]]]; assumption.
  - intros a x0 X U _ _. apply t_nonneg.
  - intros a [<-|[<-|[]]]; apply t_ends; assumption.
  - rewrite X1. reflexivity.
  - exact V1.
Qed.
