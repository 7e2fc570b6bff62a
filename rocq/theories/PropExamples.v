(** Property C89: the example programs of the repository. *)
From Coq Require Import Bool Arith ZArith List Lia Psatz QArith Qcanon Ring Field.
From Verif Require LUniq.
From Verif Require Import Scalar Sums Mat Slice Builder BuilderEnt LMPC SpecLMPC NLMap NLTraj NLFun SpecNL NLMPC SpecNLC SpecNLP SpecNLO NLRef NLRun NLCall NLObs PropNL1 PropNL3 PropNL6 SpecNLoop PropNLoop Examples SpecExamples.
Import ListNotations.
Local Open Scope nat_scope.

Section Ex.
  Context {F : Type} {SO : ScalarOps F} {SM : ScalarMild F} {SL : ScalarLaws F}.
  Add Field SFex : (@s_field F SO SL).
  Variables (junk : nat -> nat -> F) (d : dims) (ni ne : nat) (dyn_eq : bool) (plant : list F -> list F -> nat -> F).
  Notation nx := (d_nx d). Notation nu := (d_nu d). Notation ph := (d_ph d). Notation ch := (d_ch d).
  Notation run := (nl_control_run junk d ni ne dyn_eq plant).
  Notation cf := (ncfg_run d ni ne).
  Hypothesis C0 : 0 < ch.
  Hypothesis C : ch <= ph.

  (** the configuration of a period is that of the calls made before it *)
  Lemma run_before s h x u ps pe : run s h x u ps -> In pe ps -> exists h0 h1 r, h = h0 ++ (NOptimize (ne_x pe) (ne_u pe) (ne_ans pe), r) :: h1 /\ ne_cfg pe = cf h0.
  Proof using.
    intros H. induction H as [s x u E X U|s h x u ps op s' r H IH Hs N E|s h x u ps a s' res x' H IH E X' EN]; intros I; [destruct I| |].
    - destruct (IH I) as (h0 & h1 & r0 & -> & E0). exists h0, (h1 ++ [(op, r)]), r0. rewrite <- app_assoc. auto.
    - apply in_app_or in I. destruct I as [I|[<-|[]]].
      + destruct (IH I) as (h0 & h1 & r0 & -> & E0). exists h0, (h1 ++ [(NOptimize x u a, RResult res)]), r0. rewrite <- app_assoc. auto.
      + exists h, [], (RResult res). auto.
  Qed.
  Definition no_opt (op : nop F) : bool := match op with NOptimize _ _ _ => false | _ => true end.
  Lemma split_setup (setup rest l : list (nop F)) op l' : forallb no_opt setup = true -> no_opt op = false -> setup ++ rest = l ++ op :: l' ->
    exists rest0, l = setup ++ rest0 /\ rest = rest0 ++ op :: l'.
  Proof using.
    revert l. induction setup as [|o setup IH]; intros l Hs Ho E; [exists l; auto|].
    cbn [forallb] in Hs. apply andb_true_iff in Hs. destruct Hs as [H1 H2].
    destruct l as [|o' l].
    - cbn in E. injection E as E1 E2. subst o. congruence.
    - cbn [app] in E. injection E as <- E. destruct (IH l H2 Ho E) as (r0 & -> & ->). exists r0. auto.
  Qed.
  (** calls without bounds: the configuration depends on the calls only *)
  Definition no_slice (op : nop F) : bool := match op with NSetStateBounds _ _ _ | NSetInputBounds _ _ _ => false | _ => true end.
  Lemma cfg_calls h : forallb no_slice (map fst h) = true -> cf h = fold_left (fun c op => ncfg_apply d ni ne op c) (map fst h) (ncfg0 (F := F)).
  Proof using.
    unfold ncfg_run. generalize (ncfg0 (F := F)). induction h as [|[op r] h IH]; intros c Hn; [reflexivity|].
    cbn [map fst forallb] in Hn. apply andb_true_iff in Hn. destruct Hn as [H1 H2]. cbn [map fst fold_left]. rewrite IH by exact H2. f_equal.
    destruct op; try reflexivity; discriminate H1.
  Qed.
  (** what does not change in the control loop *)
  Record stays (c c' : ncfg F) : Prop := {
    st_sx : k_sx c' = k_sx c; st_su : k_su c' = k_su c; st_ts : k_ts c' = k_ts c; st_dyn : k_dyn c' = k_dyn c; st_out : k_out c' = k_out c;
    st_ieq : k_ieq c' = k_ieq c; st_eqc : k_eqc c' = k_eqc c; st_cons : k_cons c' = k_cons c; st_bobj : k_bobj c = true -> k_bobj c' = true }.
  Lemma stays_loop rest b : Forall (loop_call b) rest -> forall c, stays c (fold_left (fun c op => ncfg_apply d ni ne op c) rest c).
  Proof using.
    intros H. induction H as [|op rest Ho H IH]; intros c; [split; auto|]. cbn [fold_left].
    destruct (IH (ncfg_apply d ni ne op c)) as [A1 A2 A3 A4 A5 A6 A7 A8 A9].
    assert (G : stays c (ncfg_apply d ni ne op c)).
    { destruct op as [| | | |f acc| | | | | | | | | | |x0 u0 [|z code cost]]; cbn [loop_call] in Ho; try contradiction; cbn [ncfg_apply]; split; try reflexivity; try (intros K; exact K).
      - destruct Ho as [_ ->]. intros _. cbn. apply orb_true_r. }
    destruct G as [B1 B2 B3 B4 B5 B6 B7 B8 B9]. split; try congruence. intros K. auto.
  Qed.
  Lemma period_cfg setup b ps pe : forallb no_opt setup = true -> forallb no_slice setup = true ->
    program_run junk d ni ne dyn_eq plant setup b ps -> In pe ps -> stays (fold_left (fun c op => ncfg_apply d ni ne op c) setup ncfg0) (ne_cfg pe).
  Proof using.
    intros Hn Hs (s & h & x & u & rest & H & Eh & Hr) I. destruct (run_before _ _ _ _ _ _ H I) as (h0 & h1 & r & -> & ->).
    rewrite map_app in Eh. cbn [map fst] in Eh. symmetry in Eh. destruct (split_setup setup rest (map fst h0) (NOptimize (ne_x pe) (ne_u pe) (ne_ans pe)) (map fst h1) Hn eq_refl Eh) as (rest0 & E0 & ->).
    apply Forall_app in Hr. destruct Hr as [Hr _].
    rewrite cfg_calls, E0, fold_left_app; [now apply stays_loop with (b := b)|].
    rewrite E0, forallb_app, Hs. cbn [andb]. apply forallb_forall. intros op Io. rewrite Forall_forall in Hr. specialize (Hr op Io). destruct op; cbn in Hr; try contradiction; reflexivity.
  Qed.

  (** rows of the matrices the user functions receive *)
  Lemma cell_tab n m (X : nat -> nat -> F) i j : i < n -> j < m -> cell (tab n m X) i j = X i j.
  Proof using.
    intros Hi Hj. unfold cell, tab. rewrite (nth_indep _ _ (map (X O) (seq 0 m))) by (rewrite map_length, seq_length; exact Hi).
    rewrite (map_nth (fun i => map (X i) (seq 0 m))), seq_nth by exact Hi. cbn [Nat.add].
    rewrite (nth_indep _ _ (X i 0)) by (rewrite map_length, seq_length; exact Hj). rewrite (map_nth (X i)), seq_nth by exact Hj. reflexivity.
  Qed.

  (** a solved period: the constraints hold along the returned plan *)
  Lemma solved_plan s h x u ps pe t : run s h x u ps -> In pe ps -> nl_solved d t pe -> unit_scales d (ne_cfg pe) -> all_accepted (ne_cfg pe) ->
    exists X U, nl_admissible d ni ne (ne_cfg pe) (ne_x pe) t X U /\ (forall i j, i <= ph -> j < nx -> ent (q_state (ne_seq pe)) i j = X i j) /\
      (forall j, j < nx -> X 0 j = vec (ne_x pe) j) /\ forall j, j < nu -> vec (r_cmd (ne_res pe)) j = U 0 j.
  Proof using C0 C SM SL.
    intros H I (z & code & cost & Ea & Hf) Un Ac. destruct (nrun_in junk d ni ne dyn_eq plant C0 C _ _ _ _ _ _ H I) as (s0' & h0 & s1' & R0 & X & U & Ec & El & E & Es & EN).
    rewrite Ea in E. rewrite El in Hf. rewrite Ec in *. destruct (unit_nz d _ Un) as [Sc Su]. destruct Un as [Ux Uu].
    destruct (proj1 (C53_feasible_iff junk d ni ne dyn_eq C0 C s0' h0 _ _ t z R0 X Sc Su Ac) Hf) as (L & Sl & A).
    destruct (seq_is junk d ni ne dyn_eq C0 C s0' h0 _ _ _ code cost s1' _ R0 X Sc E) as [Q1 Q2]. rewrite <- Es in Q1.
    exists (x_traj d (cf h0) (ne_x pe) (dvar z)), (u_traj d (cf h0) (dvar z)). split; [exact A|]. split; [exact Q1|]. split; [|exact Q2].
    intros j Hj. rewrite (proj1 A) by exact Hj. rewrite Ux by exact Hj. ring.
  Qed.

  Lemma half_pos : (s0 <= (ex_half : F))%S.
  Proof using SL.
    apply LUniq.le_half. unfold ex_half, sdec. cbn [spos].
    assert (N : (s2 * s1)%S <> (s0 : F)) by (replace (s2 * s1)%S with (s2 : F) by ring; exact (s2_neq_0 (F := F))).
    replace (s2 * (s1 / (s2 * s1)))%S with (s1 : F) by (field; unfold s2; exact (s2_neq_0 (F := F))). replace (s2 * s0)%S with (s0 : F) by ring. apply s01.
  Qed.
  (** the first command component stays below the cap *)
  Lemma capped s h x u ps t : run s h x u ps -> 0 < nu -> ni = ph + 1 -> (s0 <= t_ieq t)%S -> answered d t ps ->
    (forall pe, In pe ps -> unit_scales d (ne_cfg pe) /\ all_accepted (ne_cfg pe) /\ k_ieq (ne_cfg pe) = Some ex_cap) ->
    forall pe, In pe ps -> (vec (r_cmd (ne_res pe)) 0 <= ex_half + t_ieq t)%S.
  Proof using C0 C SM SL.
    intros H Nu Ni T An Hc.
    assert (Half : (s0 <= (ex_half + t_ieq t : F))%S).
    { replace s0 with (s0 + s0 : F)%S by ring. apply sle_add; [apply half_pos|exact T]. }
    assert (G : forall qs ps1 pe, ps = ps1 ++ pe :: qs -> (vec (r_cmd (ne_res pe)) 0 <= ex_half + t_ieq t)%S).
    2:{ intros pe I. destruct (in_split _ _ I) as (ps1 & qs & E). eapply G; exact E. }
    intros qs ps1. revert qs.
    assert (Solved : forall qs ps1 pe, ps = ps1 ++ pe :: qs -> nl_solved d t pe -> (vec (r_cmd (ne_res pe)) 0 <= ex_half + t_ieq t)%S).
    { intros qs ps1' pe E Hs. assert (I : In pe ps) by (rewrite E; apply in_elt). destruct (Hc pe I) as (Un & Ac & Hi).
      destruct (solved_plan _ _ _ _ _ _ _ H I Hs Un Ac) as (X & U & A & _ & _ & Q). destruct A as (_ & _ & _ & _ & _ & A & _).
      assert (K : 0 < ni) by lia. specialize (A _ Hi 0 K). unfold ieq_at, ex_cap in A. rewrite cell_tab in A by lia. rewrite <- (Q 0 Nu) in A.
      apply (sle_add_l _ _ ex_half) in A. replace (ex_half + (vec (r_cmd (ne_res pe)) 0 - ex_half) : F)%S with (vec (r_cmd (ne_res pe)) 0) in A by ring. exact A. }
    induction ps1 as [|pe' ps1 IH] using rev_ind; intros qs pe E; (destruct (An pe) as [Hs|Hf]; [rewrite E; apply in_elt|exact (Solved _ _ _ E Hs)|]).
    - rewrite E in H. rewrite (C77_failed_period junk d ni ne dyn_eq plant C0 C _ _ _ _ _ _ _ H Hf 0 Nu). cbn [rev]. exact Half.
    - assert (H' := H). rewrite E in H'. rewrite (C77_failed_period junk d ni ne dyn_eq plant C0 C _ _ _ _ _ _ _ H' Hf 0 Nu), rev_app_distr. cbn [rev app].
      apply (IH (pe :: qs)). rewrite E, <- app_assoc. reflexivity.
  Qed.
  (** ... along the whole plan *)
  Lemma capped_plan s h x u ps pe t : run s h x u ps -> 0 < nu -> ni = ph + 1 -> In pe ps -> nl_solved d t pe ->
    unit_scales d (ne_cfg pe) -> all_accepted (ne_cfg pe) -> k_ieq (ne_cfg pe) = Some ex_cap ->
    exists z code cost, ne_ans pe = NSolved (dvar z) code cost /\ forall i, i <= ph -> (u_traj d (ne_cfg pe) (dvar z) i 0 <= ex_half + t_ieq t)%S.
  Proof using C0 C SM SL.
    intros H Nu Ni I (z & code & cost & Ea & Hf) Un Ac Hi. exists z, code, cost. split; [exact Ea|]. intros i Li.
    destruct (nrun_in junk d ni ne dyn_eq plant C0 C _ _ _ _ _ _ H I) as (s0' & h0 & s1' & R0 & X & U & Ec & El & E & Es & EN).
    rewrite El in Hf. rewrite Ec in *. destruct (unit_nz d _ Un) as [Sc Su].
    destruct (proj1 (C53_feasible_iff junk d ni ne dyn_eq C0 C s0' h0 _ _ t z R0 X Sc Su Ac) Hf) as (L & Sl & A).
    destruct A as (_ & _ & _ & _ & _ & A & _). assert (K : i < ni) by lia. specialize (A _ Hi i K). unfold ieq_at, ex_cap in A. rewrite cell_tab in A by lia.
    apply (sle_add_l _ _ ex_half) in A. match type of A with (_ + (?v - _) <= _)%S => replace (ex_half + (v - ex_half) : F)%S with v in A by ring end. exact A.
  Qed.
  Lemma stays_ok c c' : stays c c' -> unit_scales d c -> all_accepted c -> (k_obj c <> None -> k_bobj c = true) -> k_bobj c = true -> unit_scales d c' /\ all_accepted c'.
  Proof using.
    intros [A1 A2 A3 A4 A5 A6 A7 A8 A9] [U1 U2] (B1 & B2 & B3 & B4) _ K. split; [split; intros j Hj; rewrite ?A1, ?A2; auto|].
    unfold all_accepted. rewrite A4, A6, A7, A8. auto 8.
  Qed.
End Ex.

Section Programs.
  Context {F : Type} {SO : ScalarOps F} {SM : ScalarMild F} {SL : ScalarLaws F}.
  Variables (junk : nat -> nat -> F) (dyn_eq : bool) (ph ch : nat).
  Variable plant : list F -> list F -> nat -> F.
  Hypothesis C0 : 0 < ch.
  Hypothesis C : ch <= ph.

  Lemma vdp_cfg ts p tol b ps pe : program_run junk (vdp_dims ph ch) (ph + 1) 0 dyn_eq plant (vdp_setup ts p tol) b ps -> In pe ps ->
    unit_scales (vdp_dims ph ch) (ne_cfg pe) /\ all_accepted (ne_cfg pe) /\ k_ieq (ne_cfg pe) = Some ex_cap /\ k_dyn (ne_cfg pe) = Some vdp_f /\ k_ts (ne_cfg pe) = Some ts.
  Proof using.
    intros H I. pose proof (period_cfg junk _ _ _ _ plant (vdp_setup ts p tol) b ps pe eq_refl eq_refl H I) as S. pose proof (st_ieq _ _ S) as E1. pose proof (st_dyn _ _ S) as E2. pose proof (st_ts _ _ S) as E3.
    destruct (stays_ok (vdp_dims ph ch) _ _ S) as [A B].
    - split; reflexivity.
    - split; [intros _; eexists; left; reflexivity|split; [intros _; eexists; right; left; reflexivity|split; [intros K; now contradiction K|reflexivity]]].
    - reflexivity.
    - reflexivity.
    - rewrite E1, E2, E3. auto.
  Qed.
  Lemma net_cfg N mu k ts tol b ps pe : program_run junk (net_dims N ph ch) (ph + 1) 0 dyn_eq plant (net_setup N mu k ts tol) b ps -> In pe ps ->
    unit_scales (net_dims N ph ch) (ne_cfg pe) /\ all_accepted (ne_cfg pe) /\ k_ieq (ne_cfg pe) = Some ex_cap /\ k_dyn (ne_cfg pe) = Some (net_f N mu k) /\ k_ts (ne_cfg pe) = Some ts.
  Proof using.
    intros H I. pose proof (period_cfg junk _ _ _ _ plant (net_setup N mu k ts tol) b ps pe eq_refl eq_refl H I) as S. pose proof (st_ieq _ _ S) as E1. pose proof (st_dyn _ _ S) as E2. pose proof (st_ts _ _ S) as E3.
    destruct (stays_ok (net_dims N ph ch) _ _ S) as [A B].
    - split; reflexivity.
    - split; [intros _; eexists; left; reflexivity|split; [intros _; eexists; right; left; reflexivity|split; [intros K; now contradiction K|reflexivity]]].
    - reflexivity.
    - reflexivity.
    - rewrite E1, E2, E3. auto.
  Qed.

  (** C89, vanderpol_ex.cpp: whatever the plant, whenever the solver fails, as long as its answers satisfy the problem up to t, no command the program ever
      applies exceeds 0.5 by more than t_ieq t, and neither does any command of a plan *)
  Theorem C89_vanderpol ts p tol t ps pe : program_run junk (vdp_dims ph ch) (ph + 1) 0 dyn_eq plant (vdp_setup ts p tol) false ps ->
    (s0 <= t_ieq t)%S -> answered (vdp_dims ph ch) t ps -> In pe ps ->
    (vec (r_cmd (ne_res pe)) 0 <= one_half + t_ieq t)%S /\
    (nl_solved (vdp_dims ph ch) t pe -> exists z code cost, ne_ans pe = NSolved (dvar z) code cost /\ forall i, i <= ph -> (u_traj (vdp_dims ph ch) (ne_cfg pe) (dvar z) i 0 <= one_half + t_ieq t)%S).
  Proof using C0 C SM SL.
    intros H T An I. assert (K := H). destruct H as (s & h & x & u & rest & H & _). assert (N : 0 < d_nu (vdp_dims ph ch)) by (cbn; lia). split.
    - apply (capped junk (vdp_dims ph ch) (ph + 1) 0 dyn_eq plant C0 C s h x u ps t H N eq_refl T An); [|exact I]. intros q Iq. destruct (vdp_cfg _ _ _ _ _ _ K Iq) as (A & B & D & _). auto.
    - intros Hs. destruct (vdp_cfg _ _ _ _ _ _ K I) as (A & B & D & _). exact (capped_plan junk (vdp_dims ph ch) (ph + 1) 0 dyn_eq plant C0 C s h x u ps pe t H N eq_refl I Hs A B D).
  Qed.
  (** C89, networked_oscillators_ex.cpp: the same of the command of the first oscillator *)
  Theorem C89_network N mu k ts tol t ps pe : 0 < N -> program_run junk (net_dims N ph ch) (ph + 1) 0 dyn_eq plant (net_setup N mu k ts tol) false ps ->
    (s0 <= t_ieq t)%S -> answered (net_dims N ph ch) t ps -> In pe ps ->
    (vec (r_cmd (ne_res pe)) 0 <= one_half + t_ieq t)%S /\
    (nl_solved (net_dims N ph ch) t pe -> exists z code cost, ne_ans pe = NSolved (dvar z) code cost /\ forall i, i <= ph -> (u_traj (net_dims N ph ch) (ne_cfg pe) (dvar z) i 0 <= one_half + t_ieq t)%S).
  Proof using C0 C SM SL.
    intros P H T An I. assert (K := H). destruct H as (s & h & x & u & rest & H & _). assert (Nn : 0 < d_nu (net_dims N ph ch)) by (cbn; lia). split.
    - apply (capped junk (net_dims N ph ch) (ph + 1) 0 dyn_eq plant C0 C s h x u ps t H Nn eq_refl T An); [|exact I]. intros q Iq. destruct (net_cfg _ _ _ _ _ _ _ _ K Iq) as (A & B & D & _). auto.
    - intros Hs. destruct (net_cfg _ _ _ _ _ _ _ _ K I) as (A & B & D & _). exact (capped_plan junk (net_dims N ph ch) (ph + 1) 0 dyn_eq plant C0 C s h x u ps pe t H Nn eq_refl I Hs A B D).
  Qed.

  Section Ugv.
  Variables (A B Cm D : nat -> nat -> F) (root : F -> F) (n : nat) (pos : nat -> nat -> F) (rad : nat -> F) (v : nat -> F) (p : nparams F) (tol : F).
  Notation ugv := (ugv_dims ph ch).
  Notation ugv_run := (program_run junk ugv ((ph + 1) * n) 0 dyn_eq plant (ugv_setup A B Cm D root n pos rad v p tol) true).
  (** how far the point X is inside obstacle j (negative: outside), as the program computes it *)
  Definition depth (j : nat) (X : nat -> F) : F := (rad j - root ((X 0%nat - pos j 0%nat) * (X 0%nat - pos j 0%nat) + (X 1%nat - pos j 1%nat) * (X 1%nat - pos j 1%nat)))%S.

  Lemma ugv_cfg ps pe : ugv_run ps -> In pe ps ->
    unit_scales ugv (ne_cfg pe) /\ all_accepted (ne_cfg pe) /\ k_ieq (ne_cfg pe) = Some (ugv_ieq root n pos rad) /\ k_dyn (ne_cfg pe) = Some (fun x u k l => lin_f A B x u k l) /\ k_ts (ne_cfg pe) = None.
  Proof using.
    intros H I. pose proof (period_cfg junk _ _ _ _ plant (ugv_setup A B Cm D root n pos rad v p tol) true ps pe eq_refl eq_refl H I) as S. pose proof (st_ieq _ _ S) as E1. pose proof (st_dyn _ _ S) as E2. pose proof (st_ts _ _ S) as E3.
    destruct (stays_ok ugv _ _ S) as [P Q].
    - split; reflexivity.
    - split; [intros _; eexists; left; reflexivity|split; [intros _; eexists; right; left; reflexivity|split; [intros K; now contradiction K|reflexivity]]].
    - reflexivity.
    - reflexivity.
    - rewrite E1, E2, E3. auto.
  Qed.
  (** C89, ugv_ex.cpp: whatever the plant and whatever v_pref is in each period, every state of a plan the solver found is outside every obstacle (up to t_ieq t) ... *)
  Theorem C89_ugv_plan t ps pe i j : ugv_run ps -> In pe ps -> nl_solved ugv t pe -> i <= ph -> j < n -> (depth j (ent (q_state (ne_seq pe)) i) <= t_ieq t)%S.
  Proof using C0 C SM SL.
    intros H I Hs Hi Hj. destruct (ugv_cfg ps pe H I) as (Un & Ac & Ei & _). destruct H as (s & h & x & u & rest & H & _).
    destruct (solved_plan junk ugv _ 0 dyn_eq plant C0 C s h x u ps pe t H I Hs Un Ac) as (X & U & K & Q & _ & _).
    destruct K as (_ & _ & _ & _ & _ & K & _).
    assert (R : i * n + j < (ph + 1) * n) by nia. specialize (K _ Ei (i * n + j) R). unfold ieq_at, ugv_ieq in K.
    rewrite (Nat.add_comm (i * n) j), Nat.div_add, Nat.mod_add, Nat.div_small, Nat.mod_small in K by lia. cbn [Nat.add] in K.
    rewrite !cell_tab in K by (cbn; lia). unfold depth. rewrite !Q by (cbn; lia). exact K.
  Qed.
  (** ... so from a position inside an obstacle no answer of the solver is acceptable, even though the program sets hard_constraints = false *)
  Theorem C89_ugv_inside t ps pe j : ugv_run ps -> In pe ps -> j < n -> (t_ieq t < depth j (vec (ne_x pe)))%S -> ~ nl_solved ugv t pe.
  Proof using C0 C SM SL.
    intros H I Hj Hd Hs. pose proof (C89_ugv_plan t ps pe 0 j H I Hs (Nat.le_0_l _) Hj) as K.
    destruct (ugv_cfg ps pe H I) as (Un & Ac & _). destruct H as (s & h & x & u & rest & H & _).
    destruct (solved_plan junk ugv _ 0 dyn_eq plant C0 C s h x u ps pe t H I Hs Un Ac) as (X & U & _ & Q & Q0 & _).
    unfold depth in *. rewrite !Q, !Q0 in K by (cbn; lia). unfold slt in Hd. rewrite s_lt_le in Hd. unfold sle in K. rewrite K in Hd. discriminate Hd.
  Qed.
  (** ... and as long as the vehicle is inside, the program keeps applying the command of the period before it entered *)
  Theorem C89_ugv_stuck t ps pe qs j : ugv_run (ps ++ pe :: qs) -> answered ugv t (ps ++ pe :: qs) -> j < n ->
    (forall q, In q qs -> (t_ieq t < depth j (vec (ne_x q)))%S) ->
    forall q l, In q qs -> l < 2 -> vec (r_cmd (ne_res q)) l = vec (r_cmd (ne_res pe)) l.
  Proof using C0 C SM SL.
    intros H An Hj Hd. assert (Fq : forall q, In q qs -> nl_failed q).
    { intros q I. assert (I' : In q (ps ++ pe :: qs)) by (apply in_or_app; right; right; exact I).
      destruct (An q I') as [Hs|Hf]; [|exact Hf]. now destruct (C89_ugv_inside t _ q j H I' Hj (Hd q I)). }
    destruct H as (s & h & x & u & rest & H & _). clear An Hd.
    assert (G : forall qs1 q qs2 l, qs = qs1 ++ q :: qs2 -> l < 2 -> vec (r_cmd (ne_res q)) l = vec (r_cmd (ne_res pe)) l).
    { intros qs1. induction qs1 as [|q' qs1 IH] using rev_ind; intros q qs2 l E Hl.
      - assert (H' := H). cbn [app] in E. rewrite E in H'. replace (ps ++ pe :: q :: qs2) with ((ps ++ [pe]) ++ q :: qs2) in H' by (now rewrite <- app_assoc).
        assert (Fx : nl_failed q) by (apply Fq; rewrite E; left; reflexivity).
        rewrite (C77_failed_period junk ugv _ 0 dyn_eq plant C0 C _ _ _ _ _ _ _ H' Fx l Hl), rev_app_distr. reflexivity.
      - assert (H' := H). rewrite E in H'. replace (ps ++ pe :: (qs1 ++ [q']) ++ q :: qs2) with ((ps ++ pe :: qs1 ++ [q']) ++ q :: qs2) in H' by (rewrite <- !app_assoc; cbn [app]; now rewrite <- app_assoc).
        assert (Fx : nl_failed q) by (apply Fq; rewrite E; apply in_elt).
        rewrite (C77_failed_period junk ugv _ 0 dyn_eq plant C0 C _ _ _ _ _ _ _ H' Fx l Hl).
        replace (ps ++ pe :: qs1 ++ [q']) with ((ps ++ pe :: qs1) ++ [q']) by (now rewrite <- app_assoc). rewrite rev_app_distr. cbn [rev app].
        apply (IH q' (q :: qs2) l); [rewrite E, <- app_assoc; reflexivity|exact Hl]. }
    intros q l I Hl. destruct (in_split _ _ I) as (qs1 & qs2 & E). exact (G qs1 q qs2 l E Hl).
  Qed.
  End Ugv.
End Programs.
