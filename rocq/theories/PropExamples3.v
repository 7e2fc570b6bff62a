(** C89: concrete runs of the example programs, and what they do not guarantee. *)
From Coq Require Import Bool Arith ZArith List Lia QArith Qcanon Ring Field Reals Lra.
From Verif Require Import Scalar ScalarR Sums Mat Slice Builder BuilderEnt LMPC SpecLMPC NLMap NLTraj NLFun SpecNL NLMPC SpecNLC SpecNLP SpecNLO NLRef NLRun NLCall NLObs PropNL1 PropNL3 PropNL4 PropNL6 Wit WitNL SpecNLoop PropNLoop Examples SpecExamples PropExamples PropExamples2.
Import ListNotations.
Local Open Scope nat_scope.

Section Ext.
  Context {F : Type} {SO : ScalarOps F} {SM : ScalarMild F} {SL : ScalarLaws F}.
  Add Field SFex3 : (@s_field F SO SL).
  Variables (junk : nat -> nat -> F) (d : dims) (ni ne : nat) (dyn_eq : bool) (plant : list F -> list F -> nat -> F).
  Notation nx := (d_nx d). Notation nu := (d_nu d). Notation ph := (d_ph d). Notation ch := (d_ch d).
  Notation run := (nl_control_run junk d ni ne dyn_eq plant).
  Notation cf := (ncfg_run d ni ne).
  Hypothesis C0 : 0 < ch.
  Hypothesis C : ch <= ph.
  Hypothesis small : (Z.of_nat ph < 1073741824)%Z.
  Definition after_ (x u : mat F) : mat F := mkMat nx 1 (fun j _ => plant (comps nx (vec x)) (comps nu (vec u)) j) true.

  (** the setup calls of the programs can be made *)
  Lemma run_setup x u ops : gm x nx 1 -> gm u nu 1 -> Forall (nop_safe d ne dyn_eq) ops -> forallb no_opt ops = true ->
    exists s h, run s h x u [] /\ map fst h = ops /\ (k_eqc (cf h) <> None -> 0 < ne).
  Proof using C0 C SM small.
    intros X U. induction ops as [|op ops IH] using rev_ind; intros Hs Hn.
    - exists (n_init d), []. refine (conj (nrun_start junk d ni ne dyn_eq plant _ x u (new_ok d C0 C) X U) (conj eq_refl _)). intros K. now destruct (K eq_refl).
    - apply Forall_app in Hs. destruct Hs as [Hs Ho]. rewrite forallb_app in Hn. apply andb_true_iff in Hn. destruct Hn as [Hn Hn1]. cbn in Hn1. rewrite andb_true_r in Hn1.
      destruct (IH Hs Hn) as (s & h & H & Eh & Hk). destruct (nrun_reached junk d ni ne dyn_eq plant C0 C _ _ _ _ _ H) as (R0 & _ & _).
      pose proof (nreached_NR junk d ni ne dyn_eq C0 C s h R0) as NRs. inversion Ho as [|? ? Hop _ ]; subst.
      destruct (step_safe junk d ni ne dyn_eq s (cf h) op C0 C small NRs Hk Hop) as (s' & r & E & _ & Hk').
      exists s', (h ++ [(op, r)]). refine (conj (nrun_call junk d ni ne dyn_eq plant s h x u [] op s' r H (proj1 Hop) _ E) (conj _ _)).
      + intros x1 u1 a ->. discriminate Hn1.
      + now rewrite map_app.
      + unfold ncfg_run. rewrite fold_left_app. exact Hk'.
  Qed.
  (** a period in which the solver throws *)
  Lemma run_throws s h x u ps : run s h x u ps -> exists s' res pe,
    run s' (h ++ [(NOptimize x u NThrow, RResult res)]) (after_ x (r_cmd res)) (r_cmd res) (ps ++ [pe]) /\ nl_failed pe /\ ne_x pe = x /\ ne_res pe = res.
  Proof using C0 C SM.
    intros H. destruct (nrun_reached junk d ni ne dyn_eq plant C0 C _ _ _ _ _ H) as (R0 & X & U).
    destruct (C31_solver_failure junk d ni ne dyn_eq s h x u C0 C R0 (conj X U)) as (s2 & r2 & E2 & _).
    exists s2, r2. eexists. refine (conj (nrun_period junk d ni ne dyn_eq plant s h x u ps NThrow s2 r2 (after_ x (r_cmd r2)) H E2 _ _) _); [split; [reflexivity|split; reflexivity]|reflexivity|repeat split].
  Qed.
  (** a period in which the solver returns the decision vector of an admissible plan *)
  Lemma run_solves s h x u ps t X U : run s h x u ps -> (k_eqc (cf h) <> None -> 0 < ne) -> unit_scales d (cf h) -> all_accepted (cf h) -> nl_admissible d ni ne (cf h) x t X U ->
    exists a s' res pe, run s' (h ++ [(NOptimize x u a, RResult res)]) (after_ x (r_cmd res)) (r_cmd res) (ps ++ [pe]) /\ nl_solved d t pe /\ ne_x pe = x /\ ne_cfg pe = cf h /\ ne_res pe = res /\
      forall j, j < nu -> vec (r_cmd res) j = U 0 j.
  Proof using C0 C SM SL.
    intros H Hk Un Ac Ad. destruct (nrun_reached junk d ni ne dyn_eq plant C0 C _ _ _ _ _ H) as (R0 & X0 & U0). destruct (unit_nz d _ Un) as [Sc Su].
    set (z := dec_of d (cf h) X U).
    assert (EX : forall i j, i < ph + 1 -> j < nx -> X i j = x_traj d (cf h) x (dvar z) i j) by (intros; symmetry; eapply dec_x; eassumption).
    assert (EU : forall i j, i < ph + 1 -> j < nu -> U i j = u_traj d (cf h) (dvar z) i j) by (intros; symmetry; eapply dec_u; eassumption).
    assert (Hf : nlp_feasible d t (n_call junk d ni ne s x u) z).
    { apply (C53_feasible_iff junk d ni ne dyn_eq C0 C s h x u t z R0 X0 Sc Su Ac). refine (conj (dec_len d _ _ _) (conj (dec_slack d C0 C _ _ _) _)).
      exact (adm_ext d ni ne C0 C _ _ _ _ _ _ _ EX EU Ad). }
    pose proof (nreached_NR junk d ni ne dyn_eq C0 C s h R0) as NRs.
    assert (He : has_eq s = true -> 0 < ne). { intros K. apply Hk. unfold has_eq in K. rewrite (nr_eqc d s _ NRs) in K. destruct (k_eqc (cf h)); [discriminate|discriminate K]. }
    assert (E : exists s' res, n_step junk d ni ne dyn_eq s (NOptimize x u (NSolved (dvar z) 1 (Fin s0))) = Ok (s', RResult res)).
    { cbn [n_step]. rewrite (run_solved junk d ni ne C0 C s (cf h) x u (dvar z) 1 (Fin s0) NRs X0 He). eauto. }
    destruct E as (s' & res & E). exists (NSolved (dvar z) 1 (Fin s0)), s', res. eexists.
    refine (conj (nrun_period junk d ni ne dyn_eq plant s h x u ps _ s' res (after_ x (r_cmd res)) H E _ _) (conj _ (conj eq_refl (conj eq_refl (conj eq_refl _)))));
      [split; [reflexivity|split; reflexivity]|reflexivity|exists z, 1%Z, (Fin s0); exact (conj eq_refl Hf)|].
    destruct (seq_is junk d ni ne dyn_eq C0 C s h _ _ _ _ _ s' _ R0 X0 Sc E) as [_ Q2]. intros j Hj. rewrite Q2 by exact Hj. symmetry. apply EU; [lia|exact Hj].
  Qed.
End Ext.

(** ** vanderpol_ex.cpp with horizons 1: a solved period from the initial state (0, 1) of the program, then one in which the solver throws *)
Definition e_p : nparams Qc := mkNP 1000 (q 0) false (- s1)%S (- s1)%S (- s1)%S (- s1)%S true.
Definition e_ts : Qc := sdec 1%positive 10%positive.
Definition vd : dims := vdp_dims 1 1.
Definition v_a : Qc := (- (s1 / q 10))%S.
Definition v_b : Qc := (q 199 / q 200)%S.
Definition v_u : Qc := ((q 20 * v_a + s1 + v_b - (s1 - v_b * v_b) * v_a) / q 2)%S.
Definition vp_X (i j : nat) : Qc := match i, j with O, O => q 0 | O, _ => q 1 | _, O => v_a | _, _ => v_b end.
Definition vp_U (i j : nat) : Qc := v_u.
Definition vp_x0 : mat Qc := qv [0; 1]%Z.
Definition vp_c : ncfg Qc := fold_left (fun c op => ncfg_apply vd 2 0 op c) (vdp_setup e_ts e_p (q 0)) ncfg0.
Lemma vp_unit : unit_scales vd vp_c. Proof. split; intros j Hj; reflexivity. Qed.
Lemma vp_acc : all_accepted vp_c.
Proof. split; [intros _; eexists; left; reflexivity|split; [intros _; eexists; right; left; reflexivity|split; [intros K; now contradiction K|reflexivity]]]. Qed.
Lemma vp_adm : nl_admissible vd 2 0 vp_c vp_x0 exactly vp_X vp_U.
Proof.
  destruct vp_unit as [Ux Uu]. apply (proj2 (C53_unit_scales vd 2 0 vp_c vp_x0 _ _ Ux Uu)).
  refine (conj _ (conj _ (conj _ (conj _ (conj _ (conj _ _)))))).
  - intros j Hj. destruct j as [|[|j]]; [| |cbn in Hj; lia]; apply qeq; vm_compute; reflexivity.
  - intros i j Hi Hj. reflexivity.
  - intros k j Hk Hj. apply within_dec_true. destruct j as [|[|j]]; [| |cbn in Hj; lia]; vm_compute; reflexivity.
  - intros k j Hk Hj. apply within_dec_true. vm_compute; reflexivity.
  - intros f Hf i l Hi Hl. change (Some (vdp_f (F := Qc)) = Some f) in Hf. injection Hf as <-. destruct i as [|i]; [|cbn in Hi; lia]. destruct l as [|[|l]]; [| |cbn in Hl; lia]; apply qeq; vm_compute; reflexivity.
  - intros f Hf k Hk. change (Some (ex_cap (F := Qc)) = Some f) in Hf. injection Hf as <-. destruct k as [|[|k]]; [| |lia]; vm_compute; reflexivity.
  - intros f Hf. discriminate Hf.
Qed.

Lemma C01' : 0 < 1. Proof. lia. Qed.
Lemma C11' : 1 <= 1. Proof. lia. Qed.
Lemma small1 : (Z.of_nat 1 < 1073741824)%Z. Proof. reflexivity. Qed.
Example C89_vanderpol_instance : exists pe1 pe2 ps,
  ps = [pe1; pe2] /\ program_run qj vd 2 0 false (euler vdp_f e_ts) (vdp_setup e_ts e_p (q 0)) false ps /\ answered vd exactly ps /\ nl_solved vd exactly pe1 /\ nl_failed pe2 /\
  ne_x pe1 = vp_x0 /\ vec (r_cmd (ne_res pe1)) 0 = v_u /\ v_u <> q 0.
Proof.
  assert (G1 : gm vp_x0 2 1) by (repeat split). assert (G2 : gm (qv [0%Z]) 1 1) by (repeat split).
  destruct (run_setup qj vd 2 0 false (euler vdp_f e_ts) C01' C11' small1 vp_x0 (qv [0%Z]) (vdp_setup e_ts e_p (q 0)) G1 G2) as (s & h & H & Eh & Hk).
  { repeat (constructor; [split; [exact I|try exact I; try discriminate]|]). constructor. }
  { reflexivity. }
  assert (Ec : ncfg_run vd 2 0 h = vp_c) by (rewrite cfg_calls; [rewrite Eh; reflexivity|rewrite Eh; reflexivity]).
  destruct (run_solves qj vd 2 0 false (euler vdp_f e_ts) C01' C11' s h _ _ _ exactly vp_X vp_U H Hk) as (a & s' & res & pe1 & H1 & S1 & X1 & _ & R1 & U1); [rewrite Ec; exact vp_unit|rewrite Ec; exact vp_acc|rewrite Ec; exact vp_adm|].
  destruct (run_throws qj vd 2 0 false (euler vdp_f e_ts) C01' C11' _ _ _ _ _ H1) as (s2 & res2 & pe2 & H2 & F2 & _ & _).
  exists pe1, pe2, [pe1; pe2]. refine (conj eq_refl (conj _ (conj _ (conj S1 (conj F2 (conj X1 (conj _ _))))))).
  - exists s2. eexists _, _, _, _. refine (conj H2 (conj _ _)); [rewrite !map_app, Eh; cbn [map fst]; rewrite <- app_assoc; reflexivity|]. constructor; [exact I|]. constructor; [exact I|]. constructor.
  - intros pe [<-|[<-|[]]]; auto.
  - rewrite R1. apply U1. exact C01'.
  - intros K. assert (B : sleb v_u (q 0) && sleb (q 0) v_u = false) by (vm_compute; reflexivity). rewrite K in B. discriminate B.
Qed.

(** ** networked_oscillators_ex.cpp with two oscillators and horizons 1 *)
Definition wd : dims := net_dims 2 1 1.
Definition w_k : Qc := sdec 1%positive 10%positive.
Definition w_u (j : nat) : Qc := match j with O => (- (q 1 / q 400))%S | _ => (q 7623 / q 800)%S end.
Definition nw_X (i j : nat) : Qc := match i, j with O, _ => q 0 | _, 2 => (q 1 / q 20)%S | _, 3 => q 1 | _, _ => q 0 end.
Definition nw_U (i j : nat) : Qc := w_u j.
Definition nw_x0 : mat Qc := qv [0; 0; 0; 0]%Z.
Definition nw_c : ncfg Qc := fold_left (fun c op => ncfg_apply wd 2 0 op c) (net_setup 2 s1 w_k e_ts (q 0)) ncfg0.
Lemma nw_unit : unit_scales wd nw_c. Proof. split; intros j Hj; reflexivity. Qed.
Lemma nw_acc : all_accepted nw_c.
Proof. split; [intros _; eexists; left; reflexivity|split; [intros _; eexists; right; left; reflexivity|split; [intros K; now contradiction K|reflexivity]]]. Qed.
Lemma nw_adm : nl_admissible wd 2 0 nw_c nw_x0 exactly nw_X nw_U.
Proof.
  destruct nw_unit as [Ux Uu]. apply (proj2 (C53_unit_scales wd 2 0 nw_c nw_x0 _ _ Ux Uu)).
  refine (conj _ (conj _ (conj _ (conj _ (conj _ (conj _ _)))))).
  - intros j Hj. destruct j as [|[|[|[|j]]]]; [| | | |cbn in Hj; lia]; apply qeq; vm_compute; reflexivity.
  - intros i j Hi Hj. reflexivity.
  - intros k j Hk Hj. apply within_dec_true. destruct j as [|[|[|[|j]]]]; [| | | |cbn in Hj; lia]; vm_compute; reflexivity.
  - intros k j Hk Hj. apply within_dec_true. destruct j as [|[|j]]; [| |cbn in Hj; lia]; vm_compute; reflexivity.
  - intros f Hf i l Hi Hl. change (Some (net_f (F := Qc) 2 s1 w_k) = Some f) in Hf. injection Hf as <-. destruct i as [|i]; [|cbn in Hi; lia]. destruct l as [|[|[|[|l]]]]; [| | | |cbn in Hl; lia]; apply qeq; vm_compute; reflexivity.
  - intros f Hf k Hk. change (Some (ex_cap (F := Qc)) = Some f) in Hf. injection Hf as <-. destruct k as [|[|k]]; [| |lia]; vm_compute; reflexivity.
  - intros f Hf. discriminate Hf.
Qed.
(** refuted: "no input of the network exceeds 0.5": the constraint of the program is on the first oscillator only *)
Theorem C89_other_inputs_refuted :
  ~ (forall N ph ch mu k ts tol (t : tols Qc) ps pe l, 0 < ch -> ch <= ph -> 0 < N ->
       program_run qj (net_dims N ph ch) (ph + 1) 0 false (euler (net_f N mu k) ts) (net_setup N mu k ts tol) false ps -> (s0 <= t_ieq t)%S -> answered (net_dims N ph ch) t ps ->
       In pe ps -> l < N -> (vec (r_cmd (ne_res pe)) l <= one_half + t_ieq t)%S).
Proof.
  intros K. assert (G1 : gm nw_x0 4 1) by (repeat split). assert (G2 : gm (qv [0; 0]%Z) 2 1) by (repeat split).
  destruct (run_setup qj wd 2 0 false (euler (net_f 2 s1 w_k) e_ts) C01' C11' small1 nw_x0 (qv [0; 0]%Z) (net_setup 2 s1 w_k e_ts (q 0)) G1 G2) as (s & h & H & Eh & Hk).
  { repeat (constructor; [split; [exact I|try exact I; try discriminate]|]). constructor. }
  { reflexivity. }
  assert (Ec : ncfg_run wd 2 0 h = nw_c) by (rewrite cfg_calls; [rewrite Eh; reflexivity|rewrite Eh; reflexivity]).
  destruct (run_solves qj wd 2 0 false (euler (net_f 2 s1 w_k) e_ts) C01' C11' s h _ _ _ exactly nw_X nw_U H Hk) as (a & s' & res & pe1 & H1 & S1 & X1 & _ & R1 & U1); [rewrite Ec; exact nw_unit|rewrite Ec; exact nw_acc|rewrite Ec; exact nw_adm|].
  assert (P : program_run qj wd 2 0 false (euler (net_f 2 s1 w_k) e_ts) (net_setup 2 s1 w_k e_ts (q 0)) false [pe1]).
  { exists s'. eexists _, _, _, _. refine (conj H1 (conj _ _)); [rewrite !map_app, Eh; reflexivity|]. constructor; [exact I|]. constructor. }
  assert (An : answered wd exactly [pe1]) by (intros pe [<-|[]]; left; exact S1).
  assert (L : 1 < 2) by lia. assert (N2 : 0 < 2) by lia. assert (T : (s0 <= t_ieq (exactly : tols Qc))%S) by (vm_compute; reflexivity).
  specialize (K 2 1 1 s1 w_k e_ts (q 0) exactly [pe1] pe1 1 C01' C11' N2 P T An (or_introl eq_refl) L). rewrite R1, (U1 1 L) in K.
  assert (B : sleb (nw_U 0 1) (one_half + t_ieq (exactly : tols Qc))%S = false) by (vm_compute; reflexivity). unfold sle in K. rewrite K in B. discriminate B.
Qed.

(** ** ugv_ex.cpp with horizons 1 and the first obstacle of the program, whatever the matrices: a solved period at the origin *)
Section UgvWit.
  Variables (junk : nat -> nat -> R) (A B Cm D : nat -> nat -> R) (plant : list R -> list R -> nat -> R) (p : nparams R) (v : nat -> R).
  Definition g_pos (j a : nat) : R := match a with O => 2%R | _ => 1%R end.
  Definition g_rad (j : nat) : R := (3 / 10)%R.
  Definition gd : dims := ugv_dims 1 1.
  Definition g_x0 : mat R := mkMat 4 1 (fun _ _ => 0%R) true.
  Definition g_u0 : mat R := mkMat 2 1 (fun _ _ => 0%R) true.
  Definition g_X (i j : nat) : R := 0%R.
  Definition g_setup := ugv_setup A B Cm D sqrt 1 g_pos g_rad v p 0%R.
  Definition g_c : ncfg R := fold_left (fun c op => ncfg_apply gd 2 0 op c) g_setup ncfg0.
  Lemma g_unit : unit_scales gd g_c. Proof. split; intros j Hj; reflexivity. Qed.
  Lemma g_acc : all_accepted g_c.
  Proof. split; [intros _; eexists; left; reflexivity|split; [intros _; eexists; right; left; reflexivity|split; [intros K; now contradiction K|reflexivity]]]. Qed.
  Lemma g_away : (3 / 10 <= sqrt 5)%R.
  Proof. replace (3 / 10)%R with (sqrt ((3 / 10) * (3 / 10))) by (apply sqrt_square; lra). apply sqrt_le_1_alt. lra. Qed.
  Lemma g_adm : nl_admissible gd 2 0 g_c g_x0 exactly g_X g_X.
  Proof.
    destruct g_unit as [Ux Uu]. apply (proj2 (C53_unit_scales gd 2 0 g_c g_x0 _ _ Ux Uu)).
    refine (conj _ (conj _ (conj _ (conj _ (conj _ (conj _ _)))))).
    - intros j Hj. reflexivity.
    - intros i j Hi Hj. reflexivity.
    - intros k j Hk Hj. split; exact I.
    - intros k j Hk Hj. split; exact I.
    - intros f Hf i l Hi Hl. change (Some (lin_f A B : dyn_t R) = Some f) in Hf. injection Hf as <-. unfold predicted. change (k_ts g_c) with (@None R).
      unfold g_X, lin_f, traj_row, at_. cbn [gd ugv_dims d_nx d_nu map seq ssum nth sadd smul s0 R_ops]. ring.
    - intros f Hf k Hk. change (Some (ugv_ieq (F := R) sqrt 1 g_pos g_rad) = Some f) in Hf. injection Hf as <-. 
      assert (Hc : forall i a, i < 2 -> a < 2 -> cell (tab (d_ph gd + 1) (d_nx gd) g_X) i a = 0%R) by (intros i a Hi Ha; unfold gd; rewrite cell_tab by (cbn; lia); reflexivity).
      unfold ieq_at, ugv_ieq. rewrite Nat.div_1_r, Nat.mod_1_r, !Hc by lia. apply R_leb_iff. cbn [ssub smul sadd s0 R_ops]. unfold g_pos, g_rad.
      replace ((0 - 2) * (0 - 2) + (0 - 1) * (0 - 1))%R with 5%R by ring. pose proof g_away. lra.
    - intros f Hf. discriminate Hf.
  Qed.
  Lemma g_start : exists s h x u pe a r, nl_control_run junk gd 2 0 false plant s h x u [pe] /\ map fst h = g_setup ++ [NOptimize g_x0 g_u0 a] /\ nl_solved gd exactly pe /\ ne_x pe = g_x0 /\
    ne_res pe = r /\ x = after_ gd plant g_x0 (r_cmd r) /\ forall j, j < 2 -> vec (r_cmd r) j = 0%R.
  Proof.
    assert (G1 : gm g_x0 4 1) by (repeat split). assert (G2 : gm g_u0 2 1) by (repeat split).
    destruct (run_setup junk gd 2 0 false plant C01' C11' small1 g_x0 g_u0 g_setup G1 G2) as (s & h & H & Eh & Hk).
    { repeat (constructor; [split; [exact I|try exact I; try discriminate]|]). constructor. }
    { reflexivity. }
    assert (Ec : ncfg_run gd 2 0 h = g_c) by (rewrite cfg_calls; [rewrite Eh; reflexivity|rewrite Eh; reflexivity]).
    destruct (run_solves junk gd 2 0 false plant C01' C11' s h _ _ _ exactly g_X g_X H Hk) as (a & s' & res & pe1 & H1 & S1 & X1 & _ & R1 & U1); [rewrite Ec; exact g_unit|rewrite Ec; exact g_acc|rewrite Ec; exact g_adm|].
    eexists _, _, _, _, pe1, a, res. refine (conj H1 (conj _ (conj S1 (conj X1 (conj R1 (conj eq_refl U1)))))). rewrite map_app, Eh. reflexivity.
  Qed.
End UgvWit.
Example C89_ugv_instance junk A B Cm D p v : exists pe, program_run junk gd ((1 + 1) * 1) 0 false (ugv_plant A B) (g_setup A B Cm D p v) true [pe] /\ nl_solved gd exactly pe.
Proof.
  destruct (g_start junk A B Cm D (ugv_plant A B) p v) as (s & h & x & u & pe & a & r & H & Eh & S1 & _). exists pe. refine (conj _ S1).
  exists s. eexists _, _, _, _. refine (conj H (conj Eh _)). constructor; [exact I|constructor].
Qed.
(** a plant that carries the vehicle into the middle of the obstacle *)
Definition g_jump (x u : list R) (j : nat) : R := match j with O => 2%R | S O => 1%R | _ => 0%R end.
Example C89_ugv_stuck_instance junk A B Cm D p v : exists pe q, program_run junk gd ((1 + 1) * 1) 0 false g_jump (g_setup A B Cm D p v) true ([] ++ pe :: [q]) /\
  answered gd exactly ([] ++ pe :: [q]) /\ nl_solved gd exactly pe /\ (t_ieq (exactly : tols R) < depth sqrt g_pos g_rad 0 (vec (ne_x q)))%S.
Proof.
  destruct (g_start junk A B Cm D g_jump p v) as (s & h & x & u & pe & a & r & H & Eh & S1 & _ & _ & Ex & _).
  destruct (run_throws junk gd 2 0 false g_jump C01' C11' _ _ _ _ _ H) as (s2 & res2 & pe2 & H2 & F2 & X2 & _).
  exists pe, pe2. refine (conj _ (conj _ (conj S1 _))).
  - exists s2. eexists _, _, _, _. refine (conj H2 (conj _ _)); [rewrite map_app, Eh, <- app_assoc; reflexivity|]. constructor; [exact I|]. constructor; [exact I|constructor].
  - intros o [<-|[<-|[]]]; auto.
  - rewrite X2, Ex. unfold depth, vec, after_. cbn [ent g_jump]. unfold slt. cbn [sltb ssub smul sadd R_ops exactly t_ieq s0]. unfold g_pos, g_rad.
    replace ((2 - 2) * (2 - 2) + (1 - 1) * (1 - 1))%R with 0%R by ring. rewrite sqrt_0.
    destruct (R_leb (3 / 10 - 0) 0) eqn:E; [|reflexivity]. apply R_leb_iff in E. lra.
Qed.
