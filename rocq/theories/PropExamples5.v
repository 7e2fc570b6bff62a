(** Property C89, rest: at the origin vanderpol_ex.cpp and networked_oscillators_ex.cpp do nothing. *)
From Coq Require Import Bool Arith ZArith List Lia QArith Qcanon Ring Field.
From Verif Require LUniq.
From Verif Require Import Scalar Sums Mat Slice Builder BuilderEnt LMPC SpecLMPC NLMap NLTraj NLFun SpecNL NLMPC SpecNLC SpecNLP SpecNLO NLRef NLRun NLCall NLObs PropNL1 PropNL3 PropNL6 SpecNLoop PropNLoop SpecNLMeta PropNLMeta Examples SpecExamples PropExamples PropExamples3.
Import ListNotations.
Local Open Scope nat_scope.

Section Rest.
  Context {F : Type} {SO : ScalarOps F} {SM : ScalarMild F} {SL : ScalarLaws F}.
  Add Field SFrest : (@s_field F SO SL).
  Definition zero (j : nat) : F := s0.
  (** ** sums of squares *)
  Definition sqs (l : list F) (a : F) : F := fold_left (fun a v => (a + v * v)%S) l a.
  Lemma sqs_ge l : forall a, (a <= sqs l a)%S.
  Proof using SL.
    induction l as [|v l IH]; intros a; [apply sle_refl|]. cbn [sqs fold_left]. eapply sle_trans; [|apply IH].
    replace a with (a + s0)%S at 1 by ring. apply sle_add_l, ssq_nonneg.
  Qed.
  Lemma sqs_zero l : forall a, (s0 <= a)%S -> sqs l a = s0 -> a = s0 /\ forall v, In v l -> v = s0.
  Proof using SL.
    induction l as [|v l IH]; intros a A E; [split; [exact E|intros v []]|]. cbn [sqs fold_left] in E.
    assert (A2 : (s0 <= a + v * v)%S). { replace s0 with (s0 + s0 : F)%S by ring. apply sle_add; [exact A|apply ssq_nonneg]. }
    destruct (IH _ A2 E) as [E2 Hl].
    assert (Ea : a = s0). { apply sle_antisym; [|exact A]. rewrite <- E2. replace a with (a + s0)%S at 1 by ring. apply sle_add_l, ssq_nonneg. }
    split; [exact Ea|]. intros w [<-|I]; [|auto]. rewrite Ea in E2. assert (Q : (v * v)%S = s0) by (rewrite <- E2; ring). destruct (smul_integral _ _ Q); assumption.
  Qed.
  Lemma sqs_all0 l : (forall v, In v l -> v = s0) -> sqs l s0 = s0.
  Proof using SL. induction l as [|v l IH]; intros H; [reflexivity|]. cbn [sqs fold_left]. rewrite (H v) by now left. replace (s0 + s0 * s0 : F)%S with (s0 : F) by ring. apply IH. intros w I. apply H. now right. Qed.
  Lemma in_tab n m (X : nat -> nat -> F) v : In v (concat (tab n m X)) <-> exists i j, i < n /\ j < m /\ v = X i j.
  Proof using.
    unfold tab. rewrite in_concat. split.
    - intros (r & Ir & Iv). apply in_map_iff in Ir. destruct Ir as (i & <- & Ii). apply in_map_iff in Iv. destruct Iv as (j & <- & Ij). apply in_seq in Ii, Ij. exists i, j. repeat split; lia.
    - intros (i & j & Hi & Hj & ->). exists (map (X i) (seq 0 m)). split; [apply in_map_iff; exists i; split; [reflexivity|apply in_seq; lia]|apply in_map, in_seq; lia].
  Qed.
  Lemma at_zero n i : at_ (comps n zero) i = s0.
  Proof using.
    unfold at_, comps. destruct (Nat.lt_ge_cases i n).
    - rewrite (nth_indep _ _ (zero 0)) by (rewrite map_length, seq_length; assumption). rewrite map_nth. reflexivity.
    - apply nth_overflow. rewrite map_length, seq_length. assumption.
  Qed.

  Section Any.
  Variables (junk : nat -> nat -> F) (d : dims) (ni ne : nat) (dyn_eq : bool) (plant : list F -> list F -> nat -> F).
  Notation nx := (d_nx d). Notation nu := (d_nu d). Notation ph := (d_ph d). Notation ch := (d_ch d).
  Hypothesis C0 : 0 < ch.
  Hypothesis C : ch <= ph.
  Lemma before setup b ps pe : forallb no_opt setup = true -> forallb no_slice setup = true -> program_run junk d ni ne dyn_eq plant setup b ps -> In pe ps ->
    exists rest0, Forall (loop_call b) rest0 /\ ne_cfg pe = fold_left (fun c op => ncfg_apply d ni ne op c) rest0 (fold_left (fun c op => ncfg_apply d ni ne op c) setup ncfg0).
  Proof using.
    intros Hn Hs (s & h & x & u & rest & H & Eh & Hr) I. destruct (run_before junk d ni ne dyn_eq plant _ _ _ _ _ _ H I) as (h0 & h1 & r & -> & ->).
    rewrite map_app in Eh. cbn [map fst] in Eh. symmetry in Eh. destruct (split_setup setup rest (map fst h0) (NOptimize (ne_x pe) (ne_u pe) (ne_ans pe)) (map fst h1) Hn eq_refl Eh) as (rest0 & E0 & ->).
    apply Forall_app in Hr. destruct Hr as [Hr _]. exists rest0. split; [exact Hr|].
    rewrite cfg_calls, E0, fold_left_app; [reflexivity|].
    rewrite E0, forallb_app, Hs. cbn [andb]. apply forallb_forall. intros op Io. rewrite Forall_forall in Hr. specialize (Hr op Io). destruct op; cbn in Hr; try contradiction; reflexivity.
  Qed.
  Lemma same_after rest0 : Forall (loop_call false) rest0 -> forall c, let c' := fold_left (fun c op => ncfg_apply (F := F) d ni ne op c) rest0 c in
    k_obj c' = k_obj c /\ k_out c' = k_out c /\ k_xlo c' = k_xlo c /\ k_xhi c' = k_xhi c /\ k_ulo c' = k_ulo c /\ k_uhi c' = k_uhi c /\ k_eqc c' = k_eqc c.
  Proof using.
    intros H. induction H as [|op rest Ho H IH]; intros c; [auto 8|]. cbn [fold_left]. destruct (IH (ncfg_apply d ni ne op c)) as (A1 & A2 & A3 & A4 & A5 & A6 & A7).
    cbn zeta. rewrite A1, A2, A3, A4, A5, A6, A7.
    destruct op as [| | | |f acc| | | | | | | | | | |x0 u0 [|z code cost]]; cbn [loop_call] in Ho; try contradiction; [destruct Ho as [Ho _]; discriminate Ho| |]; cbn; auto 8.
  Qed.
  (** any program with the cost and the constraint of the two examples and a model at rest at the origin *)
  Lemma rests c f ts : 0 < nu -> unit_scales d c -> all_accepted c -> k_ieq c = Some ex_cap -> k_dyn c = Some f -> k_ts c = Some ts -> k_obj c = Some ex_cost -> k_eqc c = None ->
    (k_xlo c = fun _ _ => MInf) -> (k_xhi c = fun _ _ => PInf) -> (k_ulo c = fun _ _ => MInf) -> (k_uhi c = fun _ _ => PInf) -> ni = ph + 1 ->
    (forall i l, l < nx -> f (comps nx zero) (comps nu zero) i l = s0) -> keeps_rest d ni ne c zero zero.
  Proof using C0 C SM SL.
    intros Nu Un Ac Ei Ed Et Eo Ee B1 B2 B3 B4 Ni Hf. refine (conj Un (conj Ac (conj _ (conj _ _)))).
    - refine (conj _ (conj _ (conj _ _))).
      + intros k j _ _. rewrite B1, B2. split; exact I.
      + intros k j _ _. rewrite B3, B4. split; exact I.
      + intros g Hg k Hk. rewrite Ei in Hg. injection Hg as <-. unfold ieq_at, ex_cap. rewrite cell_tab by lia. unfold staying, zero.
        apply sle_sub_0. replace (s0 - (s0 - ex_half))%S with (ex_half : F) by ring. apply half_pos.
      + intros g Hg. rewrite Ee in Hg. discriminate Hg.
    - exists f. split; [exact Ed|]. intros i l Hi Hl. rewrite Et. apply Hf. exact Hl.
    - exists ex_cost. split; [exact Eo|]. intros x0 Ex X U A.
      assert (Z : nl_cost d c ex_cost (staying zero) (staying zero) = s0).
      { unfold nl_cost, obj_at, ex_cost, sum_sq. change (fold_left (fun a v => (a + v * v)%S) ?l s0) with (sqs l s0). rewrite !sqs_all0; [ring| |]; intros v I; apply in_tab in I; destruct I as (i & j & _ & _ & ->); reflexivity. }
      assert (Pz : forall l, (s0 <= sqs l s0)%S) by (intros l; apply sqs_ge).
      rewrite Z. unfold nl_cost, obj_at, ex_cost, sum_sq. 
      change (fold_left (fun a v => (a + v * v)%S) (concat (tab (ph + 1) nx X)) s0) with (sqs (concat (tab (ph + 1) nx X)) s0).
      change (fold_left (fun a v => (a + v * v)%S) (concat (tab (ph + 1) nu U)) s0) with (sqs (concat (tab (ph + 1) nu U)) s0).
      set (a := sqs _ s0). set (b := sqs _ s0). assert (Pa : (s0 <= a)%S) by apply Pz. assert (Pb : (s0 <= b)%S) by apply Pz. split.
      + replace s0 with (s0 + s0 : F)%S by ring. apply sle_add; assumption.
      + intros E j Hj. assert (Eb : b = s0). { apply sle_antisym; [|exact Pb]. rewrite <- E. replace b with (s0 + b)%S at 1 by ring. apply sle_add_r. exact Pa. }
        destruct (sqs_zero _ s0 (sle_refl _) Eb) as [_ H0]. apply H0. apply in_tab. exists 0, j. repeat split; [lia|exact Hj].
  Qed.
  End Any.

  (** such runs exist, of any length *)
  Section Exist.
  Variables (junk : nat -> nat -> F) (d : dims) (ni ne : nat) (dyn_eq : bool) (plant : list F -> list F -> nat -> F) (setup : list (nop F)).
  Notation nx := (d_nx d). Notation nu := (d_nu d). Notation ph := (d_ph d). Notation ch := (d_ch d).
  Notation run := (nl_control_run junk d ni ne dyn_eq plant).
  Notation cf := (ncfg_run d ni ne).
  Hypothesis C0 : 0 < ch.
  Hypothesis C : ch <= ph.
  Hypothesis small : (Z.of_nat ph < 1073741824)%Z.
  Hypothesis Safe : Forall (nop_safe d ne dyn_eq) setup.
  Hypothesis Once : forallb no_opt setup = true.
  Hypothesis Keeps : forall ps pe, program_run junk d ni ne dyn_eq plant setup false ps -> In pe ps -> keeps_rest d ni ne (ne_cfg pe) zero zero /\ k_eqc (ne_cfg pe) = None.
  Hypothesis Still : forall j, j < nx -> plant (comps nx zero) (comps nu zero) j = s0.
  Lemma optimal_runs n : exists s h x u rest ps, run s h x u ps /\ map fst h = setup ++ rest /\ Forall (loop_call false) rest /\ length ps = n /\
    (forall pe, In pe ps -> nl_optimally d pe /\ (forall j, j < nx -> vec (ne_x pe) j = s0)) /\ (forall j, j < nx -> vec x j = s0).
  Proof using C0 C small Safe Once Keeps Still SM SL.
    induction n as [|n (s & h & x & u & rest & ps & H & Eh & Hr & L & O & Z)].
    - destruct (run_setup junk d ni ne dyn_eq plant C0 C small (mkMat nx 1 (fun _ _ => s0) true) (mkMat nu 1 (fun _ _ => s0) true) setup) as (s & h & H & Eh & _); try assumption; [repeat split|repeat split|].
      exists s, h, (mkMat nx 1 (fun _ _ => s0) true), (mkMat nu 1 (fun _ _ => s0) true), [], []. rewrite app_nil_r. refine (conj H (conj Eh (conj (Forall_nil _) (conj eq_refl (conj _ _))))); [intros pe []|intros j Hj; reflexivity].
    - destruct (nrun_reached junk d ni ne dyn_eq plant C0 C _ _ _ _ _ H) as (R0 & X0 & U0).
      assert (K : keeps_rest d ni ne (cf h) zero zero /\ k_eqc (cf h) = None).
      { destruct (C31_solver_failure junk d ni ne dyn_eq s h x u C0 C R0 (conj X0 U0)) as (s2 & r2 & E2 & _).
        eapply (Keeps (ps ++ [mkNPeriod (cf h) x u (n_call junk d ni ne s x u) NThrow r2 (n_seq s2) (after_ d plant x (r_cmd r2))]) (mkNPeriod (cf h) x u (n_call junk d ni ne s x u) NThrow r2 (n_seq s2) (after_ d plant x (r_cmd r2)))); [|apply in_or_app; right; now left].
        exists s2. eexists _, _, _, (rest ++ [NOptimize x u NThrow]). refine (conj (nrun_period junk d ni ne dyn_eq plant s h x u ps NThrow s2 r2 (after_ d plant x (r_cmd r2)) H E2 _ _) (conj _ _)); [split; [reflexivity|split; reflexivity]|reflexivity| |].
        - rewrite map_app, Eh. cbn [map fst]. now rewrite app_assoc.
        - apply Forall_app. split; [exact Hr|]. constructor; [exact I|constructor]. }
      destruct K as [K Eq].
      destruct (C82_rest_is_optimal junk d ni ne dyn_eq C0 C s h x u zero zero R0 X0 K Z) as (z & Oz & _).
      pose proof (nreached_NR junk d ni ne dyn_eq C0 C s h R0) as NRs.
      assert (He : has_eq s = true -> 0 < ne). { intros B. unfold has_eq in B. rewrite (nr_eqc d s _ NRs), Eq in B. discriminate B. }
      assert (E : exists s' res, n_step junk d ni ne dyn_eq s (NOptimize x u (NSolved (dvar z) 1 (Fin s0))) = Ok (s', RResult res)).
      { cbn [n_step]. rewrite (run_solved junk d ni ne C0 C s (cf h) x u (dvar z) 1 (Fin s0) NRs X0 He). eauto. }
      destruct E as (s' & res & E). set (a := NSolved (dvar z) 1 (Fin s0)) in *.
      set (pe := mkNPeriod (cf h) x u (n_call junk d ni ne s x u) a res (n_seq s') (after_ d plant x (r_cmd res))).
      assert (H' : run s' (h ++ [(NOptimize x u a, RResult res)]) (after_ d plant x (r_cmd res)) (r_cmd res) (ps ++ [pe])).
      { apply (nrun_period junk d ni ne dyn_eq plant s h x u ps a s' res); [exact H|exact E|split; [reflexivity|split; reflexivity]|reflexivity]. }
      assert (Eh' : map fst (h ++ [(NOptimize x u a, RResult res)]) = setup ++ (rest ++ [NOptimize x u a])) by (rewrite map_app, Eh; cbn [map fst]; now rewrite app_assoc).
      assert (Hr' : Forall (loop_call false) (rest ++ [NOptimize x u a])) by (apply Forall_app; split; [exact Hr|constructor; [exact I|constructor]]).
      assert (O' : forall q, In q (ps ++ [pe]) -> nl_optimally d q /\ (forall j, j < nx -> vec (ne_x q) j = s0)).
      { intros q Iq. apply in_app_or in Iq. destruct Iq as [Iq|[<-|[]]]; [apply O; exact Iq|]. split; [exists z, 1%Z, (Fin s0); exact (conj eq_refl Oz)|exact Z]. }
      assert (Hp : program_run junk d ni ne dyn_eq plant setup false (ps ++ [pe])) by (exists s'; eexists _, _, _, _; exact (conj H' (conj Eh' Hr'))).
      exists s'. eexists _, _, _, _, (ps ++ [pe]). refine (conj H' (conj Eh' (conj Hr' (conj _ (conj O' _))))); [rewrite app_length; cbn; lia|].
      intros j Hj. destruct (ps ++ [pe]) as [|p0 ps0] eqn:Eps; [destruct ps; discriminate Eps|].
      assert (Ip : In pe (p0 :: ps0)) by (rewrite <- Eps; apply in_or_app; right; now left).
      destruct (C82_closed_loop junk d ni ne dyn_eq C0 C plant _ _ _ _ p0 ps0 zero zero H') with (pe := pe) as [_ B]; [|exact Still| |exact Ip|exact (B j Hj)].
      + intros i Hi. exact (proj2 (O' p0 (or_introl eq_refl)) i Hi).
      + intros q Iq. split; [exact (proj1 (Keeps _ _ Hp Iq))|exact (proj1 (O' q Iq))].
  Qed.
  Lemma optimal_program n : exists pe0 ps, length ps = n /\ program_run junk d ni ne dyn_eq plant setup false (pe0 :: ps) /\ (forall j, j < nx -> vec (ne_x pe0) j = s0) /\ (forall pe, In pe (pe0 :: ps) -> nl_optimally d pe).
  Proof using C0 C small Safe Once Keeps Still SM SL.
    destruct (optimal_runs (S n)) as (s & h & x & u & rest & ps & H & Eh & Hr & L & O & _). destruct ps as [|pe0 ps]; [discriminate L|].
    exists pe0, ps. refine (conj _ (conj _ (conj _ _))); [now injection L|exists s, h, x, u, rest; auto|apply (O pe0 (or_introl eq_refl))|intros q Iq; exact (proj1 (O q Iq))].
  Qed.
  End Exist.

  Section Programs.
  Variables (junk : nat -> nat -> F) (dyn_eq : bool) (ph ch : nat).
  Hypothesis C0 : 0 < ch.
  Hypothesis C : ch <= ph.
  Lemma vdp_rests ts p tol plant ps pe : program_run junk (vdp_dims ph ch) (ph + 1) 0 dyn_eq plant (vdp_setup ts p tol) false ps -> In pe ps ->
    keeps_rest (vdp_dims ph ch) (ph + 1) 0 (ne_cfg pe) zero zero /\ k_eqc (ne_cfg pe) = None.
  Proof using C0 C SM SL.
    intros H I. destruct (vdp_cfg junk dyn_eq ph ch plant _ _ _ _ _ _ H I) as (A1 & A2 & A3 & A4 & A5).
    destruct (before junk (vdp_dims ph ch) (ph + 1) 0 dyn_eq plant (vdp_setup ts p tol) false ps pe eq_refl eq_refl H I) as (r0 & Hr & E). destruct (same_after (vdp_dims ph ch) (ph + 1) 0 r0 Hr (fold_left (fun c op => ncfg_apply (vdp_dims ph ch) (ph + 1) 0 op c) (vdp_setup ts p tol) ncfg0)) as (B1 & B2 & B3 & B4 & B5 & B6 & B7).
    rewrite <- E in B1, B2, B3, B4, B5, B6, B7. split; [|rewrite B7; reflexivity]. apply (rests (vdp_dims ph ch) (ph + 1) 0 C0 C (ne_cfg pe) vdp_f ts); try assumption; try reflexivity; [cbn; lia|].
    intros i [|[|l]] Hl; cbn [vdp_f]; rewrite ?at_zero; ring.
  Qed.
  Lemma net_f_zero N mu k i l : net_f N mu k (comps (2 * N) zero) (comps N zero) i l = s0.
  Proof using SL.
    unfold net_f. rewrite !at_zero. destruct (Nat.even l); [reflexivity|].
    assert (G : forall n a, loop n (fun j a => if l / 2 =? j then a else (a + k * (at_ (comps (2 * N) zero) (2 * j) - s0))%S) a = a).
    { induction n as [|n IH]; intros a; [reflexivity|]. cbn [loop]. rewrite IH. destruct (_ =? _); [reflexivity|]. rewrite at_zero. ring. }
    rewrite G. ring.
  Qed.
  Lemma net_rests N mu k ts tol plant ps pe : 0 < N -> program_run junk (net_dims N ph ch) (ph + 1) 0 dyn_eq plant (net_setup N mu k ts tol) false ps -> In pe ps ->
    keeps_rest (net_dims N ph ch) (ph + 1) 0 (ne_cfg pe) zero zero /\ k_eqc (ne_cfg pe) = None.
  Proof using C0 C SM SL.
    intros Nn H I. destruct (net_cfg junk dyn_eq ph ch plant _ _ _ _ _ _ _ _ H I) as (A1 & A2 & A3 & A4 & A5).
    destruct (before junk (net_dims N ph ch) (ph + 1) 0 dyn_eq plant (net_setup N mu k ts tol) false ps pe eq_refl eq_refl H I) as (r0 & Hr & E). destruct (same_after (net_dims N ph ch) (ph + 1) 0 r0 Hr (fold_left (fun c op => ncfg_apply (net_dims N ph ch) (ph + 1) 0 op c) (net_setup N mu k ts tol) ncfg0)) as (B1 & B2 & B3 & B4 & B5 & B6 & B7).
    rewrite <- E in B1, B2, B3, B4, B5, B6, B7. split; [|rewrite B7; reflexivity]. apply (rests (net_dims N ph ch) (ph + 1) 0 C0 C (ne_cfg pe) (net_f N mu k) ts); try assumption; try reflexivity.
    intros i l Hl. apply net_f_zero.
  Qed.

  (** C89: started at the origin, with optimal answers, both programs apply no command, and the oscillators stay where they are *)
  Theorem C89_vanderpol_rest ts p tol pe0 ps : program_run junk (vdp_dims ph ch) (ph + 1) 0 dyn_eq (euler vdp_f ts) (vdp_setup ts p tol) false (pe0 :: ps) ->
    (forall j, j < 2 -> vec (ne_x pe0) j = s0) -> (forall pe, In pe (pe0 :: ps) -> nl_optimally (vdp_dims ph ch) pe) ->
    forall pe, In pe (pe0 :: ps) -> vec (r_cmd (ne_res pe)) 0 = s0 /\ vec (ne_next pe) 0 = s0 /\ vec (ne_next pe) 1 = s0.
  Proof using C0 C SM SL.
    intros H X O pe I. assert (K := H). destruct H as (s & h & x & u & rest & H & _).
    destruct (C82_closed_loop junk (vdp_dims ph ch) (ph + 1) 0 dyn_eq C0 C _ _ _ _ _ _ _ zero zero H X) with (pe := pe) as [A B]; [| |exact I|].
    - intros j Hj. unfold euler. rewrite at_zero. cbn in Hj. destruct j as [|[|j]]; [| |lia]; cbn [vdp_f]; rewrite ?at_zero; unfold zero; ring.
    - intros q Iq. split; [refine (proj1 (vdp_rests _ _ _ _ _ _ K Iq))|auto].
    - split; [apply A; cbn; lia|split; apply B; cbn; lia].
  Qed.
  Theorem C89_network_rest N mu k ts tol pe0 ps : 0 < N -> program_run junk (net_dims N ph ch) (ph + 1) 0 dyn_eq (euler (net_f N mu k) ts) (net_setup N mu k ts tol) false (pe0 :: ps) ->
    (forall j, j < 2 * N -> vec (ne_x pe0) j = s0) -> (forall pe, In pe (pe0 :: ps) -> nl_optimally (net_dims N ph ch) pe) ->
    forall pe, In pe (pe0 :: ps) -> (forall j, j < N -> vec (r_cmd (ne_res pe)) j = s0) /\ (forall j, j < 2 * N -> vec (ne_next pe) j = s0).
  Proof using C0 C SM SL.
    intros Nn H X O pe I. assert (K := H). destruct H as (s & h & x & u & rest & H & _).
    apply (C82_closed_loop junk (net_dims N ph ch) (ph + 1) 0 dyn_eq C0 C _ _ _ _ _ _ _ zero zero H X); [| |exact I].
    - intros j Hj. unfold euler. change (d_nx (net_dims N ph ch)) with (2 * N). change (d_nu (net_dims N ph ch)) with N. rewrite at_zero, net_f_zero. unfold zero. ring.
    - intros q Iq. split; [refine (proj1 (net_rests _ _ _ _ _ _ _ _ Nn K Iq))|auto].
  Qed.
  (** ... and such runs exist, of any length *)
  Hypothesis small : (Z.of_nat ph < 1073741824)%Z.
  Theorem C89_vanderpol_rest_runs ts p tol n : exists pe0 ps, length ps = n /\ program_run junk (vdp_dims ph ch) (ph + 1) 0 dyn_eq (euler vdp_f ts) (vdp_setup ts p tol) false (pe0 :: ps) /\
    (forall j, j < 2 -> vec (ne_x pe0) j = s0) /\ (forall pe, In pe (pe0 :: ps) -> nl_optimally (vdp_dims ph ch) pe).
  Proof using C0 C small SM SL.
    apply (optimal_program junk (vdp_dims ph ch) (ph + 1) 0 dyn_eq (euler vdp_f ts) (vdp_setup ts p tol) C0 C small).
    - repeat (constructor; [split; [exact I|try exact I; try discriminate]|]). constructor.
    - reflexivity.
    - intros ps pe H I. exact (vdp_rests _ _ _ _ _ _ H I).
    - intros j Hj. cbn in Hj. unfold euler. rewrite at_zero. destruct j as [|[|j]]; [| |lia]; cbn [vdp_f]; rewrite ?at_zero; ring.
  Qed.
  Theorem C89_network_rest_runs N mu k ts tol n : 0 < N -> exists pe0 ps, length ps = n /\ program_run junk (net_dims N ph ch) (ph + 1) 0 dyn_eq (euler (net_f N mu k) ts) (net_setup N mu k ts tol) false (pe0 :: ps) /\
    (forall j, j < 2 * N -> vec (ne_x pe0) j = s0) /\ (forall pe, In pe (pe0 :: ps) -> nl_optimally (net_dims N ph ch) pe).
  Proof using C0 C small SM SL.
    intros Nn. apply (optimal_program junk (net_dims N ph ch) (ph + 1) 0 dyn_eq (euler (net_f N mu k) ts) (net_setup N mu k ts tol) C0 C small).
    - repeat (constructor; [split; [exact I|try exact I; try discriminate]|]). constructor.
    - reflexivity.
    - intros ps pe H I. exact (net_rests _ _ _ _ _ _ _ _ Nn H I).
    - intros j Hj. unfold euler. change (d_nx (net_dims N ph ch)) with (2 * N). change (d_nu (net_dims N ph ch)) with N. rewrite at_zero, net_f_zero. ring.
  Qed.
  End Programs.
End Rest.
