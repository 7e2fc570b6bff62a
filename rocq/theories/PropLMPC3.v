(** Properties C13, C14, C16 - C19, C46: absence of undefined behaviour, results and sequences after optimize, status
    translation, warm start, sparse conversion. *)
From Coq Require Import Bool Arith ZArith List Lia QArith Qcanon.
From Verif Require Import Scalar Sums Mat Slice Csc CscProof Builder BuilderEnt LMPC SpecLMPC SpecQP LMPCRef LQP LRows LRows2 LDet LOk LSeq Wit PropLMPC1 PropLMPC2.
Import ListNotations.
Local Open Scope nat_scope.

(** *** C18 specification: the vectors the next warm start would use *)
Definition warm_step {F} (d : dims) (w : list F * list F) (e : lop F * ret F) : list F * list F :=
  match fst e with
  | LSetWarm x y => (x, y)
  | LOptimize _ _ (ASolution x y _ _) => (map x (seq 0 (n_var d)), map y (seq 0 (n_con d)))
  | _ => w end.
Definition warm_of {F} (d : dims) (h : list (lop F * ret F)) : list F * list F := fold_left (warm_step d) h ([], []).

Section Stmts.
  Context {F : Type} {SO : ScalarOps F} {SL : ScalarLaws F}.
  Variable junk : nat -> nat -> F.
  Variable ejunk : nat -> nat -> ext F.
  Variable d : dims.
  Notation nx := (d_nx d). Notation nu := (d_nu d). Notation ndu := (d_ndu d).
  Notation ny := (d_ny d). Notation ph := (d_ph d). Notation ch := (d_ch d).
  Notation reached := (SpecLMPC.reached junk ejunk d).
  Notation step := (l_step junk ejunk d).

  (** C13: no undefined behaviour for any history of calls with safe arguments ([op_safe], SpecLMPC.v) *)
  Theorem C13_safe_histories ops : 0 < ph -> ch <= ph -> (Z.of_nat ph < 1073741824)%Z ->
    Forall (op_safe d) ops -> l_play junk ejunk d (l_init junk ejunk d) ops <> UB.
  Proof.
    intros P C I H. destruct (l_play_safe junk ejunk d P C I ops _ (lgood_init junk ejunk d P) H) as (s & h & -> & _). discriminate.
  Qed.
  (** ... and the calls excluded by [op_safe] are undefined in every reachable state: whole-horizon input bounds
      when the control horizon is shorter than the prediction horizon, *)
  Theorem C13_input_bounds_whole_horizon_undefined s h mn mx :
    0 < ph -> ch <> ph -> reached s h -> sized mn nu ch -> sized mx nu ch -> step s (LSetInputBoundsMat mn mx) = UB.
  Proof.
    intros P C H S1 S2. pose proof (reached_R _ _ _ _ _ P H) as HR. cbn [l_step].
    unfold finish. destruct (l_ok _) eqn:E; [exfalso|reflexivity]. apply l_ok_lim in E.
    pose proof (rb_sz _ _ _ _ _ (r_b _ _ _ _ _ HR)) as SZ. destruct (bs_lim _ _ SZ) as (V1 & V2 & V3 & V4 & V5 & V6 & _).
    apply C. exact (set_inputs_ok d P _ mn V5 S1 E).
  Qed.
  Theorem C13_input_bounds_all_slice_undefined s h mn mx sl :
    0 < ph -> ch <> ph -> reached s h -> sized mn nu 1 -> sized mx nu 1 -> slice_unset sl = true ->
    step s (LSetInputBounds mn mx sl) = UB.
  Proof.
    intros P C H S1 S2 U. cbn [l_step]. unfold on_slice. rewrite U.
    exact (C13_input_bounds_whole_horizon_undefined s h _ _ P C H (proj1 (replicate_cols d P ejunk nu ch mn S1)) (proj1 (replicate_cols d P ejunk nu ch mx S2))).
  Qed.
  (** slices with two negative ends in increasing order, *)
  Theorem C13_negative_slice_undefined s op sl :
    slice_of op = Some sl -> slice_unset sl = false -> (sl_start sl < sl_end sl < 0)%Z -> step s op = UB.
  Proof.
    intros Hs U [N1' N2'].
    assert (G : forall H whole one, on_slice H sl whole one s = @UB (lmpc F * ret F)).
    { intros H whole one. unfold on_slice. rewrite U. destruct (slice_check (Z.of_nat H) sl) as [b|] eqn:E; [|reflexivity].
      pose proof (slice_check_iff _ _ _ E) as HB.
      assert (b = true) as -> by (apply HB; lia).
      unfold slice_steps. destruct (Z.ltb_spec (sl_start sl) 0); [|lia]. destruct (Z.ltb_spec (sl_end sl) 0); [reflexivity|lia]. }
    destruct op; cbn in Hs; try discriminate; inversion Hs; subst; cbn [l_step]; apply G.
  Qed.
  (** passing nonlinear parameters to the linear controller, and a problem rejected by the solver's setup *)
  Theorem C13_parameter_type_undefined s : step s (LSetParams PNonLinear) = UB.
  Proof. reflexivity. Qed.
  Theorem C13_setup_failure_undefined s x0 u0 : step s (LOptimize x0 u0 ASetupFailed) = UB.
  Proof. cbn [l_step]. unfold l_run. destruct (negb _); reflexivity. Qed.

  (** C46: with warm start enabled and non-empty vectors shorter than the problem, optimize is undefined (osqp reads
      past their end) *)
  Theorem C46_short_warm_start_undefined s h x0 u0 a wx wy :
    0 < ph -> reached s h -> sized x0 nx 1 -> sized u0 nu 1 ->
    cl_warm (l_call d s x0 u0) = Some (wx, wy) -> length wx < n_var d \/ length wy < n_con d ->
    step s (LOptimize x0 u0 a) = UB.
  Proof.
    intros P H X U E L. pose proof (reached_R _ _ _ _ _ P H) as HR. cbn [l_step]. unfold l_run, warm_ok. rewrite E.
    destruct (cl_dims junk ejunk d P s _ x0 u0 HR X U) as [-> ->].
    assert ((n_var d <=? length wx) && (n_con d <=? length wy) = false) as ->.
    { apply andb_false_iff. rewrite !Nat.leb_gt. exact L. }
    reflexivity.
  Qed.

  (** C14 *)
  Lemma opt_ok s x0 u0 x y code obj s' r : step s (LOptimize x0 u0 (ASolution x y code obj)) = Ok (s', r) ->
    let o := l_o s in let b := l_built d s x0 u0 in let c := l_call d s x0 u0 in
    let st := seq_state d x (q_state (o_seq o)) in
    let inp := seq_input d x (q_input (o_seq o)) in
    let out := seq_output d b st (o_dist o) (q_output (o_seq o)) in
    s' = mkL b (mkOpt (o_yref o) (o_uref o) (o_duref o) (o_dist o)
          (mkRes code (l_feasible code) obj (l_status code) (mtrans (mrow inp 0)))
          (mkSeq st out inp) (map x (seq 0 (cl_n c))) (map y (seq 0 (cl_m c))) (o_par o)) /\
    r = RResult (o_res (l_o s')).
  Proof.
    cbn [l_step]. unfold l_run. destruct (negb _); [discriminate|].
    match goal with |- (if l_ok ?S then _ else _) = _ -> _ => set (sn := S) end.
    destruct (l_ok sn); [|discriminate]. intros E. inversion E; subst. split; reflexivity.
  Qed.
  Theorem C14_sequences s h p x0 u0 x y code obj s' r :
    0 < ph -> reached s h -> g_plant (cfg_run h) = Some p -> sized x0 nx 1 -> sized u0 nu 1 ->
    step s (LOptimize x0 u0 (ASolution x y code obj)) = Ok (s', r) ->
    let sq := o_seq (l_o s') in
    exists res, r = RResult res /\
    (forall i j, i <= ph -> j < nx -> ent (q_state sq) i j = z_state d x i j) /\
    (forall i j, i < ph -> j < nu -> ent (q_input sq) i j = z_cmd d x i j) /\
    (forall j, j < nu -> ent (q_input sq) ph j = z_cmd d x (ph - 1) j) /\
    (forall i j, i <= ph -> j < ny -> ent (q_output sq) i j = output d p (cfg_run h) (fun k l => ent (q_state sq) k l) i j) /\
    (forall j, j < nu -> vec (r_cmd res) j = ent (q_input sq) 0 j) /\
    sized (q_state sq) (ph + 1) nx /\ sized (q_input sq) (ph + 1) nu /\ sized (q_output sq) (ph + 1) ny /\
    (* if the solver's point satisfies the program, the sequence is a trajectory of the plant from x0 that obeys
       every constraint *)
    (qp_feasible (l_call d s x0 u0) x ->
     admissible d p (cfg_run h) (vec x0) (vec u0) (fun k l => ent (q_state sq) k l) (fun k l => ent (q_input sq) k l)).
  Proof.
    intros P H Hp X U E sq. pose proof (reached_R _ _ _ _ _ P H) as HR.
    destruct (opt_ok _ _ _ _ _ _ _ _ _ E) as [Es Er]. rewrite Es in Er. cbn [l_o o_res] in Er. eexists. split; [exact Er|].
    pose proof (ro_seq _ _ _ (r_o _ _ _ _ _ HR)) as (Q1 & Q2 & Q3 & Q4).
    unfold sq. rewrite Es. cbn [l_o o_seq q_state q_input q_output r_cmd].
    assert (S1 : sized (seq_state d x (q_state (o_seq (l_o s)))) (ph + 1) nx) by now apply seq_state_sized.
    assert (IS : forall i j, i <= ph -> j < nx -> ent (seq_state d x (q_state (o_seq (l_o s)))) i j = z_state d x i j).
    { intros i j Hi Hj. now apply seq_state_ent. }
    assert (II : forall i j, i < ph -> j < nu -> ent (seq_input d x (q_input (o_seq (l_o s)))) i j = z_cmd d x i j).
    { intros i j Hi Hj. rewrite seq_input_ent by (assumption || lia). now rewrite Nat.min_l by lia. }
    refine (conj IS (conj II (conj _ (conj _ (conj _ (conj S1 (conj _ (conj _ _)))))))).
    - intros j Hj. rewrite seq_input_ent by (assumption || lia). now rewrite Nat.min_r by lia.
    - intros i j Hi Hj. apply (seq_output_ent junk ejunk d P); try assumption.
      + exact (R_built junk ejunk d P s _ x0 u0 HR X U).
      + destruct (ro_sz _ _ _ (r_o _ _ _ _ _ HR)) as (_ & _ & _ & Z4). exact Z4.
      + exact (ro_d _ _ _ (r_o _ _ _ _ _ HR)).
    - intros j Hj. cbn. reflexivity.
    - now apply seq_input_sized.
    - now apply seq_output_sized.
    - intros HF. apply (C01_feasible_iff_admissible junk ejunk d s h p x0 u0 x P H Hp X U) in HF. destruct HF as [HA _].
      destruct HA as ([T1 T2] & A2 & A3 & A4 & A5 & A6).
      set (st := seq_state d x (q_state (o_seq (l_o s)))) in *. set (inp := seq_input d x (q_input (o_seq (l_o s)))) in *.
      assert (UC : forall i j, i <= ph -> j < nu -> ucmd (vec u0) (fun k l => ent inp k l) i j = ucmd (vec u0) (z_cmd d x) i j).
      { intros i j Hi Hj. destruct i as [|i]; cbn [ucmd]; [reflexivity|]. apply II; [lia|exact Hj]. }
      refine (conj (conj _ _) (conj _ (conj _ (conj _ (conj _ _))))).
      + intros j Hj. rewrite IS by lia. now apply T1.
      + intros k j Hk Hj. rewrite IS by lia. rewrite T2 by assumption. f_equal. f_equal; apply ssum_ext; intros l Hl.
        * now rewrite IS by lia.
        * now rewrite II by lia.
      + intros i j Hi Hj. rewrite IS by lia. now apply A2.
      + intros i j Hi Hj. specialize (A3 i j Hi Hj).
        replace (output d p (cfg_run h) (fun k l => ent st k l) i j) with (output d p (cfg_run h) (z_state d x) i j); [exact A3|].
        unfold output. f_equal. apply ssum_ext. intros l Hl. now rewrite IS by lia.
      + intros i j Hi Hj. rewrite UC by assumption. now apply A4.
      + intros i j Hc Hi Hj. rewrite UC by (assumption || lia). rewrite II by assumption. now apply A5.
      + intros i Hi. specialize (A6 i Hi).
        replace (ssum nx _) with (ssum nx (fun l => (g_sX (cfg_run h) l * z_state d x i l)%S)); [|apply ssum_ext; intros l Hl; now rewrite IS by lia].
        replace (ssum nu (fun l => (g_sU (cfg_run h) l * ucmd (vec u0) (fun k l0 => ent inp k l0) i l)%S))
          with (ssum nu (fun l => (g_sU (cfg_run h) l * ucmd (vec u0) (z_cmd d x) i l)%S)); [exact A6|].
        apply ssum_ext. intros l Hl. now rewrite UC by lia.
  Qed.

  (** C16 *)
  Theorem C16_no_solution s h x0 u0 s' r :
    0 < ph -> reached s h -> sized x0 nx 1 -> sized u0 nu 1 ->
    step s (LOptimize x0 u0 ANoSolution) = Ok (s', r) ->
    exists res, r = RResult res /\ r_code res = (-1)%Z /\ r_feasible res = false /\ r_cost res = PInf /\ r_status res = ERROR /\
      (* the command of the previous result *)
      r_cmd res = r_cmd (o_res (l_o s)) /\
      (* an all-zero sequence *)
      (forall i j, ent (q_state (o_seq (l_o s'))) i j = s0 /\ ent (q_input (o_seq (l_o s'))) i j = s0 /\
                   ent (q_output (o_seq (l_o s'))) i j = s0) /\
      sized (q_state (o_seq (l_o s'))) (ph + 1) nx /\ sized (q_input (o_seq (l_o s'))) (ph + 1) nu /\
      sized (q_output (o_seq (l_o s'))) (ph + 1) ny /\
      (* warm start and configuration are kept: any later call hands the solver what it would have handed it before *)
      (forall x0' u0', sized x0' nx 1 -> sized u0' nu 1 ->
         same_problem (l_call d s x0' u0') (l_call d s' x0' u0') /\
         cl_warm (l_call d s x0' u0') = cl_warm (l_call d s' x0' u0')).
  Proof.
    intros P H X U E. pose proof (reached_R _ _ _ _ _ P H) as HR.
    pose proof (reached_R _ _ _ _ _ P (reached_snoc junk ejunk d s h (LOptimize x0 u0 ANoSolution) s' r H (conj X U) I E)) as HR'.
    rewrite cfg_run_snoc in HR'.
    pose proof (ro_seq _ _ _ (r_o _ _ _ _ _ HR)) as (Q1 & Q2 & Q3 & Q4).
    cbn [l_step] in E. unfold l_run in E. destruct (negb _); [discriminate|].
    match type of E with (if l_ok ?S then _ else _) = _ => set (sn := S) in E end.
    destruct (l_ok sn); [|discriminate]. inversion E; subst s' r. clear E.
    eexists. split; [reflexivity|]. refine (conj eq_refl (conj eq_refl (conj eq_refl (conj eq_refl (conj eq_refl (conj _ (conj _ (conj _ (conj _ _))))))))).
    - intros i j. refine (conj eq_refl (conj eq_refl eq_refl)).
    - destruct Q1; split; assumption.
    - destruct Q3; split; assumption.
    - destruct Q2; split; assumption.
    - intros x0' u0' X' U'. split; [|reflexivity].
      eapply l_call_det; [exact P|exact HR|exact HR'|apply ceq_refl|split; [assumption|split; [assumption|reflexivity]]..].
  Qed.

  (** C17: the exact translation of solver codes; the codes are those of OSQP's osqp_configure/constants.h (version 0.6): 1 solved, 2 solved inaccurate, 3 and 4
      primal and dual infeasible inaccurate, -2 maximum iterations reached, -3 primal infeasible, -4 dual infeasible, -5 interrupted, -6 time limit reached, -7 non-convex, -10 unsolved *)
  Theorem C17_status_table code :
    (l_status code = SUCCESS <-> In code [1; 2; 3; 4]%Z) /\
    (l_status code = MAX_ITERATION <-> code = (-2)%Z) /\
    (l_status code = INFEASIBLE <-> code = (-3)%Z \/ code = (-4)%Z) /\
    (l_status code = ERROR <-> code = (-5)%Z \/ code = (-7)%Z) /\
    (l_feasible code = true <-> In code [1; 2; -2]%Z).
  Proof.
    unfold l_status, l_feasible, OSQP_SOLVED, OSQP_MAX_ITER_REACHED, OSQP_PRIMAL_INFEASIBLE, OSQP_DUAL_INFEASIBLE, OSQP_SOLVED_INACCURATE,
      OSQP_PRIMAL_INFEASIBLE_INACCURATE, OSQP_DUAL_INFEASIBLE_INACCURATE, OSQP_SIGINT, OSQP_TIME_LIMIT_REACHED, OSQP_NON_CVX, OSQP_UNSOLVED.
    cbn [In].
    repeat match goal with |- context [Z.eqb code ?k] => destruct (Z.eqb_spec code k); [subst code; cbn; repeat split; intros; try discriminate; try lia; auto; repeat (destruct H as [H|H]; try discriminate; try lia); try contradiction|] end.
    cbn. repeat split; intros; try discriminate; try lia; repeat (destruct H as [H|H]; try discriminate; try lia); try contradiction.
  Qed.
  (** what optimize reports *)
  Theorem C17_reported s x0 u0 x y code obj s' r :
    step s (LOptimize x0 u0 (ASolution x y code obj)) = Ok (s', r) ->
    exists res, r = RResult res /\ r_code res = code /\ r_cost res = obj /\ r_status res = l_status code /\ r_feasible res = l_feasible code.
  Proof.
    intros E. destruct (opt_ok _ _ _ _ _ _ _ _ _ E) as [Es Er]. rewrite Es in Er. eexists. split; [exact Er|]. repeat split; reflexivity.
  Qed.
  (** the part of the intended property that holds: whenever is_feasible is set, the status is SUCCESS or
      MAX_ITERATION, and an exact infeasibility verdict is never reported as success *)
  Theorem C17_feasible_implies_status code : l_feasible code = true -> l_status code = SUCCESS \/ l_status code = MAX_ITERATION.
  Proof.
    intros H. apply (proj1 (proj2 (proj2 (proj2 (proj2 (C17_status_table code)))))) in H. cbn [In] in H.
    destruct H as [H|[H|[H|[]]]]; subst code; cbn; auto.
  Qed.

  (** C18 *)
  Lemma warm_inv ops : forall s s' h w, 0 < ph -> R junk ejunk d s w -> Forall (op_sized d) ops -> Forall op_proper ops ->
    l_play junk ejunk d s ops = Ok (s', h) ->
    (o_wx (l_o s'), o_wy (l_o s')) = fold_left (warm_step d) h (o_wx (l_o s), o_wy (l_o s)).
  Proof.
    induction ops as [|op ops IH]; intros s s' h c P HR HS HP E; cbn [l_play] in E.
    - inversion E; subst. reflexivity.
    - destruct (step s op) as [[s1 r]|] eqn:E1; [|discriminate].
      destruct (l_play junk ejunk d s1 ops) as [[s2 h2]|] eqn:E2; [|discriminate]. inversion E; subst. clear E.
      inversion HS; inversion HP; subst. cbn [fold_left].
      pose proof (l_step_R junk ejunk d P s c op s1 r HR H1 H5 E1) as HR1.
      assert (E0 : warm_step d (o_wx (l_o s), o_wy (l_o s)) (op, r) = (o_wx (l_o s1), o_wy (l_o s1))).
      2:{ rewrite E0. eapply IH; eassumption. }
      clear IH E2 HR1.
      assert (SL1 : forall H sl whole one, on_slice H sl whole one s = Ok (s1, r) ->
        (forall t, o_wx (l_o (whole t)) = o_wx (l_o t) /\ o_wy (l_o (whole t)) = o_wy (l_o t)) ->
        (forall i t, o_wx (l_o (one i t)) = o_wx (l_o t) /\ o_wy (l_o (one i t)) = o_wy (l_o t)) ->
        (o_wx (l_o s), o_wy (l_o s)) = (o_wx (l_o s1), o_wy (l_o s1))).
      { intros H sl whole one EE HW HO. unfold on_slice in EE. destruct (slice_unset sl).
        - apply finish_inv in EE. destruct EE as (-> & _ & _). destruct (HW s) as [-> ->]. reflexivity.
        - destruct (slice_check _ sl) as [[|]|]; [|inversion EE; reflexivity|discriminate].
          destruct (slice_steps sl) as [l|]; [|discriminate]. apply finish_inv in EE. destruct EE as (-> & _ & _).
          assert (G : forall l t, o_wx (l_o (fold_left (fun s i => one i s) l t)) = o_wx (l_o t) /\ o_wy (l_o (fold_left (fun s i => one i s) l t)) = o_wy (l_o t)).
          { induction l0 as [|i l0 IHl]; intros t; cbn [fold_left]; [split; reflexivity|].
            destruct (IHl (one i t)) as [-> ->]. apply HO. }
          destruct (G l s) as [-> ->]. reflexivity. }
      destruct op; cbn [l_step] in E1; cbn [warm_step fst];
        try (apply finish_inv in E1; destruct E1 as (-> & _ & _); reflexivity);
        try (eapply SL1; [exact E1|intros; split; reflexivity|intros; split; reflexivity]).
      + destruct (_ <=? _)%N; [inversion E1; reflexivity|]. apply finish_inv in E1; destruct E1 as (-> & _ & _); reflexivity.
      + destruct p; [|discriminate]. inversion E1; reflexivity.
      + inversion E1; reflexivity.
      + inversion E1; reflexivity.
      + inversion E1; reflexivity.
      + inversion E1; reflexivity.
      + destruct H1 as [X U]. destruct (cl_dims junk ejunk d P s c x0 u0 HR X U) as [N M].
        unfold l_run in E1. destruct (negb _); [discriminate|]. destruct a as [| |x y code obj]; [discriminate| |].
        * match type of E1 with (if l_ok ?S then _ else _) = _ => set (sn := S) in E1 end.
          destruct (l_ok sn); [|discriminate]. inversion E1; subst. reflexivity.
        * match type of E1 with (if l_ok ?S then _ else _) = _ => set (sn := S) in E1 end.
          destruct (l_ok sn); [|discriminate]. inversion E1; subst. unfold sn. cbn [l_o o_wx o_wy]. rewrite N, M. reflexivity.
  Qed.
  Theorem C18_warm_start s h x0 u0 : 0 < ph -> reached s h ->
    let (wx, wy) := warm_of d h in
    cl_warm (l_call d s x0 u0) =
      (if lp_warm (g_par (cfg_run h)) && negb (length wx =? 0) && negb (length wy =? 0) then Some (wx, wy) else None).
  Proof.
    intros P H. pose proof (reached_R _ _ _ _ _ P H) as HR. destruct H as (ops & H1 & H2 & H3).
    pose proof (warm_inv ops _ s h cfg0 P (R_init junk ejunk d) H1 H2 H3) as W.
    unfold warm_of. change (o_wx (l_o (l_init junk ejunk d))) with (@nil F) in W. change (o_wy (l_o (l_init junk ejunk d))) with (@nil F) in W.
    rewrite <- W. cbn [l_call cl_warm]. unfold l_warm. rewrite (ro_par _ _ _ (r_o _ _ _ _ _ HR)).
    assert (Z : forall n, (0 <? n) = negb (n =? 0)).
    { intros [|n]; reflexivity. }
    rewrite !Z. reflexivity.
  Qed.
  (** with warm start disabled, everything the solver receives is determined by the configuration, the measured
      state and the last command: earlier optimize calls, their answers and setSolverWarmStart leave no trace *)
  Theorem C18_cold_start_memoryless s s' h h' x0 u0 : 0 < ph -> reached s h -> reached s' h' ->
    ceq d (cfg_run h) (cfg_run h') -> lp_warm (g_par (cfg_run h)) = false -> sized x0 nx 1 -> sized u0 nu 1 ->
    l_call d s x0 u0 = l_call d s' x0 u0.
  Proof.
    intros P H H' EC W X U.
    pose proof (C12_same_configuration_same_problem junk ejunk d junk ejunk s s' h h' x0 u0 x0 u0 P H H' EC X U X U (eqv_refl' _ _) (eqv_refl' _ _))
      as (A1 & A2 & A3 & A4 & A5 & A6 & A7 & A8).
    pose proof (C18_warm_start s h x0 u0 P H) as W1. pose proof (C18_warm_start s' h' x0 u0 P H') as W2.
    destruct (warm_of d h) as [wx wy], (warm_of d h') as [wx' wy']. rewrite <- (ce_par _ _ _ EC), W in W2. rewrite W in W1. cbn [andb] in W1, W2.
    destruct (l_call d s x0 u0) as [a1 a2 a3 a4 a5 a6 a7 a8 a9], (l_call d s' x0 u0) as [b1 b2 b3 b4 b5 b6 b7 b8 b9].
    cbn [cl_n cl_m cl_P cl_q cl_A cl_l cl_u cl_par cl_warm] in *. subst. reflexivity.
  Qed.

  (** C19 *)
  Theorem C19_constraint_matrix (M : mat F) :
    csc_wf (csc_full M) /\ c_rows (csc_full M) = mrows M /\ c_cols (csc_full M) = mcols M /\
    forall r j, r < mrows M -> j < mcols M -> csc_val (csc_full M) r j = ent M r j.
  Proof.
    destruct (csc_full_dims M) as [D1 D2]. refine (conj (csc_full_wf M) (conj D1 (conj D2 _))). intros. now apply csc_full_val.
  Qed.
  Theorem C19_cost_matrix (M : mat F) :
    csc_wf (csc_upper M) /\ c_rows (csc_upper M) = mrows M /\ c_cols (csc_upper M) = mcols M /\
    (forall r j, r < mrows M -> j < mcols M -> csc_val (csc_upper M) r j = if r <=? j then ent M r j else s0) /\
    (* a symmetric matrix is recovered from the upper triangle *)
    ((forall r j, r < mrows M -> j < mcols M -> ent M r j = ent M j r) -> mrows M = mcols M ->
     forall r j, r < mrows M -> j < mcols M -> csc_val (csc_upper M) (Nat.min r j) (Nat.max r j) = ent M r j).
  Proof.
    destruct (csc_upper_dims M) as [D1 D2]. refine (conj (csc_upper_wf M) (conj D1 (conj D2 (conj _ _)))).
    - intros. now apply csc_upper_val.
    - intros HS HQ r j Hr Hj. rewrite csc_upper_val by lia. rewrite (proj2 (Nat.leb_le (Nat.min r j) (Nat.max r j))) by lia.
      destruct (Nat.le_ge_cases r j).
      + rewrite Nat.min_l, Nat.max_r by lia. reflexivity.
      + rewrite Nat.min_r, Nat.max_l by lia. symmetry. apply HS; lia.
  Qed.
  (** no stored entry is zero (nothing superfluous is passed), and both matrices of every optimize call are of this form *)
  Theorem C19_no_explicit_zeros (M : mat F) v : In v (c_x (csc_full M)) \/ In v (c_x (csc_upper M)) -> v <> s0.
  Proof.
    assert (K : forall v : F, kept v = true -> v <> s0).
    { intros w Kw ->. unfold kept in Kw. rewrite negb_true_iff in Kw.
      assert (E : sabs (s0 : F) = s0).
      { unfold sabs. pose proof (sle_refl (s0 : F)) as L. unfold sle in L. now rewrite L. }
      rewrite E in Kw. pose proof (sle_refl (s0 : F)) as L. unfold sle in L. congruence. }
    assert (G : forall f : nat -> list (nat * F), (forall j e, In e (f j) -> kept (snd e) = true) ->
      forall n w, In w (map snd (concat (map f (seq 0 n)))) -> kept w = true).
    { intros f Hf n w Hw. apply in_map_iff in Hw. destruct Hw as (e & <- & He). apply in_concat in He.
      destruct He as (l & Hl & He). apply in_map_iff in Hl. destruct Hl as (j & <- & _). eapply Hf. exact He. }
    intros [H|H]; apply K.
    - unfold csc_full in H. rewrite create_csc_eq in H. cbn [c_x] in H. rewrite sparse_view_cols in H.
      eapply (G (kcol M)); [|exact H]. intros j e He. unfold kcol in He. now apply filter_In in He.
    - rewrite csc_upper_eq, create_csc_eq in H. cbn [c_x sm_cols] in H.
      eapply (G (ucol M)); [|exact H]. intros j e He. unfold ucol in He. apply filter_In in He. destruct He as [He _].
      unfold kcol in He. now apply filter_In in He.
  Qed.
End Stmts.

(** ** Concrete instances *)
Local Notation one := (qm 1 1 [[1%Z]]).
(** C13 refuted: documented sizes, 1 <= ch <= ph, whole-horizon input bounds with ch < ph *)
Definition op_documented {F} (d : dims) (op : lop F) : Prop :=
  op_sized d op /\
  match op with
  | LSetModel A B C => mok A = true /\ mok B = true /\ mok C = true
  | LSetInputBounds mn mx sl => mok mn = true /\ mok mx = true /\ (sl = slice_all \/ (0 <= sl_start sl < sl_end sl /\ sl_end sl <= Z.of_nat (d_ch d))%Z)
  | _ => False end.
Theorem C13_intended_refuted :
  ~ (forall d ops, 0 < d_ch d -> d_ch d <= d_ph d -> Forall (op_documented d) ops -> l_play qj qej d (l_init qj qej d) ops <> UB).
Proof.
  intros H. apply (H r07_d [LSetModel one one one; LSetInputBounds (qe [-1]%Z) (qe [1]%Z) slice_all]); [cbn; lia|cbn; lia| |].
  - constructor; [split; repeat split|]. constructor; [|constructor]. split; [repeat split|]. refine (conj eq_refl (conj eq_refl (or_introl eq_refl))).
  - destruct (l_play _ _ _ _ _) as [a|] eqn:E; [|reflexivity]. exfalso.
    assert (G : is_ok (l_play qj qej r07_d (l_init qj qej r07_d) [LSetModel one one one; LSetInputBounds (qe [-1]%Z) (qe [1]%Z) slice_all]) = false)
      by (vm_compute; reflexivity).
    rewrite E in G. discriminate.
Qed.
Example C13_instance : 0 < d_ph ex_d /\ d_ch ex_d <= d_ph ex_d /\ (Z.of_nat (d_ph ex_d) < 1073741824)%Z /\
  Forall (op_safe ex_d) (ex_ops ++ [LOptimize (qv [2]%Z) (qv [1]%Z) (ASolution ex_z (fun _ => q 0) 1%Z (Fin (q 4))); LSetSampling;
    LOptimize (qv [2]%Z) (qv [1]%Z) ANoSolution]).
Proof.
  refine (conj _ (conj _ (conj _ _))); [cbn; lia|cbn; lia|reflexivity|].
  assert (SL : slice_safe slice_all) by (left; reflexivity). assert (SL' : slice_safe (mkSlice 0 1)) by (right; right; cbn; lia).
  assert (SI : slice_int slice_all) by (split; reflexivity). assert (SI' : slice_int (mkSlice 0 1)) by (split; reflexivity).
  repeat (apply Forall_cons; [cbn [op_safe]; repeat split; try assumption; try discriminate|]). apply Forall_nil.
Qed.

(** C14, C16, C17, C18 instances: an optimize that found a solution, then one that did not *)
Definition x14_ops : list (lop Qc) := ex_ops ++ [LSetParams (PLinear (mkLP 100 (q 0) true (q 1) (q 1) (q 1) (q 1) (q 1) (q 1) false true true))].
Definition x14_a : lop Qc := LOptimize (qv [2]%Z) (qv [1]%Z) (ASolution ex_z (fun _ => q 0) 1%Z (Fin (q 4))).
Definition ret_res (o : outcome (lmpc Qc * ret Qc)) : bool := match o with Ok (_, RResult _) => true | _ => false end.
Lemma ret_res_ok o : ret_res o = true -> exists s' r, o = Ok (s', RResult r).
Proof. destruct o as [[s' []]|]; try discriminate. eauto. Qed.
Example C14_instance : reached qj qej ex_d (wS ex_d x14_ops) (wH ex_d x14_ops) /\
  g_plant (cfg_run (wH ex_d x14_ops)) = Some (wp (wH ex_d x14_ops)) /\
  (exists s' r, l_step qj qej ex_d (wS ex_d x14_ops) x14_a = Ok (s', RResult r)) /\
  qp_feasible (l_call ex_d (wS ex_d x14_ops) (qv [2]%Z) (qv [1]%Z)) ex_z.
Proof.
  refine (conj _ (conj _ (conj _ _))); [w_reach|apply w_plant; vm_compute; reflexivity|apply ret_res_ok; vm_compute; reflexivity|].
  apply feasible_b_ok. vm_compute. reflexivity.
Qed.
Example C16_instance : exists s' r, l_step qj qej ex_d (wS ex_d (x14_ops ++ [x14_a])) (LOptimize (qv [2]%Z) (qv [1]%Z) ANoSolution) = Ok (s', RResult r) /\
  lp_warm (g_par (cfg_run (wH ex_d (x14_ops ++ [x14_a])))) = true /\
  negb (length (fst (warm_of ex_d (wH ex_d (x14_ops ++ [x14_a])))) =? 0) = true /\
  reached qj qej ex_d (wS ex_d (x14_ops ++ [x14_a])) (wH ex_d (x14_ops ++ [x14_a])).
Proof.
  destruct (ret_res_ok (l_step qj qej ex_d (wS ex_d (x14_ops ++ [x14_a])) (LOptimize (qv [2]%Z) (qv [1]%Z) ANoSolution)) ltac:(vm_compute; reflexivity)) as (s' & r & E).
  exists s', r. refine (conj E (conj _ (conj _ _))); [vm_compute; reflexivity|vm_compute; reflexivity|w_reach].
Qed.
(** C17 refuted: "primal infeasible inaccurate" is reported as SUCCESS, and not flagged infeasible *)
Definition infeasible_verdict (code : Z) : Prop :=
  In code [-3; -4; 3; 4]%Z.
Theorem C17_intended_refuted :
  ~ (forall d s h x0 u0 x y code obj s' r res, reached qj qej d s h -> sized x0 (d_nx d) 1 -> sized u0 (d_nu d) 1 ->
       l_step qj qej d s (LOptimize x0 u0 (ASolution x y code obj)) = Ok (s', r) -> r = RResult res ->
       (r_status res = SUCCESS -> code = 1%Z \/ code = 2%Z) /\
       (infeasible_verdict code -> r_status res = INFEASIBLE) /\
       (r_feasible res = true <-> r_status res = SUCCESS \/ r_status res = MAX_ITERATION)).
Proof.
  intros H. set (op := LOptimize (qv [2]%Z) (qv [1]%Z) (ASolution ex_z (fun _ => q 0) 3%Z (Fin (q 4)))).
  destruct (ret_res_ok (l_step qj qej ex_d (wS ex_d ex_ops) op) ltac:(vm_compute; reflexivity)) as (s' & r & E).
  destruct (C17_reported _ _ _ _ _ _ _ _ _ _ _ _ E) as (res & E1 & E2 & E3 & E4 & E5).
  destruct (H ex_d _ _ (qv [2]%Z) (qv [1]%Z) ex_z (fun _ => q 0) 3%Z (Fin (q 4)) s' (RResult r) res ex_reached (conj eq_refl eq_refl) (conj eq_refl eq_refl) E E1) as (A & _).
  rewrite E4 in A. specialize (A eq_refl). destruct A as [A|A]; vm_compute in A; discriminate.
Qed.
(** C46: the hypotheses are met by an ordinary-looking history *)
Example C46_instance : reached qj qej ex_d (wS ex_d (x14_ops ++ [LSetWarm [q 1] [q 1]])) (wH ex_d (x14_ops ++ [LSetWarm [q 1] [q 1]])) /\
  option_map (fun p => (length (fst p), length (snd p))) (cl_warm (l_call ex_d (wS ex_d (x14_ops ++ [LSetWarm [q 1] [q 1]])) (qv [2]%Z) (qv [1]%Z))) = Some (1, 1) /\
  1 < n_var ex_d.
Proof. refine (conj _ (conj _ _)); [w_reach|vm_compute; reflexivity|vm_compute; lia]. Qed.

Print Assumptions C13_safe_histories. Print Assumptions C14_sequences. Print Assumptions C16_no_solution. Print Assumptions C17_status_table.
Print Assumptions C17_intended_refuted. Print Assumptions C18_warm_start. Print Assumptions C18_cold_start_memoryless. Print Assumptions C19_constraint_matrix.
Print Assumptions C19_cost_matrix. Print Assumptions C19_no_explicit_zeros. Print Assumptions C46_short_warm_start_undefined. Print Assumptions C13_intended_refuted.
