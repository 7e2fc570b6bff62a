(** Properties C30 - C35: starting point, failures, status, slack, parameters, slices of the non-linear controller. *)
From Coq Require Import Bool Arith ZArith List Lia QArith Qcanon Ring Field.
From Verif Require Import Scalar Sums Mat Slice Builder BuilderEnt LMPC SpecLMPC LMPCRef PropLMPC1 NLMap NLTraj NLFun SpecNL NLLoop NLGrad NLEval NLMPC SpecNLC SpecNLP NLRef NLRun NLCall NLObs Wit WitNL PropNL1.
Import ListNotations.
Local Open Scope nat_scope.

(** *** Specification *)
Section Spec.
  Context {F : Type} {SO : ScalarOps F}.
  Definition solved_event (e : nop F * ret F) : bool := match fst e with NOptimize _ _ (NSolved _ _ _) => true | _ => false end.
  (** the history [h] that follows a successful optimization preserves its solution; [w]: warm start enabled at its beginning.
      (An optimization that fails while warm start is disabled overwrites the retained solution.) *)
  Fixpoint retained (w : bool) (h : list (nop F * ret F)) : bool :=
    match h with
    | [] => true
    | (op, _) :: h => match op with
        | NSetParams (NPNonLinear p) => retained (np_warm p) h
        | NOptimize _ _ NThrow => w && retained w h
        | NOptimize _ _ (NSolved _ _ _) => false
        | _ => retained w h end
    end.
  (** the command of the last result handed to the user, zero before the first *)
  Definition last_cmd (nu : nat) (h : list (nop F * ret F)) : mat F :=
    fold_left (fun m e => match snd e with RResult r => r_cmd r | _ => m end) h (mzero nu 1).
  Definition no_params (h : list (nop F * ret F)) : Prop := forall p r, ~ In (NSetParams p, r) h.
  (** the last positive time limit passed to setOptimizerParameters, 0 (no limit) if there was none *)
  Definition last_time_limit (h : list (nop F * ret F)) : F :=
    fold_left (fun t e => match fst e with NSetParams (NPNonLinear p) => if sltb s0 (np_tlim p) then np_tlim p else t | _ => t end) h s0.
  (** slices accepted for a horizon of [H] steps (C09 discusses the condition on the sum) *)
  Definition accepted (H : nat) (sl : slice) : Prop :=
    slice_unset sl = true \/ (sl_start sl < sl_end sl /\ sl_start sl <= Z.of_nat H /\ sl_end sl <= Z.of_nat H /\ sl_start sl + sl_end sl <= Z.of_nat H)%Z.
End Spec.

Section Stmts.
  Context {F : Type} {SO : ScalarOps F} {SM : ScalarMild F} {SL : ScalarLaws F}.
  Add Field SFpn3 : (@s_field F SO SL).
  Variables (junk : nat -> nat -> F) (d : dims) (ni ne : nat) (dyn_eq : bool).
  Notation nx := (d_nx d). Notation nu := (d_nu d). Notation ny := (d_ny d).
  Notation ph := (d_ph d). Notation ch := (d_ch d).
  Notation reached := (nreached junk d ni ne dyn_eq). Notation cf := (ncfg_run d ni ne).
  Notation step := (n_step junk d ni ne dyn_eq). Notation call := (n_call junk d ni ne).
  Implicit Types (s : nmpc F) (h : list (nop F * ret F)).

  (** *** C30 *)
  Lemma first_iff h : k_first (cf h) = negb (existsb solved_event h).
  Proof.
    unfold ncfg_run. assert (E : k_first (ncfg0 : ncfg F) = true) by reflexivity. revert E. generalize (ncfg0 : ncfg F) as c.
    assert (K : forall l (c : ncfg F), k_first (fold_left (ncfg_step d ni ne) l c) = k_first c && negb (existsb solved_event l)).
    { induction l as [|[op r] l IH]; intros c; cbn [fold_left existsb]; [now rewrite andb_true_r|]. rewrite IH.
      assert (E : k_first (ncfg_step d ni ne c (op, r)) = k_first c && negb (solved_event (op, r))).
      { destruct op; cbn; try (now rewrite andb_true_r); try (destruct p; cbn; now rewrite andb_true_r); try (destruct acc; cbn; now rewrite andb_true_r);
          try (destruct r as [[]| | |]; cbn; now rewrite andb_true_r). destruct a; cbn; [now rewrite andb_true_r|now rewrite andb_false_r]. }
      rewrite E. destruct (k_first c), (solved_event (op, r)); cbn; try reflexivity. }
    intros c E. rewrite K, E. reflexivity.
  Qed.
  Lemma guess_nth s h x0 u0 : 0 < ch -> ch <= ph -> reached s h ->
    let g := nc_guess (call s x0 u0) in let B := base_vec d (cf h) (vec x0) (vec u0) in
    length g = n_dec d /\
    (forall i j, i < ph -> j < nx -> dvar g (v_state d (S i) j) = B (v_state d (Nat.min (S (S i)) ph) j)) /\
    (forall b j, b < ch -> j < nu -> dvar g (v_input d b j) = (sdiv s1 (k_su (cf h) j) * (k_su (cf h) j * B (v_input d (held d (S b)) j)))%S) /\
    dvar g (v_slack d) = k_slack (cf h).
  Proof.
    intros C0 C Hr. pose proof (nreached_NR junk d ni ne dyn_eq C0 C s h Hr) as H.
    destruct (guess_rep junk d C0 C s _ x0 u0 H) as ((R & K & O) & E1 & E2 & E3). cbn [nc_guess n_call]. cbn zeta. unfold dvar.
    rewrite lst_len. refine (conj R (conj _ (conj _ _))).
    - intros i j Hi Hj. rewrite lst_nth; [now apply E1|]. rewrite R. pose proof (v_state_lt d C0 C i j Hi Hj). unfold n_dec. lia.
    - intros i j Hi Hj. rewrite lst_nth; [now apply E2|]. rewrite R. pose proof (v_input_lt d C0 C i j Hi Hj). unfold n_dec. lia.
    - rewrite lst_nth; [exact E3|]. rewrite R. unfold v_slack, n_dec. lia.
  Qed.
  (** cold start: before the first success, and whenever warm start is disabled, every predicted state is the measured state and every
      command the given one - as decision variables *)
  Theorem C30_cold_start s h x0 u0 :
    0 < ch -> ch <= ph -> reached s h -> (forall j, j < nu -> k_su (cf h) j <> s0) ->
    existsb solved_event h = false \/ k_warm (cf h) = false ->
    let g := nc_guess (call s x0 u0) in
    length g = n_dec d /\
    (forall i j, i < ph -> j < nx -> dvar g (i * nx + j) = ent x0 j 0) /\
    (forall b j, b < ch -> j < nu -> dvar g (ph * nx + (b * nu + j)) = ent u0 j 0) /\
    (* in the trajectories shown to the user functions: times the scales *)
    (forall i j, i <= ph -> j < nx -> x_traj d (cf h) x0 (dvar g) i j = (k_sx (cf h) j * ent x0 j 0)%S) /\
    (forall i j, i <= ph -> j < nu -> u_traj d (cf h) (dvar g) i j = (k_su (cf h) j * ent u0 j 0)%S).
  Proof.
    intros C0 C Hr Su Hc g. destruct (guess_nth s h x0 u0 C0 C Hr) as (L & E1 & E2 & _). fold g in L, E1, E2.
    assert (B : base_vec d (cf h) (vec x0) (vec u0) = constant_vec d (vec x0) (vec u0) (k_vec (cf h))).
    { unfold base_vec. rewrite first_iff. destruct Hc as [-> | ->]; [reflexivity|]. now rewrite orb_true_r. }
    rewrite B in E1, E2.
    assert (A1 : forall i j, i < ph -> j < nx -> dvar g (i * nx + j) = ent x0 j 0).
    { intros i j Hi Hj. specialize (E1 i j Hi Hj). unfold v_state in E1. replace (S i - 1) with i in E1 by lia. rewrite E1.
      unfold constant_vec. pose proof (blk_lt (Nat.min (S (S i)) ph - 1) ph nx j ltac:(lia) Hj). destruct (Nat.ltb_spec ((Nat.min (S (S i)) ph - 1) * nx + j) (ph * nx)); [|lia].
      now rewrite (proj2 (divmod_unique _ j nx Hj)). }
    assert (A2 : forall b j, b < ch -> j < nu -> dvar g (ph * nx + (b * nu + j)) = ent u0 j 0).
    { intros b j Hb Hj. specialize (E2 b j Hb Hj). unfold v_input in E2. rewrite E2. unfold constant_vec.
      pose proof (blk_lt (held d (S b)) ch nu j ltac:(unfold held; lia) Hj). destruct (Nat.ltb_spec (ph * nx + (held d (S b) * nu + j)) (ph * nx)); [lia|].
      destruct (Nat.ltb_spec (ph * nx + (held d (S b) * nu + j)) (ph * nx + nu * ch)); [|lia].
      replace (ph * nx + (held d (S b) * nu + j) - ph * nx) with (held d (S b) * nu + j) by lia. rewrite (proj2 (divmod_unique _ j nu Hj)).
      unfold vec. field. auto. }
    refine (conj L (conj A1 (conj A2 (conj _ _)))).
    - intros i j Hi Hj. unfold x_traj, st_traj. destruct (Nat.eqb_spec i 0); [reflexivity|]. unfold v_state. rewrite A1 by lia. reflexivity.
    - intros i j Hi Hj. unfold u_traj, in_traj, v_input. rewrite A2; [reflexivity|unfold held; lia|exact Hj].
  Qed.

  Lemma retained_vec l : forall (c : ncfg F), k_first c = false -> retained (k_warm c) l = true ->
    k_vec (fold_left (ncfg_step d ni ne) l c) = k_vec c /\ k_slack (fold_left (ncfg_step d ni ne) l c) = k_slack c /\ k_first (fold_left (ncfg_step d ni ne) l c) = false.
  Proof.
    induction l as [|[op r] l IH]; intros c Hf Hk; cbn [fold_left]; [auto|].
    assert (K : retained (k_warm (ncfg_step d ni ne c (op, r))) l = true /\ k_vec (ncfg_step d ni ne c (op, r)) = k_vec c /\
                k_slack (ncfg_step d ni ne c (op, r)) = k_slack c /\ k_first (ncfg_step d ni ne c (op, r)) = false).
    { destruct op; cbn in Hk |- *; try exact (conj Hk (conj eq_refl (conj eq_refl Hf))).
      - destruct p; exact (conj Hk (conj eq_refl (conj eq_refl Hf))).
      - destruct acc; exact (conj Hk (conj eq_refl (conj eq_refl Hf))).
      - destruct acc; exact (conj Hk (conj eq_refl (conj eq_refl Hf))).
      - destruct acc; exact (conj Hk (conj eq_refl (conj eq_refl Hf))).
      - destruct r as [[]| | |]; exact (conj Hk (conj eq_refl (conj eq_refl Hf))).
      - destruct r as [[]| | |]; exact (conj Hk (conj eq_refl (conj eq_refl Hf))).
      - destruct a; [|discriminate Hk]. apply andb_true_iff in Hk as [W Hk]. cbn. unfold base_vec. rewrite Hf, W. cbn. rewrite W in Hk. auto. }
    destruct K as (K1 & K2 & K3 & K4). destruct (IH _ K4 K1) as (-> & -> & ->). auto.
  Qed.
  (** warm start: the last solution shifted by one step, last state and command repeated *)
  Theorem C30_warm_start s h1 xs us z code cost r h2 x0 u0 :
    0 < ch -> ch <= ph -> reached s (h1 ++ (NOptimize xs us (NSolved z code cost), r) :: h2) ->
    let c := cf (h1 ++ (NOptimize xs us (NSolved z code cost), r) :: h2) in
    (forall j, j < nu -> k_su c j <> s0) -> retained (k_warm (cf h1)) h2 = true -> k_warm c = true ->
    let g := nc_guess (call s x0 u0) in
    length g = n_dec d /\
    (forall i j, i < ph -> j < nx -> dvar g (i * nx + j) = z (Nat.min (i + 1) (ph - 1) * nx + j)) /\
    (forall b j, b < ch -> j < nu -> dvar g (ph * nx + (b * nu + j)) = z (ph * nx + (Nat.min (b + 1) (ch - 1) * nu + j))) /\
    dvar g (ph * nx + nu * ch) = z (ph * nx + nu * ch) /\
    (* as trajectories *)
    (forall i j, 0 < i -> i < ph -> j < nx -> x_traj d c x0 (dvar g) i j = x_traj d c x0 z (i + 1) j) /\
    (forall j, j < nx -> x_traj d c x0 (dvar g) ph j = x_traj d c x0 z ph j) /\
    (forall i j, i < ph -> j < nu -> u_traj d c (dvar g) i j = u_traj d c z (i + 1) j).
  Proof.
    intros C0 C Hr c Su Hk Hw g. destruct (guess_nth s _ x0 u0 C0 C Hr) as (L & E1 & E2 & E3). fold g c in L, E1, E2, E3.
    assert (Hc : c = fold_left (ncfg_step d ni ne) h2 (kset_mem (cf h1) false z (z (v_slack d)))).
    { unfold c, ncfg_run. rewrite fold_left_app. reflexivity. }
    destruct (retained_vec h2 (kset_mem (cf h1) false z (z (v_slack d))) eq_refl Hk) as (V1 & V2 & V3).
    rewrite <- Hc in V1, V2, V3. cbn in V1, V2.
    assert (B : base_vec d c (vec x0) (vec u0) = z) by (unfold base_vec; rewrite V3, Hw; exact V1).
    rewrite B in E1, E2. rewrite V2 in E3.
    assert (A1 : forall i j, i < ph -> j < nx -> dvar g (i * nx + j) = z (Nat.min (i + 1) (ph - 1) * nx + j)).
    { intros i j Hi Hj. specialize (E1 i j Hi Hj). unfold v_state in E1. replace (S i - 1) with i in E1 by lia. rewrite E1. do 3 f_equal. lia. }
    assert (A2 : forall b j, b < ch -> j < nu -> dvar g (ph * nx + (b * nu + j)) = z (ph * nx + (Nat.min (b + 1) (ch - 1) * nu + j))).
    { intros b j Hb Hj. specialize (E2 b j Hb Hj). unfold v_input in E2. rewrite E2. unfold held. replace (S b) with (b + 1) by lia. field. auto. }
    refine (conj L (conj A1 (conj A2 (conj E3 (conj _ (conj _ _)))))).
    - intros i j H0 Hi Hj. unfold x_traj, st_traj. destruct (Nat.eqb_spec i 0); [lia|]. destruct (Nat.eqb_spec (i + 1) 0); [lia|]. unfold v_state.
      rewrite A1 by lia. do 2 f_equal. f_equal. f_equal. lia.
    - intros j Hj. unfold x_traj, st_traj. destruct (Nat.eqb_spec ph 0); [lia|]. unfold v_state. rewrite A1 by lia. do 2 f_equal. f_equal. f_equal. lia.
    - intros i j Hi Hj. unfold u_traj, in_traj, v_input. rewrite A2; [|unfold held; lia|exact Hj]. do 4 f_equal. f_equal. unfold held. lia.
  Qed.
  (** the exact retention condition: a failing call with warm start disabled replaces the retained solution by the constants of that call *)
  Theorem C30_failed_cold_call_overwrites s h x1 u1 s' r x0 u0 :
    0 < ch -> ch <= ph -> reached s h -> nop_sized d (NOptimize x1 u1 NThrow : nop F) -> (forall j, j < nu -> k_su (cf h) j <> s0) ->
    k_warm (cf h) = false -> existsb solved_event h = true ->
    step s (NOptimize x1 u1 NThrow) = Ok (s', r) ->
    forall p, np_warm p = true ->
    let g := nc_guess (call (set_params d p s') x0 u0) in
    (forall i j, i < ph -> j < nx -> dvar g (i * nx + j) = ent x1 j 0) /\
    (forall b j, b < ch -> j < nu -> dvar g (ph * nx + (b * nu + j)) = ent u1 j 0).
  Proof.
    intros C0 C Hr Hz Su Hw Hs E p Hp g. pose proof (nreached_NR junk d ni ne dyn_eq C0 C s h Hr) as H.
    pose proof (NR_step junk d ni ne dyn_eq C0 C s (cf h) _ s' r H Hz E) as H1. cbn [ncfg_step ncfg_apply] in H1.
    apply (NR_params d C0 C s' _ p) in H1. rewrite Hp in H1.
    destruct (guess_rep junk d C0 C _ _ x0 u0 H1) as ((R & K & O) & E1 & E2 & E3).
    set (c1 := kset_par _ _ true) in *.
    assert (B : base_vec d c1 (vec x0) (vec u0) = constant_vec d (vec x1) (vec u1) (k_vec (cf h))).
    { unfold base_vec. change (k_first c1) with (k_first (cf h)). rewrite first_iff, Hs. cbn. unfold base_vec. rewrite Hw. now rewrite orb_true_r. }
    rewrite B in E1, E2. change (k_su c1) with (k_su (cf h)) in E2. unfold g. cbn [nc_guess n_call]. unfold dvar. split.
    - intros i j Hi Hj. rewrite lst_nth by (rewrite R; pose proof (blk_lt i ph nx j Hi Hj); unfold n_dec; lia).
      specialize (E1 i j Hi Hj). unfold v_state in E1. replace (S i - 1) with i in E1 by lia. rewrite E1. unfold constant_vec.
      pose proof (blk_lt (Nat.min (S (S i)) ph - 1) ph nx j ltac:(lia) Hj). destruct (Nat.ltb_spec ((Nat.min (S (S i)) ph - 1) * nx + j) (ph * nx)); [|lia].
      now rewrite (proj2 (divmod_unique _ j nx Hj)).
    - intros b j Hb Hj. rewrite lst_nth by (rewrite R; pose proof (blk_lt b ch nu j Hb Hj); unfold n_dec; lia).
      specialize (E2 b j Hb Hj). unfold v_input in E2. rewrite E2. unfold constant_vec.
      pose proof (blk_lt (held d (S b)) ch nu j ltac:(unfold held; lia) Hj). destruct (Nat.ltb_spec (ph * nx + (held d (S b) * nu + j)) (ph * nx)); [lia|].
      destruct (Nat.ltb_spec (ph * nx + (held d (S b) * nu + j)) (ph * nx + nu * ch)); [|lia].
      replace (ph * nx + (held d (S b) * nu + j) - ph * nx) with (held d (S b) * nu + j) by lia. rewrite (proj2 (divmod_unique _ j nu Hj)).
      unfold vec. field. auto.
  Qed.

  (** *** C31 *)
  Lemma res_step s op s' r : step s op = Ok (s', r) -> n_res s' = match r with RResult x => x | _ => n_res s end /\
    match op with NOptimize _ _ _ => exists x, r = RResult x | _ => forall x, r <> RResult x end.
  Proof.
    assert (NB : forall off w H lo hi sl s s', n_bounds off w H lo hi sl s = Ok s' -> n_res s' = n_res s).
    { intros off w H lo hi sl t t'. unfold n_bounds. destruct (nl_steps _ _) as [[|k l]|]; [intros E; inversion E; reflexivity| |intros E; discriminate E].
      destruct (_ && _); [|intros E; discriminate E]. intros E; inversion E; reflexivity. }
    assert (SL' : forall off w H lo hi sl s s' r, n_slice off w H lo hi sl s = Ok (s', r) -> n_res s' = n_res s /\ forall x, r <> RResult x).
    { intros off w H lo hi sl t t' r'. unfold n_slice, bool_of. destruct (slice_unset sl).
      - destruct (n_bounds _ _ _ _ _ _ _) eqn:E; [|intros K; discriminate K]. intros K; inversion K; subst. split; [eapply NB; exact E|intros x K'; discriminate K'].
      - destruct (slice_check _ _) as [[|]|]; [| |intros K; discriminate K].
        + destruct (n_bounds _ _ _ _ _ _ _) eqn:E; [|intros K; discriminate K]. intros K; inversion K; subst. split; [eapply NB; exact E|intros x K'; discriminate K'].
        + intros K; inversion K; subst. split; [reflexivity|intros x K'; discriminate K']. }
    assert (NM : forall off w H lo hi n s s', loop n (fun i o => match o with UB => UB | Ok s => n_bounds off w H (mcol lo i) (mcol hi i) (mkSlice (Z.of_nat i) (Z.of_nat i + 1)) s end) (Ok s) = Ok s' -> n_res s' = n_res s).
    { intros off w H lo hi n. induction n as [|n IH]; intros t t' E; cbn in E; [inversion E; reflexivity|].
      destruct (loop n _ _) as [t1|] eqn:E1; [|discriminate E]. rewrite (NB _ _ _ _ _ _ _ _ E). now apply IH. }
    intros E. destruct op; cbn [n_step] in E.
    - inversion E; subst. split; [reflexivity|intros x K; discriminate K].
    - destruct p; [|discriminate E]. inversion E; subst. split; [unfold set_params; destruct (np_hard p); reflexivity|intros x K; discriminate K].
    - destruct (_ && _); [|discriminate E]. inversion E; subst. split; [reflexivity|intros x K; discriminate K].
    - destruct (_ && _); [|discriminate E]. inversion E; subst. split; [reflexivity|intros x K; discriminate K].
    - inversion E; subst. split; [reflexivity|intros x K; discriminate K].
    - inversion E; subst. split; [reflexivity|intros x K; discriminate K].
    - inversion E; subst. split; [reflexivity|intros x K; discriminate K].
    - inversion E; subst. split; [reflexivity|intros x K; discriminate K].
    - destruct dyn_eq; [discriminate E|]. inversion E; subst. split; [reflexivity|intros x K; discriminate K].
    - unfold bool_of, n_bounds_mat in E. destruct (loop _ _ _) eqn:E1; [|discriminate E]. inversion E; subst. split; [eapply NM; exact E1|intros x K; discriminate K].
    - unfold bool_of, n_bounds_mat in E. destruct (loop _ _ _) eqn:E1; [|discriminate E]. inversion E; subst. split; [eapply NM; exact E1|intros x K; discriminate K].
    - inversion E; subst. split; [reflexivity|intros x K; discriminate K].
    - destruct (SL' _ _ _ _ _ _ _ _ _ E) as [E1 E2]. rewrite E1. split; [destruct r; try reflexivity; destruct (E2 r eq_refl)|exact E2].
    - destruct (SL' _ _ _ _ _ _ _ _ _ E) as [E1 E2]. rewrite E1. split; [destruct r; try reflexivity; destruct (E2 r eq_refl)|exact E2].
    - inversion E; subst. split; [reflexivity|intros x K; discriminate K].
    - destruct (n_run _ _ _ _ _ _ _ _) as [s1|] eqn:E1; [|discriminate E]. inversion E; subst. split; [reflexivity|eauto].
  Qed.
  Lemma res_play ops : forall s s' h, n_play junk d ni ne dyn_eq s ops = Ok (s', h) ->
    r_cmd (n_res s') = fold_left (fun m e => match snd e with RResult r => r_cmd r | _ => m end) h (r_cmd (n_res s)).
  Proof.
    induction ops as [|op ops IH]; intros s s' h E; cbn [n_play] in E; [inversion E; reflexivity|].
    destruct (step s op) as [[s1 r]|] eqn:E1; [|discriminate E]. destruct (n_play _ _ _ _ _ s1 ops) as [[s2 h2]|] eqn:E2; [|discriminate E].
    inversion E; subst. rewrite (IH _ _ _ E2). cbn [fold_left snd]. destruct (res_step s op s1 r E1) as [-> _]. now destruct r.
  Qed.
  Lemma res_last s h : reached s h -> r_cmd (n_res s) = last_cmd nu h.
  Proof.
    intros (ops & Z & E). unfold n_life in E. destruct (n_new d) as [s1|] eqn:E1; [|discriminate E]. rewrite (res_play ops s1 s h E).
    unfold n_new in E1. destruct (_ && _); [|discriminate E1]. inversion E1; subst. reflexivity.
  Qed.
  (** the command actually applied last is handed out again, with an error status; nothing is undefined; the configuration the
      next optimization works with is the same *)
  Theorem C31_solver_failure s h x0 u0 :
    0 < ch -> ch <= ph -> reached s h -> nop_sized d (NOptimize x0 u0 NThrow : nop F) ->
    exists s' res, step s (NOptimize x0 u0 NThrow) = Ok (s', RResult res) /\
      r_cmd res = last_cmd nu h /\ r_cost res = PInf /\ r_status res = ERROR /\ r_code res = (-1)%Z /\ r_feasible res = false /\
      (forall i j, i <= ph -> j < nx -> ent (q_state (n_seq s')) i j = s0) /\
      (forall i j, i <= ph -> j < ny -> ent (q_output (n_seq s')) i j = s0) /\
      (forall i j, i <= ph -> j < nu -> ent (q_input (n_seq s')) i j = s0) /\
      gm (q_state (n_seq s')) (ph + 1) nx /\ gm (q_output (n_seq s')) (ph + 1) ny /\ gm (q_input (n_seq s')) (ph + 1) nu.
  Proof.
    intros C0 C Hr Hz. pose proof (nreached_NR junk d ni ne dyn_eq C0 C s h Hr) as H.
    assert (Ex : exists s', step s (NOptimize x0 u0 NThrow) = Ok (s', RResult (n_res s'))).
    { cbn. rewrite (run_throw junk d ni ne C0 C s _ x0 u0 H). eauto. }
    destruct Ex as (s' & E). exists s', (n_res s'). refine (conj E _).
    destruct (thrown_obs junk d ni ne dyn_eq C0 C s _ x0 u0 s' _ H E) as (res & E1 & E2 & K1 & K2 & K3 & K4 & K5 & K6). inversion E1 as [E1']. rewrite E1'.
    rewrite K1, (res_last s h Hr), K6. cbn [q_state q_output q_input]. 
    refine (conj eq_refl (conj K3 (conj K4 (conj K2 (conj K5 _))))).
    refine (conj (fun _ _ _ _ => eq_refl) (conj (fun _ _ _ _ => eq_refl) (conj (fun _ _ _ _ => eq_refl) (conj _ (conj _ _))))); repeat split.
  Qed.
  Theorem C31_problem_unchanged s h x0 u0 s' r x1 u1 :
    0 < ch -> ch <= ph -> reached s h -> step s (NOptimize x0 u0 NThrow) = Ok (s', r) ->
    let a := call s x1 u1 in let b := call s' x1 u1 in
    nc_lo b = nc_lo a /\ nc_hi b = nc_hi a /\ nc_par b = nc_par a /\ nc_obj b = nc_obj a /\ nc_cons b = nc_cons a /\
    (* a first optimization remains a first one: it is started from the constants again *)
    (existsb solved_event h = false -> nop_sized d (NOptimize x0 u0 NThrow : nop F) -> (forall j, j < nu -> k_su (cf h) j <> s0) ->
      (forall i j, i < ph -> j < nx -> dvar (nc_guess b) (i * nx + j) = ent x1 j 0) /\
      (forall b' j, b' < ch -> j < nu -> dvar (nc_guess b) (ph * nx + (b' * nu + j)) = ent u1 j 0)).
  Proof.
    intros C0 C Hr E a b. pose proof (nreached_NR junk d ni ne dyn_eq C0 C s h Hr) as H. pose proof E as E'.
    apply run_ok in E as [R ->]. rewrite (run_throw junk d ni ne C0 C s _ x0 u0 H) in R.
    assert (Es : s' = with_run (n_start d s x0 u0) (n_first s) (n_slack s) (mkRes (-1) false PInf ERROR (r_cmd (n_res s)))
           (mkSeq (mzero (ph + 1) nx) (mzero (ph + 1) ny) (mzero (ph + 1) nu)) s) by (inversion R; reflexivity).
    refine (conj _ (conj _ (conj _ (conj _ (conj _ _))))); try (unfold a, b; rewrite Es; reflexivity).
    intros Hs Hz Su. set (e := (NOptimize x0 u0 NThrow, RResult (n_res s'))).
    assert (Hr' : reached s' (h ++ [e])).
    { destruct Hr as (ops & Z & P). exists (ops ++ [NOptimize x0 u0 NThrow]). split; [now apply Forall_app; split; [|constructor]|].
      unfold n_life in *. destruct (n_new d) as [t|]; [|discriminate P]. clear - P E'. revert t s h P E'. 
      induction ops as [|op ops IH]; intros t s h P E'; cbn [n_play app] in *.
      - inversion P; subst. rewrite E'. reflexivity.
      - destruct (step t op) as [[t1 r1]|]; [|discriminate P]. destruct (n_play _ _ _ _ _ t1 ops) as [[t2 h2]|] eqn:E2; [|discriminate P]. inversion P; subst.
        rewrite (IH t1 s h2 E2 E'). reflexivity. }
    assert (Hc : k_su (cf (h ++ [e])) = k_su (cf h)) by (unfold ncfg_run; rewrite fold_left_app; reflexivity).
    destruct (C30_cold_start s' (h ++ [e]) x1 u1 C0 C Hr') as (_ & A1 & A2 & _).
    - now rewrite Hc.
    - left. now rewrite existsb_app, Hs.
    - split; assumption.
  Qed.

  (** *** C32: the codes are those of nlopt.h: -1 failure, -2 invalid arguments, -3 out of memory, -4 roundoff limited, -5 forced stop, 1 success, 2 stopval,
      3 ftol, 4 xtol, 5 maxeval, 6 maxtime reached *)
  Theorem C32_status s h x0 u0 z code cost s' r :
    0 < ch -> ch <= ph -> reached s h -> gm x0 nx 1 ->
    step s (NOptimize x0 u0 (NSolved z code cost)) = Ok (s', r) ->
    exists res, r = RResult res /\ r_code res = code /\ r_cost res = cost /\
      (r_status res = SUCCESS <-> code = 1%Z \/ code = 2%Z \/ code = 3%Z \/ code = 4%Z) /\
      (r_status res = MAX_ITERATION <-> code = 5%Z \/ code = 6%Z) /\
      (r_status res = ERROR <-> code = (-1)%Z \/ code = (-2)%Z \/ code = (-3)%Z \/ code = (-4)%Z \/ code = (-5)%Z) /\
      r_status res <> INFEASIBLE.
  Proof.
    intros C0 C Hr G E. pose proof (nreached_NR junk d ni ne dyn_eq C0 C s h Hr) as H.
    apply run_ok in E as [R ->]. exists (n_res s').
    pose proof (has_eq_ne junk d ni ne C0 C s _ x0 u0 z code cost s' H R) as He.
    rewrite (run_solved junk d ni ne C0 C s _ x0 u0 z code cost H G He) in R. inversion R; subst s'; clear R.
    cbn -[n_status]. refine (conj eq_refl (conj eq_refl (conj eq_refl _))). clear. unfold n_status.
    change (-1)%Z with NLOPT_FAILURE. change (-2)%Z with NLOPT_INVALID_ARGS. change (-3)%Z with NLOPT_OUT_OF_MEMORY. change (-4)%Z with NLOPT_ROUNDOFF_LIMITED. change (-5)%Z with NLOPT_FORCED_STOP.
    change 1%Z with NLOPT_SUCCESS. change 2%Z with NLOPT_STOPVAL_REACHED. change 3%Z with NLOPT_FTOL_REACHED. change 4%Z with NLOPT_XTOL_REACHED. change 5%Z with NLOPT_MAXEVAL_REACHED. change 6%Z with NLOPT_MAXTIME_REACHED.
    assert (K : forall a, (code =? a)%Z = true <-> code = a) by (intros; apply Z.eqb_eq).
    destruct (Z.eqb_spec code NLOPT_FAILURE), (Z.eqb_spec code NLOPT_INVALID_ARGS), (Z.eqb_spec code NLOPT_OUT_OF_MEMORY), (Z.eqb_spec code NLOPT_ROUNDOFF_LIMITED),
      (Z.eqb_spec code NLOPT_FORCED_STOP); cbn [orb];
      try (subst code; refine (conj _ (conj _ (conj _ _))); [split; [intros K'; discriminate K'|unfold NLOPT_FAILURE, NLOPT_INVALID_ARGS, NLOPT_OUT_OF_MEMORY, NLOPT_ROUNDOFF_LIMITED, NLOPT_FORCED_STOP, NLOPT_SUCCESS, NLOPT_STOPVAL_REACHED, NLOPT_FTOL_REACHED, NLOPT_XTOL_REACHED in *; lia]|split; [intros K'; discriminate K'|unfold NLOPT_FAILURE, NLOPT_INVALID_ARGS, NLOPT_OUT_OF_MEMORY, NLOPT_ROUNDOFF_LIMITED, NLOPT_FORCED_STOP, NLOPT_MAXEVAL_REACHED, NLOPT_MAXTIME_REACHED in *; lia]|split; [intros _; auto 10|reflexivity]|intros K'; discriminate K']; fail).
    destruct (Z.eqb_spec code NLOPT_SUCCESS), (Z.eqb_spec code NLOPT_STOPVAL_REACHED), (Z.eqb_spec code NLOPT_FTOL_REACHED), (Z.eqb_spec code NLOPT_XTOL_REACHED); cbn [orb];
      try (subst code; refine (conj _ (conj _ (conj _ _))); [split; [intros _; auto 10|reflexivity]|split; [intros K'; discriminate K'|unfold NLOPT_SUCCESS, NLOPT_STOPVAL_REACHED, NLOPT_FTOL_REACHED, NLOPT_XTOL_REACHED, NLOPT_MAXEVAL_REACHED, NLOPT_MAXTIME_REACHED in *; lia]|split; [intros K'; discriminate K'|tauto]|intros K'; discriminate K']; fail).
    destruct (Z.eqb_spec code NLOPT_MAXEVAL_REACHED), (Z.eqb_spec code NLOPT_MAXTIME_REACHED); cbn [orb];
      (refine (conj _ (conj _ (conj _ _))); [split; [intros K'; discriminate K'|tauto]|split; [try tauto; intros K'; discriminate K'|try reflexivity; tauto]|split; [intros K'; discriminate K'|tauto]|intros K'; discriminate K']).
  Qed.

  (** *** C33 *)
  (** the slack is bounded by [0, 0] in every reachable state *)
  Theorem C33_slack_always_zero s h x0 u0 z :
    0 < ch -> ch <= ph -> reached s h ->
    nth (ph * nx + nu * ch) (nc_lo (call s x0 u0)) PInf = Fin s0 /\ nth (ph * nx + nu * ch) (nc_hi (call s x0 u0)) MInf = Fin s0 /\
    (in_box d (call s x0 u0) z -> dvar z (ph * nx + nu * ch) = s0).
  Proof.
    intros C0 C Hr. pose proof (nreached_NR junk d ni ne dyn_eq C0 C s h Hr) as H.
    destruct (nr_lb d s _ H) as (Gl & Xl & Ul & El). destruct (nr_ub d s _ H) as (Gu & Xu & Uu & Eu).
    cbn [nc_lo nc_hi n_call]. rewrite (nr_slb d s _ H), (nr_sub d s _ H). refine (conj _ (conj _ _)).
    - rewrite elst_nth; [exact El|]. destruct Gl as (-> & _). unfold n_dec. lia.
    - rewrite elst_nth; [exact Eu|]. destruct Gu as (-> & _). unfold n_dec. lia.
    - intros B. now apply (C23_box junk d ni ne dyn_eq s h x0 u0 z C0 C Hr) in B as (_ & _ & B).
  Qed.

  (** *** C34 *)
  Lemma par_frame l : forall c : ncfg F, no_params l -> k_par (fold_left (ncfg_step d ni ne) l c) = k_par c.
  Proof.
    induction l as [|[op r] l IH]; intros c Hn; cbn [fold_left]; [reflexivity|]. rewrite IH by (intros p r' I; apply (Hn p r'); now right).
    destruct op; try reflexivity; try (destruct acc; reflexivity); try (destruct r as [[]| | |]; reflexivity); try (destruct a; reflexivity).
    destruct (Hn p r). now left.
  Qed.
  Lemma tlim_run l : forall c : ncfg F, sp_maxtime (k_par (fold_left (ncfg_step d ni ne) l c)) =
    fold_left (fun t e => match fst e with NSetParams (NPNonLinear p) => if sltb s0 (np_tlim p) then np_tlim p else t | _ => t end) l (sp_maxtime (k_par c)).
  Proof.
    induction l as [|[op r] l IH]; intros c; cbn [fold_left]; [reflexivity|]. rewrite IH. f_equal. cbn [fst].
    destruct op; try reflexivity; try (destruct acc; reflexivity); try (destruct r as [[]| | |]; reflexivity); try (destruct a; reflexivity).
    destruct p; reflexivity.
  Qed.
  (** all but the time limit are those of the last call; the time limit is the last positive one ever given *)
  Theorem C34_parameters s h1 p r h2 x0 u0 :
    0 < ch -> ch <= ph -> reached s (h1 ++ (NSetParams (NPNonLinear p), r) :: h2) -> no_params h2 ->
    let q := nc_par (call s x0 u0) in
    sp_maxeval q = np_maxit p /\ sp_rftol q = np_rftol p /\ sp_rxtol q = np_rxtol p /\ sp_aftol q = np_aftol p /\ sp_axtol q = np_axtol p /\
    sp_maxtime q = last_time_limit (h1 ++ (NSetParams (NPNonLinear p), r) :: h2) /\
    ((s0 < np_tlim p)%S -> sp_maxtime q = np_tlim p).
  Proof.
    intros C0 C Hr Hn q. pose proof (nreached_NR junk d ni ne dyn_eq C0 C s _ Hr) as H.
    assert (Eq : q = k_par (cf (h1 ++ (NSetParams (NPNonLinear p), r) :: h2))) by exact (nr_par d s _ H).
    assert (Ep : q = par_of p (k_par (cf h1))). { rewrite Eq. unfold ncfg_run. rewrite fold_left_app. cbn [fold_left]. rewrite par_frame by exact Hn. reflexivity. }
    assert (Et : sp_maxtime q = last_time_limit (h1 ++ (NSetParams (NPNonLinear p), r) :: h2)).
    { rewrite Eq. unfold ncfg_run. rewrite tlim_run. reflexivity. }
    refine (conj _ (conj _ (conj _ (conj _ (conj _ (conj Et _)))))); try (rewrite Ep; reflexivity).
    intros Hp. rewrite Ep. cbn. unfold slt in Hp. now rewrite Hp.
  Qed.
  (** before any call: the defaults *)
  Theorem C34_defaults s h x0 u0 : 0 < ch -> ch <= ph -> reached s h -> no_params h ->
    nc_par (call s x0 u0) = mkSP (sopp s1) (sopp s1) (sopp s1) (sopp s1) s0 100%Z.
  Proof.
    intros C0 C Hr Hn. pose proof (nreached_NR junk d ni ne dyn_eq C0 C s _ Hr) as H.
    transitivity (k_par (cf h)); [exact (nr_par d s _ H)|]. unfold ncfg_run. rewrite par_frame by exact Hn. reflexivity.
  Qed.
  (** the linear controller hands over every field of the last structure *)
  Theorem C34_linear ejunk sl (h1 : list (lop F * ret F)) p (h2 : list (lop F * ret F)) x0 u0 : 0 < ph ->
    SpecLMPC.reached junk ejunk d sl (h1 ++ (LSetParams (PLinear p), RVoid) :: h2) -> (forall p' r', ~ In (LSetParams p', r') h2) ->
    cl_par (l_call d sl x0 u0) = p.
  Proof.
    intros P Hr Hn. pose proof (reached_R _ _ _ _ _ P Hr) as HR. cbn [l_call cl_par]. rewrite (ro_par _ _ _ (r_o _ _ _ _ _ HR)).
    unfold cfg_run. rewrite fold_left_app. cbn [fold_left]. 
    assert (K : forall l c, (forall p' r', ~ In (LSetParams p' : lop F, r') l) -> g_par (fold_left cfg_step l c) = g_par c).
    { induction l as [|[op r1] l IH]; intros c Hl; cbn [fold_left]; [reflexivity|]. rewrite IH by (intros p' r' I; apply (Hl p' r'); now right).
      destruct op; try (destruct r1 as [[]| | |]; reflexivity). destruct (Hl p0 r1). now left. }
    rewrite K by exact Hn. reflexivity.
  Qed.

  (** *** C35 *)
  Lemma n_slice_ret off w H lo hi sl s s' r : n_slice off w H lo hi sl s = Ok (s', r) ->
    (r = RBool true \/ r = RBool false) /\ (r = RBool true <-> accepted H sl) /\ (r = RBool false -> s' = s).
  Proof.
    unfold n_slice, bool_of, accepted. destruct (slice_unset sl) eqn:U.
    - destruct (n_bounds _ _ _ _ _ _ _); intros E; [|discriminate E]. inversion E; subst. refine (conj (or_introl eq_refl) (conj _ _)); [tauto|intros K; discriminate K].
    - destruct (slice_check (Z.of_nat H) sl) as [b|] eqn:K; [|intros E; discriminate E].
      assert (Kb : b = true <-> (sl_start sl < sl_end sl /\ sl_start sl <= Z.of_nat H /\ sl_end sl <= Z.of_nat H /\ sl_start sl + sl_end sl <= Z.of_nat H)%Z).
      { unfold slice_check in K. rewrite Z.geb_leb, !Z.gtb_ltb in K.
        destruct (Z.leb_spec (sl_end sl) (sl_start sl)); [inversion K; split; [intros K'; discriminate K'|lia]|].
        destruct (Z.ltb_spec (Z.of_nat H) (sl_start sl)); [inversion K; split; [intros K'; discriminate K'|lia]|].
        destruct (Z.ltb_spec (Z.of_nat H) (sl_end sl)); [inversion K; split; [intros K'; discriminate K'|lia]|].
        destruct (is_int _); [|discriminate K]. inversion K. destruct (Z.ltb_spec (Z.of_nat H) (sl_start sl + sl_end sl)); cbn; [split; [intros K'; discriminate K'|lia]|split; [lia|reflexivity]]. }
      destruct b.
      + destruct (n_bounds _ _ _ _ _ _ _); intros E; [|discriminate E]. inversion E; subst. refine (conj (or_introl eq_refl) (conj _ _)); [tauto|intros K'; discriminate K'].
      + intros E; inversion E; subst. refine (conj (or_intror eq_refl) (conj _ (fun _ => eq_refl))). split; [intros K'; discriminate K'|]. intros [K'|K']; [discriminate K'|]. apply Kb in K'. discriminate K'.
  Qed.
  (** what the solver gets, by position *)
  Definition lo_x s x0 u0 k j := nth (k * nx + j) (nc_lo (call s x0 u0)) PInf.
  Definition hi_x s x0 u0 k j := nth (k * nx + j) (nc_hi (call s x0 u0)) MInf.
  Definition lo_u s x0 u0 k j := nth (ph * nx + (k * nu + j)) (nc_lo (call s x0 u0)) PInf.
  Definition hi_u s x0 u0 k j := nth (ph * nx + (k * nu + j)) (nc_hi (call s x0 u0)) MInf.
  Lemma bounds_at s c x0 u0 : 0 < ch -> ch <= ph -> NR d s c ->
    (forall k j, k < ph -> j < nx -> lo_x s x0 u0 k j = k_xlo c k j /\ hi_x s x0 u0 k j = k_xhi c k j) /\
    (forall k j, k < ch -> j < nu -> lo_u s x0 u0 k j = k_ulo c k j /\ hi_u s x0 u0 k j = k_uhi c k j).
  Proof.
    intros C0 C H. destruct (nr_lb d s _ H) as (Gl & Xl & Ul & El). destruct (nr_ub d s _ H) as (Gu & Xu & Uu & Eu).
    unfold lo_x, hi_x, lo_u, hi_u. cbn [nc_lo nc_hi n_call]. rewrite (nr_slb d s _ H), (nr_sub d s _ H). destruct Gl as (Rl & _). destruct Gu as (Ru & _).
    split; intros k j Hk Hj.
    - pose proof (blk_lt k ph nx j Hk Hj). rewrite !elst_nth by (rewrite ?Rl, ?Ru; unfold n_dec; lia).
      specialize (Xl k j Hk Hj). specialize (Xu k j Hk Hj). unfold v_state in Xl, Xu. replace (S k - 1) with k in Xl, Xu by lia. auto.
    - pose proof (blk_lt k ch nu j Hk Hj). rewrite !elst_nth by (rewrite ?Rl, ?Ru; unfold n_dec; lia). split; [now apply Ul|now apply Uu].
  Qed.
  Theorem C35_state_bounds s h lo hi sl s' r x0 u0 :
    0 < ch -> ch <= ph -> reached s h -> gm lo nx 1 -> gm hi nx 1 -> step s (NSetStateBounds lo hi sl) = Ok (s', r) ->
    (r = RBool true \/ r = RBool false) /\ (r = RBool true <-> accepted ph sl) /\
    (r = RBool false -> call s' x0 u0 = call s x0 u0) /\
    (r = RBool true ->
      (forall k j, k < ph -> j < nx -> nl_sel ph sl k = true -> lo_x s' x0 u0 k j = ent lo j 0 /\ hi_x s' x0 u0 k j = ent hi j 0) /\
      (forall k j, k < ph -> j < nx -> nl_sel ph sl k = false -> lo_x s' x0 u0 k j = lo_x s x0 u0 k j /\ hi_x s' x0 u0 k j = hi_x s x0 u0 k j) /\
      (forall k j, k < ch -> j < nu -> lo_u s' x0 u0 k j = lo_u s x0 u0 k j /\ hi_u s' x0 u0 k j = hi_u s x0 u0 k j)).
  Proof.
    intros C0 C Hr G1 G2 E. pose proof (nreached_NR junk d ni ne dyn_eq C0 C s h Hr) as H.
    pose proof (NR_step junk d ni ne dyn_eq C0 C s (cf h) (NSetStateBounds lo hi sl) s' r H (conj G1 G2) E) as H'.
    destruct (n_slice_ret _ _ _ _ _ _ _ _ _ E) as (A1 & A2 & A3). refine (conj A1 (conj A2 (conj _ _))).
    - intros K. now rewrite (A3 K).
    - intros ->. cbn [ncfg_step ncfg_apply] in H'. destruct (bounds_at s _ x0 u0 C0 C H) as [B1 B2]. destruct (bounds_at s' _ x0 u0 C0 C H') as [B1' B2'].
      cbn [k_xlo k_xhi k_ulo k_uhi kset_bounds] in B1', B2'. refine (conj _ (conj _ _)).
      + intros k j Hk Hj K. destruct (B1' k j Hk Hj) as [-> ->]. unfold put, vec. rewrite K. auto.
      + intros k j Hk Hj K. destruct (B1' k j Hk Hj) as [-> ->]. destruct (B1 k j Hk Hj) as [-> ->]. unfold put. rewrite K. auto.
      + intros k j Hk Hj. destruct (B2' k j Hk Hj) as [-> ->]. destruct (B2 k j Hk Hj) as [-> ->]. auto.
  Qed.
  Theorem C35_input_bounds s h lo hi sl s' r x0 u0 :
    0 < ch -> ch <= ph -> reached s h -> gm lo nu 1 -> gm hi nu 1 -> step s (NSetInputBounds lo hi sl) = Ok (s', r) ->
    (r = RBool true \/ r = RBool false) /\ (r = RBool true <-> accepted ch sl) /\
    (r = RBool false -> call s' x0 u0 = call s x0 u0) /\
    (r = RBool true ->
      (forall k j, k < ch -> j < nu -> nl_sel ch sl k = true -> lo_u s' x0 u0 k j = ent lo j 0 /\ hi_u s' x0 u0 k j = ent hi j 0) /\
      (forall k j, k < ch -> j < nu -> nl_sel ch sl k = false -> lo_u s' x0 u0 k j = lo_u s x0 u0 k j /\ hi_u s' x0 u0 k j = hi_u s x0 u0 k j) /\
      (forall k j, k < ph -> j < nx -> lo_x s' x0 u0 k j = lo_x s x0 u0 k j /\ hi_x s' x0 u0 k j = hi_x s x0 u0 k j)).
  Proof.
    intros C0 C Hr G1 G2 E. pose proof (nreached_NR junk d ni ne dyn_eq C0 C s h Hr) as H.
    pose proof (NR_step junk d ni ne dyn_eq C0 C s (cf h) (NSetInputBounds lo hi sl) s' r H (conj G1 G2) E) as H'.
    destruct (n_slice_ret _ _ _ _ _ _ _ _ _ E) as (A1 & A2 & A3). refine (conj A1 (conj A2 (conj _ _))).
    - intros K. now rewrite (A3 K).
    - intros ->. cbn [ncfg_step ncfg_apply] in H'. destruct (bounds_at s _ x0 u0 C0 C H) as [B1 B2]. destruct (bounds_at s' _ x0 u0 C0 C H') as [B1' B2'].
      cbn [k_xlo k_xhi k_ulo k_uhi kset_bounds] in B1', B2'. refine (conj _ (conj _ _)).
      + intros k j Hk Hj K. destruct (B2' k j Hk Hj) as [-> ->]. unfold put, vec. rewrite K. auto.
      + intros k j Hk Hj K. destruct (B2' k j Hk Hj) as [-> ->]. destruct (B2 k j Hk Hj) as [-> ->]. unfold put. rewrite K. auto.
      + intros k j Hk Hj. destruct (B1' k j Hk Hj) as [-> ->]. destruct (B1 k j Hk Hj) as [-> ->]. auto.
  Qed.
  (** whole-horizon matrices *)
  Theorem C35_matrices s h lo hi s' r x0 u0 :
    0 < ch -> ch <= ph -> reached s h -> gm lo nx ph -> gm hi nx ph -> step s (NSetStateBoundsMat lo hi) = Ok (s', r) ->
    r = RBool true /\
    (forall k j, k < ph -> j < nx -> lo_x s' x0 u0 k j = ent lo j k /\ hi_x s' x0 u0 k j = ent hi j k) /\
    (forall k j, k < ch -> j < nu -> lo_u s' x0 u0 k j = lo_u s x0 u0 k j /\ hi_u s' x0 u0 k j = hi_u s x0 u0 k j).
  Proof.
    intros C0 C Hr G1 G2 E. pose proof (nreached_NR junk d ni ne dyn_eq C0 C s h Hr) as H.
    pose proof (NR_step junk d ni ne dyn_eq C0 C s (cf h) (NSetStateBoundsMat lo hi) s' r H (conj G1 G2) E) as H'.
    assert (R : r = RBool true). { cbn in E. unfold bool_of in E. destruct (n_bounds_mat _ _ _ _ _ _); [|discriminate E]. inversion E. reflexivity. }
    subst r. cbn [ncfg_step ncfg_apply] in H'. destruct (bounds_at s _ x0 u0 C0 C H) as [B1 B2]. destruct (bounds_at s' _ x0 u0 C0 C H') as [B1' B2'].
    cbn [k_xlo k_xhi k_ulo k_uhi kset_bounds] in B1', B2'. refine (conj eq_refl (conj _ _)).
    - intros k j Hk Hj. destruct (B1' k j Hk Hj) as [-> ->]. split; reflexivity.
    - intros k j Hk Hj. destruct (B2' k j Hk Hj) as [-> ->]. destruct (B2 k j Hk Hj) as [-> ->]. auto.
  Qed.
  Theorem C35_input_matrices s h lo hi s' r x0 u0 :
    0 < ch -> ch <= ph -> reached s h -> gm lo nu ch -> gm hi nu ch -> step s (NSetInputBoundsMat lo hi) = Ok (s', r) ->
    r = RBool true /\
    (forall k j, k < ch -> j < nu -> lo_u s' x0 u0 k j = ent lo j k /\ hi_u s' x0 u0 k j = ent hi j k) /\
    (forall k j, k < ph -> j < nx -> lo_x s' x0 u0 k j = lo_x s x0 u0 k j /\ hi_x s' x0 u0 k j = hi_x s x0 u0 k j).
  Proof.
    intros C0 C Hr G1 G2 E. pose proof (nreached_NR junk d ni ne dyn_eq C0 C s h Hr) as H.
    pose proof (NR_step junk d ni ne dyn_eq C0 C s (cf h) (NSetInputBoundsMat lo hi) s' r H (conj G1 G2) E) as H'.
    assert (R : r = RBool true). { cbn in E. unfold bool_of in E. destruct (n_bounds_mat _ _ _ _ _ _); [|discriminate E]. inversion E. reflexivity. }
    subst r. cbn [ncfg_step ncfg_apply] in H'. destruct (bounds_at s _ x0 u0 C0 C H) as [B1 B2]. destruct (bounds_at s' _ x0 u0 C0 C H') as [B1' B2'].
    cbn [k_xlo k_xhi k_ulo k_uhi kset_bounds] in B1', B2'. refine (conj eq_refl (conj _ _)).
    - intros k j Hk Hj. destruct (B2' k j Hk Hj) as [-> ->]. split; reflexivity.
    - intros k j Hk Hj. destruct (B1' k j Hk Hj) as [-> ->]. destruct (B1 k j Hk Hj) as [-> ->]. auto.
  Qed.
End Stmts.

(** *** Instances and refutations *)
Definition n_warm_ops : list (nop Qc) := n_ops ++ [n_opt_op; NOptimize n_x0 n_u0 NThrow].
Example n_warm_reached : nreached qj nd 2 1 false (nS nd 2 1 n_warm_ops) (nH nd 2 1 n_warm_ops).
Proof. n_reach. Qed.
Lemma play_split ops1 : forall op ops2 s s' h, n_play qj nd 2 1 false s (ops1 ++ op :: ops2) = Ok (s', h) ->
  exists s1 h1 r h2, n_play qj nd 2 1 false s ops1 = Ok (s1, h1) /\ h = h1 ++ (op, r) :: h2 /\ map fst h2 = ops2.
Proof.
  assert (M : forall ops s s' h, n_play qj nd 2 1 false s ops = Ok (s', h) -> map fst h = ops).
  { induction ops as [|op ops IH]; intros s s' h E; cbn [n_play] in E; [inversion E; reflexivity|].
    destruct (n_step _ _ _ _ _ _ _) as [[s1 r]|]; [|discriminate E]. destruct (n_play _ _ _ _ _ s1 ops) as [[s2 h2]|] eqn:E2; [|discriminate E].
    inversion E; subst. cbn [map fst]. now rewrite (IH _ _ _ E2). }
  induction ops1 as [|o ops1 IH]; intros op ops2 s s' h E; cbn [app n_play] in E |- *.
  - destruct (n_step _ _ _ _ _ _ _) as [[s1 r]|]; [|discriminate E]. destruct (n_play _ _ _ _ _ s1 ops2) as [[s2 h2]|] eqn:E2; [|discriminate E].
    inversion E; subst. exists s, [], r, h2. refine (conj eq_refl (conj eq_refl _)). eapply M. exact E2.
  - destruct (n_step _ _ _ _ _ _ _) as [[s1 r]|]; [|discriminate E]. destruct (n_play _ _ _ _ _ s1 (ops1 ++ op :: ops2)) as [[s2 h2]|] eqn:E2; [|discriminate E].
    inversion E; subst. destruct (IH _ _ _ _ _ E2) as (s3 & h3 & r3 & h4 & -> & -> & A). exists s3, ((o, r) :: h3), r3, h4. auto.
Qed.
(** the history of a run whose calls split is split likewise *)
Lemma run_split ops1 op ops2 : is_ok (n_life qj nd 2 1 false (ops1 ++ op :: ops2)) = true ->
  exists r h2, nH nd 2 1 (ops1 ++ op :: ops2) = nH nd 2 1 ops1 ++ (op, r) :: h2 /\ map fst h2 = ops2.
Proof.
  unfold nH, n_life. destruct (n_new nd) as [s|]; [|intros K; discriminate K].
  destruct (n_play qj nd 2 1 false s (ops1 ++ op :: ops2)) as [[s' h]|] eqn:E; [|intros K; discriminate K]. intros _.
  destruct (play_split _ _ _ _ _ _ E) as (s1 & h1 & r & h2 & -> & -> & A). exists r, h2. auto.
Qed.
(** histories have the shape required by C30_warm_start *)
Lemma warm_shape : exists r h2, nH nd 2 1 n_warm_ops = nH nd 2 1 n_ops ++ (n_opt_op, r) :: h2 /\ map fst h2 = [NOptimize n_x0 n_u0 NThrow].
Proof. apply run_split. vm_compute. reflexivity. Qed.
Example C30_instance : 0 < d_ch nd /\ d_ch nd <= d_ph nd /\
  (exists r h2, nreached qj nd 2 1 false (nS nd 2 1 n_warm_ops) (nH nd 2 1 n_ops ++ (n_opt_op, r) :: h2) /\ retained (k_warm (ncfg_run nd 2 1 (nH nd 2 1 n_ops))) h2 = true /\
     k_warm (ncfg_run nd 2 1 (nH nd 2 1 n_ops ++ (n_opt_op, r) :: h2)) = true) /\
  (forall j, j < d_nu nd -> k_su (ncfg_run nd 2 1 (nH nd 2 1 n_ops)) j <> s0) /\ existsb solved_event (nH nd 2 1 n_ops) = false.
Proof.
  refine (conj nd_ch (conj nd_ph (conj _ (conj _ _)))).
  - destruct warm_shape as (r & h2 & E & A). exists r, h2. rewrite <- E. refine (conj n_warm_reached (conj _ _)).
    + assert (W : k_warm (ncfg_run nd 2 1 (nH nd 2 1 n_ops)) = true) by (vm_compute; reflexivity). rewrite W.
      destruct h2 as [|[o r'] [|]]; cbn [map fst] in A; try discriminate A. assert (o = NOptimize n_x0 n_u0 NThrow) as -> by congruence. reflexivity.
    + vm_compute. reflexivity.
  - intros j Hj E. destruct j; [|cbn in Hj; lia]. apply (f_equal (fun x => sleb x s0)) in E. vm_compute in E. discriminate E.
  - vm_compute. reflexivity.
Qed.
(** C30 as intended for the cold start: the commands shown to the user functions at the starting point are the last command *)
Theorem C30_intended_refuted :
  ~ (forall d ni ne s h x0 u0, 0 < d_ch d -> d_ch d <= d_ph d -> nreached qj d ni ne false s h -> gm x0 (d_nx d) 1 -> gm u0 (d_nu d) 1 -> scaled d (ncfg_run d ni ne h) ->
       existsb solved_event h = false -> (forall j, j < d_nu d -> k_su (ncfg_run d ni ne h) j <> s0) ->
       forall i j, i <= d_ph d -> j < d_nu d -> u_traj d (ncfg_run d ni ne h) (dvar (nc_guess (n_call qj d ni ne s x0 u0))) i j = ent u0 j 0).
Proof.
  intros H. destruct C30_instance as (_ & _ & _ & Su & Hs).
  assert (K := H nd 2 1 _ _ n_x0 n_u0 nd_ch nd_ph n_ops_reached ltac:(repeat split) ltac:(repeat split) n_c_scaled Hs Su 0 0 ltac:(cbn; lia) ltac:(cbn; lia)).
  destruct (C30_cold_start qj nd 2 1 false _ _ n_x0 n_u0 nd_ch nd_ph n_ops_reached Su (or_introl Hs)) as (_ & _ & _ & _ & E).
  rewrite (E 0 0) in K by (cbn; lia). apply (f_equal (fun x => sleb x (q 1))) in K. vm_compute in K. discriminate K.
Qed.
(** C33 as intended: hard_constraints = false frees the slack *)
Theorem C33_intended_refuted :
  ~ (forall d ni ne s h p s' r x0 u0, 0 < d_ch d -> d_ch d <= d_ph d -> nreached qj d ni ne false s h -> np_hard p = false ->
       n_step qj d ni ne false s (NSetParams (NPNonLinear p)) = Ok (s', r) ->
       exists e, (s0 < e)%S /\ within (nth (v_slack d) (nc_lo (n_call qj d ni ne s' x0 u0)) PInf) (nth (v_slack d) (nc_hi (n_call qj d ni ne s' x0 u0)) MInf) e).
Proof.
  intros H. set (p := mkNP 50 (q 9) true (q 1) (q 1) (q 1) (q 1) false).
  destruct (H nd 2 1 _ _ p _ _ n_x0 n_u0 nd_ch nd_ph n_ops_reached eq_refl eq_refl) as (e & E1 & E2).
  assert (A : nth (v_slack nd) (nc_lo (n_call qj nd 2 1 (set_params nd p (nS nd 2 1 n_ops)) n_x0 n_u0)) PInf = Fin (q 0)) by (vm_compute; reflexivity).
  assert (B : nth (v_slack nd) (nc_hi (n_call qj nd 2 1 (set_params nd p (nS nd 2 1 n_ops)) n_x0 n_u0)) MInf = Fin (q 0)) by (vm_compute; reflexivity).
  rewrite A, B in E2. destruct E2 as [_ E2]. cbn in E2. unfold slt in E1. change (q 0) with (s0 : Qc) in E2.
  assert (K : sltb (s0 : Qc) e = false) by (apply sltb_false; exact E2). rewrite K in E1. discriminate E1.
Qed.
(** C34 as intended: the time limit of the last structure is in force (0: none) *)
Definition n_two_limits : list (nop Qc) := n_ops ++ [NSetParams (NPNonLinear (mkNP 70 (q 0) true (q 1) (q 1) (q 1) (q 1) true))].
Theorem C34_intended_refuted :
  ~ (forall d ni ne s h p s' r x0 u0, 0 < d_ch d -> d_ch d <= d_ph d -> nreached qj d ni ne false s h ->
       n_step qj d ni ne false s (NSetParams (NPNonLinear p)) = Ok (s', r) -> sp_maxtime (nc_par (n_call qj d ni ne s' x0 u0)) = np_tlim p).
Proof.
  intros H. assert (K := H nd 2 1 _ _ (mkNP 70 (q 0) true (q 1) (q 1) (q 1) (q 1) true) _ _ n_x0 n_u0 nd_ch nd_ph n_ops_reached eq_refl).
  apply (f_equal (fun x => sleb x (q 1))) in K. vm_compute in K. discriminate K.
Qed.
Example C34_instance : exists r h2, nreached qj nd 2 1 false (nS nd 2 1 n_two_limits) (nH nd 2 1 n_ops ++ (NSetParams (NPNonLinear (mkNP 70 (q 0) true (q 1) (q 1) (q 1) (q 1) true)), r) :: h2) /\ no_params h2.
Proof.
  assert (K : exists r h2, nH nd 2 1 n_two_limits = nH nd 2 1 n_ops ++ (NSetParams (NPNonLinear (mkNP 70 (q 0) true (q 1) (q 1) (q 1) (q 1) true)), r) :: h2 /\ map fst h2 = []).
  { apply run_split. vm_compute. reflexivity. }
  destruct K as (r & h2 & E & A). exists r, h2. rewrite <- E. destruct h2; [|discriminate A]. split; [n_reach|intros ? ? []].
Qed.
Definition is_true_ret (o : outcome (nmpc Qc * ret Qc)) : bool := match o with Ok (_, RBool true) => true | _ => false end.
Example C35_instance : is_true_ret (n_step qj nd 2 1 false (nS nd 2 1 n_ops) (NSetStateBounds (qe [-1; -2]%Z) (qe [1; 2]%Z) (mkSlice 0 2))) = true /\
  is_true_ret (n_step qj nd 2 1 false (nS nd 2 1 n_ops) (NSetInputBounds (qe [-1]%Z) (qe [1]%Z) (mkSlice 0 1))) = true /\
  nl_sel (d_ph nd) (mkSlice 0 2) 1 = true /\ nl_sel (d_ph nd) (mkSlice 0 2) 2 = false /\ ~ accepted (d_ph nd) (mkSlice 2 3).
Proof.
  refine (conj _ (conj _ (conj eq_refl (conj eq_refl _)))); [vm_compute; reflexivity|vm_compute; reflexivity|].
  unfold accepted. cbn. intros [K|K]; [discriminate K|lia].
Qed.
