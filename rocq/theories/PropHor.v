(** Property C67: the two horizons given to the constructors. *)
From Coq Require Import Bool Arith ZArith List Lia QArith Qcanon.
From Verif Require Import Scalar Sums Mat Slice Builder LMPC SpecLMPC LMPCRef LSeq PropLMPC3 NLMap NLFun NLMPC NLRun Wit PropLMPC1 PropLMPC2.
Import ListNotations.
Local Open Scope nat_scope.

(** a call whose meaning mentions the control horizon in the same way for both lengths *)
Definition horizon_neutral {F} (ch ch' : nat) (op : lop F) : Prop :=
  match op with
  | LSetInputBoundsMat _ _ => False
  | LSetInputBounds _ _ sl => slice_unset sl = false /\ slice_check (Z.of_nat ch) sl = slice_check (Z.of_nat ch') sl
  | LSetExo _ sl => slice_unset sl = true \/ slice_check (Z.of_nat ch) sl = slice_check (Z.of_nat ch') sl
  | _ => True
  end.

Lemma loop_same {S} n (f g : nat -> S -> S) : (forall i s, i < n -> f i s = g i s) -> forall s, loop n f s = loop n g s.
Proof. induction n as [|n IH]; intros H s; cbn [loop]; [reflexivity|]. rewrite IH by auto. apply H. lia. Qed.
Section Hor.
  Context {F : Type} {SO : ScalarOps F}.
  Variable junk : nat -> nat -> F.
  Variable ejunk : nat -> nat -> ext F.

  (** *** LMPC: control horizons from ph - 1 on are one and the same *)
  Section Two.
    Variables nx nu ndu ny ph ch ch' : nat.
    Notation d := (mkDims nx nu ndu ny ph ch).
    Notation d' := (mkDims nx nu ndu ny ph ch').
    Hypothesis L : ph <= S ch.
    Hypothesis L' : ph <= S ch'.
    Lemma build_ineq_ch free eX bY bS prev : build_ineq d free eX bY bS prev = build_ineq d' free eX bY bS prev.
    Proof.
      unfold build_ineq. cbn [d_nx d_nu d_ny d_ph d_ch]. f_equal. apply loop_same. intros i v Hi.
      destruct (Nat.ltb_spec ch i); [lia|]. destruct (Nat.ltb_spec ch' i); [lia|]. reflexivity.
    Qed.
    Lemma build_ch (b : builder F) : build junk ejunk d b = build junk ejunk d' b.
    Proof. unfold build, build_lineq, build_uineq. rewrite !build_ineq_ch. reflexivity. Qed.
    Lemma init_ch : l_init junk ejunk d = l_init junk ejunk d'.
    Proof. unfold l_init, b_init. rewrite build_ch. reflexivity. Qed.
    Lemma fold_ch {A} (f g : nat -> A -> A) : (forall i s, f i s = g i s) -> forall l s, fold_left (fun s i => f i s) l s = fold_left (fun s i => g i s) l s.
    Proof. intros H l. induction l as [|i l IH]; intros s; cbn; [reflexivity|]. rewrite H. apply IH. Qed.
    Lemma on_slice_ch H H' sl w w' o o' (s : lmpc F) :
      (slice_unset sl = true \/ slice_check (Z.of_nat H) sl = slice_check (Z.of_nat H') sl) ->
      (slice_unset sl = true -> forall s, w s = w' s) -> (forall i s, o i s = o' i s) -> on_slice H sl w o s = on_slice H' sl w' o' s.
    Proof.
      intros C W O. unfold on_slice. destruct (slice_unset sl) eqn:U; [now rewrite W|]. destruct C as [C|C]; [discriminate C|]. rewrite C.
      destruct (slice_check (Z.of_nat H') sl) as [[|]|]; try reflexivity. destruct (slice_steps sl) as [l|]; [|reflexivity]. now rewrite (fold_ch o o' O).
    Qed.
    Lemma step_ch (s : lmpc F) op : horizon_neutral ch ch' op -> l_step junk ejunk d s op = l_step junk ejunk d' s op.
    Proof.
      destruct op; intros N; cbn [horizon_neutral] in N; try contradiction; try reflexivity; cbn [l_step d_ph d_ch];
        try (apply on_slice_ch; [tauto|intros Un s'; try (destruct N; congruence)|intros i s']);
        try reflexivity;
        unfold upd_b, b_setStateModel, b_setExogenousInput, b_setStateBoundsMat, b_setOutputBoundsMat, b_setObjectiveMat, b_setStateBoundsStep, b_setInputBoundsStep,
          b_setOutputBoundsStep, b_setObjectiveStep, b_setScalarStep, b_setScalarMat; cbv zeta; rewrite build_ch; reflexivity.
    Qed.
    Theorem C67_lmpc_horizon_irrelevant ops : Forall (horizon_neutral ch ch') ops ->
      l_play junk ejunk d (l_init junk ejunk d) ops = l_play junk ejunk d' (l_init junk ejunk d') ops.
    Proof.
      rewrite <- init_ch. generalize (l_init junk ejunk d). intros s H. revert s. induction H as [|op ops N H IH]; intros s; cbn [l_play]; [reflexivity|].
      rewrite (step_ch s op N). destruct (l_step junk ejunk d' s op) as [[s' r]|]; [|reflexivity]. rewrite IH. reflexivity.
    Qed.
    (** the quadratic programs handed to the solver are the same *)
    Theorem C67_lmpc_same_program ops x0 u0 s h : Forall (horizon_neutral ch ch') ops -> l_play junk ejunk d (l_init junk ejunk d) ops = Ok (s, h) ->
      exists s', l_play junk ejunk d' (l_init junk ejunk d') ops = Ok (s', h) /\ l_call d s x0 u0 = l_call d' s' x0 u0.
    Proof. intros N E. rewrite (C67_lmpc_horizon_irrelevant ops N) in E. exists s. split; [exact E|reflexivity]. Qed.
  End Two.

  (** *** LMPC with a control horizon beyond the prediction horizon: setters that reach there are undefined *)
  Section Long.
    Context {SL : ScalarLaws F}.
    Variable d : dims.
    Lemma steps_in_range mn mx (l : list nat) : forall s : lmpc F,
      mok (minU (b_lim (l_b (fold_left (fun s i => upd_b (b_setInputBoundsStep junk ejunk d i mn mx) s) l s)))) = true -> Forall (fun i => i + 1 <= mcols (minU (b_lim (l_b s)))) l.
    Proof.
      assert (M : forall l (s : lmpc F), mok (minU (b_lim (l_b (fold_left (fun s i => upd_b (b_setInputBoundsStep junk ejunk d i mn mx) s) l s)))) = true -> mok (minU (b_lim (l_b s))) = true).
      { intros l0. induction l0 as [|i l0 IH]; intros s E; [exact E|]. cbn [fold_left] in E. apply IH in E.
        change (mok (set_block (minU (b_lim (l_b s))) 0 i (d_nu d) 1 mn) = true) in E. cbn [set_block mok] in E. rewrite !andb_true_iff in E. tauto. }
      induction l as [|i l IH]; intros s E; constructor; cbn [fold_left] in E.
      - apply M in E. change (mok (set_block (minU (b_lim (l_b s))) 0 i (d_nu d) 1 mn) = true) in E. cbn [set_block mok] in E. rewrite !andb_true_iff, !Nat.leb_le in E. tauto.
      - exact (IH _ E).
    Qed.
    Lemma dist_in_range v (l : list nat) : forall s : lmpc F,
      mok (o_dist (l_o (fold_left (fun s i => set_dist_step i v s) l s))) = true -> Forall (fun i => i + 1 <= mcols (o_dist (l_o s))) l.
    Proof.
      assert (M : forall l (s : lmpc F), mok (o_dist (l_o (fold_left (fun s i => set_dist_step i v s) l s))) = true -> mok (o_dist (l_o s)) = true).
      { intros l0. induction l0 as [|i l0 IH]; intros s E; [exact E|]. cbn [fold_left] in E. apply IH in E.
        change (mok (set_mcol (o_dist (l_o s)) i v) = true) in E. unfold set_mcol in E. cbn [set_block mok] in E. rewrite !andb_true_iff in E. tauto. }
      induction l as [|i l IH]; intros s E; constructor; cbn [fold_left] in E.
      - apply M in E. change (mok (set_mcol (o_dist (l_o s)) i v) = true) in E. unfold set_mcol in E. cbn [set_block mok] in E. rewrite !andb_true_iff, !Nat.leb_le in E. tauto.
      - exact (IH _ E).
    Qed.
    Lemma slice_past sl n : (0 <= sl_start sl < sl_end sl)%Z -> (Z.of_nat n < sl_end sl)%Z -> forall l, slice_steps sl = Some l -> ~ Forall (fun i => i + 1 <= n) l.
    Proof.
      intros [S1 S2] B l. unfold slice_steps. destruct (Z.ltb_spec (sl_start sl) 0); [lia|]. intros E F'. injection E as <-.
      rewrite Forall_forall in F'. specialize (F' (Z.to_nat (sl_end sl) - 1)). rewrite in_seq in F'. lia.
    Qed.
    Lemma valid_not_unset sl : (0 <= sl_start sl < sl_end sl)%Z -> slice_unset sl = false.
    Proof. intros H. unfold slice_unset. apply andb_false_iff. left. apply Z.eqb_neq. lia. Qed.
    Lemma slice_accepted H sl : slice_int sl -> (Z.of_nat H < 1073741824)%Z -> (0 <= sl_start sl < sl_end sl)%Z -> (sl_start sl + sl_end sl <= Z.of_nat H)%Z -> slice_check (Z.of_nat H) sl = Ok true.
    Proof.
      intros I B S A. unfold slice_check. destruct (Z.geb_spec (sl_start sl) (sl_end sl)); [lia|]. destruct (Z.gtb_spec (sl_start sl) (Z.of_nat H)); [lia|].
      destruct (Z.gtb_spec (sl_end sl) (Z.of_nat H)); [lia|]. unfold is_int, int_min, int_max.
      destruct (Z.leb_spec (-2147483648) (sl_start sl + sl_end sl)); [|lia]. destruct (Z.leb_spec (sl_start sl + sl_end sl) 2147483647); [|lia]. cbn [andb].
      destruct (Z.gtb_spec (sl_start sl + sl_end sl) (Z.of_nat H)); [lia|]. reflexivity.
    Qed.
    Theorem C67_input_bounds_past_prediction_undefined s h mn mx sl : 0 < d_ph d -> (Z.of_nat (d_ch d) < 1073741824)%Z -> reached junk ejunk d s h ->
      slice_int sl -> (0 <= sl_start sl)%Z -> (Z.of_nat (d_ph d) < sl_end sl)%Z -> (sl_start sl < sl_end sl)%Z -> (sl_start sl + sl_end sl <= Z.of_nat (d_ch d))%Z ->
      l_step junk ejunk d s (LSetInputBounds mn mx sl) = UB.
    Proof.
      intros P B H I S1 S2 S3 S4. cbn [l_step]. unfold on_slice. rewrite valid_not_unset, slice_accepted by (assumption || lia). 
      destruct (slice_steps sl) as [l|] eqn:E; [|reflexivity]. unfold finish. destruct (l_ok _) eqn:K; [exfalso|reflexivity]. apply l_ok_lim in K. apply steps_in_range in K.
      pose proof (reached_R _ _ _ _ _ P H) as HR. pose proof (rb_sz _ _ _ _ _ (r_b _ _ _ _ _ HR)) as SZ. destruct (bs_lim _ _ SZ) as (V1 & V2 & V3 & V4 & V5 & V6 & _).
      destruct V5 as [_ V5]. rewrite V5 in K. apply (slice_past sl (d_ph d)) in E; [tauto|lia|lia].
    Qed.
    Theorem C67_exogenous_past_prediction_undefined s h v sl : 0 < d_ph d -> (Z.of_nat (d_ch d) < 1073741824)%Z -> reached junk ejunk d s h ->
      slice_int sl -> (0 <= sl_start sl)%Z -> (Z.of_nat (d_ph d) < sl_end sl)%Z -> (sl_start sl < sl_end sl)%Z -> (sl_start sl + sl_end sl <= Z.of_nat (d_ch d))%Z ->
      l_step junk ejunk d s (LSetExo v sl) = UB.
    Proof.
      intros P B H I S1 S2 S3 S4. cbn [l_step]. unfold on_slice. rewrite valid_not_unset, slice_accepted by (assumption || lia). 
      destruct (slice_steps sl) as [l|] eqn:E; [|reflexivity]. unfold finish. destruct (l_ok _) eqn:K; [exfalso|reflexivity].
      unfold l_ok, o_ok in K. rewrite !andb_true_iff in K. destruct K as (_ & (((((_ & K) & _) & _) & _) & _)). apply dist_in_range in K.
      pose proof (reached_R _ _ _ _ _ P H) as HR. destruct (ro_sz _ _ _ (r_o _ _ _ _ _ HR)) as (_ & _ & _ & [_ V]). rewrite V in K. apply (slice_past sl (d_ph d)) in E; [tauto|lia|lia].
    Qed.
  End Long.

End Hor.

(** *** NLMPC: the constructor *)
Section NL.
  Context {F : Type} {SO : ScalarOps F}.
    Context {SM : ScalarMild F}.
    Variable d : dims.
    Lemma set_block_mok {T} (M : mat T) r c h w B : mok (set_block M r c h w B) = true -> mok M = true /\ c + w <= mcols M.
    Proof. cbn [set_block mok]. rewrite !andb_true_iff, !Nat.leb_le. tauto. Qed.
    Lemma inner_jx (S : mat F) ix n : forall st, fst (map_inner d S ix n st) = fst st + n * d_nu d.
    Proof. unfold map_inner. induction n as [|n IH]; intros st; cbn [loop]; [lia|]. specialize (IH st). destruct (loop n _ st) as [jx z]. cbn [fst] in *. lia. Qed.
    Lemma map_loop_ok (S Si z0 u0 : mat F) k : k <= d_ch d -> mcols u0 = d_ph d * d_nu d ->
      let '(ix, jx, z, u) := loop k (map_body d S Si) (0, 0, z0, u0) in
      ix = k * d_nu d /\ (k < d_ch d -> jx = k * d_nu d) /\ mcols u = d_ph d * d_nu d /\ (mok u = true -> k * d_nu d <= d_ph d * d_nu d).
    Proof.
      intros Hk HU. induction k as [|k IH]; cbn [loop]; [repeat split; auto; lia|]. specialize (IH ltac:(lia)).
      destruct (loop k _ _) as [[[ix jx] z] u]. destruct IH as (-> & J & U & K). specialize (J ltac:(lia)). subst jx.
      unfold map_body. pose proof (inner_jx S (k * d_nu d) (map_m d k) (k * d_nu d, z)) as E. destruct (map_inner _ _ _ _ _) as [jx' z']. cbn [fst] in E.
      refine (conj _ (conj _ (conj _ _))); [lia| |exact U|].
      - intros C. rewrite E. unfold map_m. destruct (Nat.eqb_spec k (d_ch d - 1)); lia.
      - intros M. apply set_block_mok in M as [_ M]. rewrite U in M. lia.
    Qed.
    Theorem C67_nlmpc_constructor : 0 < d_nu d -> 0 < d_ch d -> (n_new (F:=F) d = UB <-> d_ph d < d_ch d).
    Proof.
      intros N C. split.
      - intros E. destruct (Nat.lt_ge_cases (d_ph d) (d_ch d)) as [|G]; [assumption|]. rewrite (new_ok d C G) in E. discriminate E.
      - intros G. unfold n_new. destruct (m_ok _ && _) eqn:E; [exfalso|reflexivity]. apply andb_true_iff in E as [E _]. unfold m_ok in E. rewrite !andb_true_iff in E. destruct E as [_ E].
        assert (E' : n_map (n_init (F:=F) d) = map_init d) by reflexivity. rewrite E' in E. clear E'. unfold map_init, compute_mapping in E.
        pose proof (map_loop_ok (map_S d (mones (d_nu d))) (map_Si d (mones (d_nu d))) (mzero (d_ph d * d_nu d) (d_nu d * d_ch d)) (mtrans (mzero (d_ph d * d_nu d) (d_nu d * d_ch d))) (d_ch d) (le_n _) eq_refl) as K.
        destruct (loop (d_ch d) _ _) as [[[ix jx] z] u]. cbn [mp_u2z] in E. destruct K as (_ & _ & _ & K). specialize (K E). nia.
    Qed.
End NL.

(** *** instances *)
(** prediction horizon 3: control horizons 2, 3 and 5 are the same controller *)
Example C67_instance_neutral : 3 <= S 2 /\ 3 <= S 5 /\
  Forall (horizon_neutral 2 5) [LSetModel (qm 1 1 [[1]]%Z) (qm 1 1 [[1]]%Z) (qm 1 1 [[1]]%Z); LSetInputBounds (qe [0]%Z) (qe [1]%Z) (mkSlice 0 2);
    LSetWeights (qv [1]%Z) (qv [1]%Z) (qv [1]%Z) slice_all; LOptimize (qv [1]%Z) (qv [1]%Z) ANoSolution].
Proof. refine (conj _ (conj _ _)); [lia|lia|]. repeat (apply Forall_cons; [cbn; try exact I; try (split; reflexivity)|]). apply Forall_nil. Qed.
(** an LMPC with prediction horizon 2 and control horizon 3, reached without undefined behaviour *)
Definition hor_d : dims := mkDims 1 1 0 1 2 3.
Definition hor_ops : list (lop Qc) := [LSetModel (qm 1 1 [[1]]%Z) (qm 1 1 [[1]]%Z) (qm 1 1 [[1]]%Z); LOptimize (qv [1]%Z) (qv [1]%Z) ANoSolution].
Example C67_instance_long : 0 < d_ph hor_d /\ reached qj qej hor_d (wS hor_d hor_ops) (wH hor_d hor_ops) /\ slice_int (mkSlice 0 3) /\
  (Z.of_nat (d_ph hor_d) < sl_end (mkSlice 0 3))%Z /\ (sl_start (mkSlice 0 3) + sl_end (mkSlice 0 3) <= Z.of_nat (d_ch hor_d))%Z.
Proof. refine (conj _ (conj _ (conj _ (conj _ _)))); [cbn; lia|w_reach|split; reflexivity|cbn; lia|cbn; lia]. Qed.
Example C67_instance_constructor : n_new (F:=Qc) (mkDims 1 1 0 1 2 3) = UB.
Proof. apply (proj2 (C67_nlmpc_constructor (mkDims 1 1 0 1 2 3) ltac:(cbn; lia) ltac:(cbn; lia))). cbn. lia. Qed.
