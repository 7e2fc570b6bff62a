(** Property C66, continued: what the Python module makes of the controllers. *)
From Coq Require Import Bool Arith ZArith NArith String List Lia QArith Qcanon.
From Verif Require Import Scalar Sums Mat Slice Builder LMPC SpecLMPC LMPCRef NLMap NLFun NLMPC PyBind SpecPy PropPy Wit PropLMPC1.
Import ListNotations.
Local Open Scope nat_scope.

Section Py2.
  Context {F : Type} {SO : ScalarOps F} {SM : ScalarMild F} {SL : ScalarLaws F}.
  Variable junk : nat -> nat -> F.
  Variable ejunk : nat -> nat -> ext F.
  Variable d : dims.

  (** *** which C++ calls have a Python counterpart *)
  Definition arr (A : mat F) : pyval F := PArr2 true (mkMat (mrows A) (mcols A) (fun i j => Fin (ent A i j)) (mok A)).
  Lemma arr_ok A : is_fmatrix (arr A) A.
  Proof. eexists. split; [constructor|]. split; [cbn; eauto|]. destruct A; reflexivity. Qed.
  Lemma arr_vec A : mcols A = 1 -> is_fvector (arr A) A.
  Proof. intros E. eexists. split; [split; [constructor|exact E]|]. split; [cbn; eauto|]. destruct A; reflexivity. Qed.
  Lemma fvector_cols (v : pyval F) A : is_fvector v A -> mcols A = 1.
  Proof. intros (M & [_ E] & _ & ->). exact E. Qed.
  Theorem C66_available (a : answer F) op : (exists name vs, py_lmpc a name vs op) <-> py_available a op.
  Proof.
    split.
    - intros (name & vs & H). inversion H; subst; cbn;
        repeat match goal with H : is_fvector _ _ |- _ => apply fvector_cols in H | H : is_vector _ _ |- _ => destruct H as [_ H] end; auto.
      match goal with H : is_index _ _ |- _ => destruct H as (z & _ & [Z1 Z2] & ->) end. split; [lia|auto].
    - destruct op; cbn; intros H; try contradiction.
      + exists "setStateSpaceModel"%string, [arr A; arr B; arr C]. constructor; apply arr_ok.
      + exists "setDisturbances"%string, [arr Bd; arr Dd]. constructor; apply arr_ok.
      + exists "setStateBounds"%string, [PArr2 true mn; PArr2 true mx]. constructor; constructor.
      + exists "setInputBounds"%string, [PArr2 true mn; PArr2 true mx]. constructor; constructor.
      + exists "setOutputBounds"%string, [PArr2 true mn; PArr2 true mx]. constructor; constructor.
      + exists "setStateBounds"%string, [PArr2 true mn; PArr2 true mx; PSlice sl]. constructor; (split; [constructor|tauto]).
      + exists "setInputBounds"%string, [PArr2 true mn; PArr2 true mx; PSlice sl]. constructor; (split; [constructor|tauto]).
      + exists "setOutputBounds"%string, [PArr2 true mn; PArr2 true mx; PSlice sl]. constructor; (split; [constructor|tauto]).
      + exists "setObjectiveWeights"%string, [arr OW; arr UW; arr DUW]. constructor; apply arr_ok.
      + exists "setObjectiveWeights"%string, [arr OW; arr UW; arr DUW; PSlice sl]. constructor; apply arr_vec; tauto.
      + exists "setScalarConstraint"%string, [PFloat mn; PFloat mx; arr X; arr U; PSlice sl]. constructor; [constructor|constructor|apply arr_vec; tauto|apply arr_vec; tauto].
      + exists "setScalarConstraint"%string, [PInt (Z.of_N index); PFloat mn; PFloat mx; arr X; arr U].
        constructor; [exists (Z.of_N index); repeat split; lia|constructor|constructor|apply arr_vec; tauto|apply arr_vec; tauto].
      + exists "setExogenousInputs"%string, [arr M]. constructor. apply arr_ok.
      + exists "setExogenousInputs"%string, [arr v; PSlice sl]. constructor. now apply arr_vec.
      + exists "setReferences"%string, [arr y; arr u; arr du; PSlice sl]. constructor; apply arr_vec; tauto.
      + exists "setSolverWarmStart"%string, [PArr1 true (map Fin wx); PArr1 true (map Fin wy)]. constructor; eexists; reflexivity.
      + destruct H as (H1 & H2 & ->). exists "optimize"%string, [arr x0; arr u0]. constructor; now apply arr_vec.
  Qed.
  (** no statement in Python sets the solver's parameters of either controller, *)
  Theorem C66_parameters_unreachable (a : answer F) acc (an : nanswer F) name vs :
    (forall p, ~ py_lmpc a name vs (LSetParams p)) /\ (forall p, ~ py_nlmpc acc an name vs (NSetParams p)).
  Proof. split; intros p H; inversion H. Qed.
  (** because the call itself is refused: an exception, and the controller unchanged *)
  Theorem C66_parameters_raise (t : list binding) (vs : list (pyval F)) : t = lmpc_table \/ t = nlmpc_table -> dispatch t "setOptimizerParameters"%string vs = None.
  Proof. intros [-> | ->]; destruct vs as [|v [|w vs]]; try reflexivity; destruct v; reflexivity. Qed.

  (** *** exceptions *)
  Theorem C66_type_error_harmless (a : answer F) (s : lmpc F) name vs : dispatch lmpc_table name vs = None -> py_lstep junk ejunk d a s name vs = Some (Ok (s, RThrow)).
  Proof. intros H. unfold py_lstep. rewrite H. reflexivity. Qed.
  Theorem C66_type_error_harmless_nl ni ne dyn_eq acc (a : nanswer F) (s : nmpc F) name vs :
    dispatch nlmpc_table name vs = None -> py_nstep junk d ni ne dyn_eq acc a s name vs = Some (Ok (s, RThrow)).
  Proof. intros H. unfold py_nstep. rewrite H. reflexivity. Qed.
  (** a call of the documented form makes the step of the controller it is documented to make *)
  Theorem C66_lmpc_step (a : answer F) (s : lmpc F) name vs op : py_lmpc a name vs op -> py_lstep junk ejunk d a s name vs = Some (l_step junk ejunk d s op).
  Proof. intros H. apply C66_lmpc_calls in H as (c & D & E). unfold py_lstep. rewrite D, E. reflexivity. Qed.
  Theorem C66_nlmpc_step ni ne dyn_eq acc (a : nanswer F) (s : nmpc F) name vs op :
    py_nlmpc acc a name vs op -> py_nstep junk d ni ne dyn_eq acc a s name vs = Some (n_step junk d ni ne dyn_eq s op).
  Proof. intros H. apply C66_nlmpc_calls in H as (c & D & E). unfold py_nstep. rewrite D, E. reflexivity. Qed.
  (** the tolerance of the model and constraint functions cannot be left out *)
  Theorem C66_tolerance_mandatory (f : pyval F) name : In name ["setStateSpaceFunction"; "setIneqConFunction"; "setEqConFunction"]%string -> dispatch nlmpc_table name [f] = None.
  Proof. cbn [In]. intros [<- | [<- | [<- | []]]]; destruct f; reflexivity. Qed.
  (** nor can the slice of setReferences *)
  Lemma load_all_length conv ts : forall (vs : list (pyval F)) cs, load_all conv ts vs = Some cs -> length vs = length ts.
  Proof.
    induction ts as [|t ts IH]; intros [|v vs] cs; cbn; intros H; try discriminate H; [reflexivity|]. f_equal.
    destruct (load conv t v); [|discriminate H]. destruct (load_all conv ts vs) eqn:E; [|discriminate H]. exact (IH _ _ E).
  Qed.
  Theorem C66_no_whole_horizon_references (x y z : pyval F) : dispatch lmpc_table "setReferences"%string [x; y; z] = None.
  Proof.
    destruct (dispatch _ _ _) as [[m cs]|] eqn:D; [exfalso|reflexivity]. destruct (dispatch_sound _ _ _ _ _ D) as (b & I & N & _ & L). clear D.
    cbn [In lmpc_table] in I. repeat (destruct I as [<- |I]; [cbn in N; try discriminate N; apply load_all_length in L; discriminate L|]). exact I.
  Qed.

  (** *** a flat array is one column: as whole-horizon bounds or weights it is undefined behaviour, not an exception *)
  Lemma horizon_shape (M V : mat (ext F)) n : mok (set_horizon d M n V) = true -> mrows V = n /\ mcols V = d_ph d.
  Proof. unfold set_horizon, set_mcol. cbn [set_block mok mcol block]. rewrite !andb_true_iff, !Nat.eqb_eq. tauto. Qed.
  Theorem C66_state_bounds_shape (s : lmpc F) mn mx r : l_step junk ejunk d s (LSetStateBoundsMat mn mx) = Ok r ->
    mrows mn = d_nx d /\ mcols mn = d_ph d /\ mrows mx = d_nx d /\ mcols mx = d_ph d.
  Proof.
    cbn [l_step]. unfold finish. destruct (l_ok _) eqn:E; [intros _|intros H; discriminate H].
    assert (G : mok (minX (b_lim (l_b (upd_b (b_setStateBoundsMat junk ejunk d mn mx) s)))) = true /\ mok (maxX (b_lim (l_b (upd_b (b_setStateBoundsMat junk ejunk d mn mx) s)))) = true)
      by (revert E; unfold l_ok, b_ok; rewrite !andb_true_iff; tauto).
    destruct G as [G1 G2]. apply (horizon_shape (minX (b_lim (l_b s)))) in G1. apply (horizon_shape (maxX (b_lim (l_b s)))) in G2. tauto.
  Qed.
  Theorem C66_output_bounds_shape (s : lmpc F) mn mx r : l_step junk ejunk d s (LSetOutputBoundsMat mn mx) = Ok r ->
    mrows mn = d_ny d /\ mcols mn = d_ph d /\ mrows mx = d_ny d /\ mcols mx = d_ph d.
  Proof.
    cbn [l_step]. unfold finish. destruct (l_ok _) eqn:E; [intros _|intros H; discriminate H].
    assert (G : mok (minY (b_lim (l_b (upd_b (b_setOutputBoundsMat junk ejunk d mn mx) s)))) = true /\ mok (maxY (b_lim (l_b (upd_b (b_setOutputBoundsMat junk ejunk d mn mx) s)))) = true)
      by (revert E; unfold l_ok, b_ok; rewrite !andb_true_iff; tauto).
    destruct G as [G1 G2]. apply (horizon_shape (minY (b_lim (l_b s)))) in G1. apply (horizon_shape (maxY (b_lim (l_b s)))) in G2. tauto.
  Qed.
  Theorem C66_weights_shape (s : lmpc F) OW UW DUW r : l_step junk ejunk d s (LSetWeightsMat OW UW DUW) = Ok r ->
    mrows OW = d_ny d /\ mcols OW = d_ph d /\ mrows UW = d_nu d /\ mcols UW = d_ph d.
  Proof.
    cbn [l_step]. unfold finish. destruct (l_ok _) eqn:E; [intros _|intros H; discriminate H].
    set (b' := b_setObjectiveMat junk ejunk d OW UW DUW) in *.
    assert (G : mok (wOutput (b_w (l_b (upd_b b' s)))) = true /\ mok (wU (b_w (l_b (upd_b b' s)))) = true)
      by (revert E; unfold l_ok, b_ok; rewrite !andb_true_iff; tauto).
    destruct G as [G1 G2].
    change (mok (set_mcol (set_block (wOutput (b_w (l_b s))) 0 1 (d_ny d) (d_ph d) OW) 0 (mcol OW 0)) = true) in G1.
    change (mok (set_mcol (set_block (wU (b_w (l_b s))) 0 1 (d_nu d) (d_ph d) UW) 0 (mcol UW 0)) = true) in G2.
    revert G1 G2. unfold set_mcol. cbn [set_block mok mcol block]. rewrite !andb_true_iff, !Nat.eqb_eq. tauto.
  Qed.
  Lemma not_ok {A} (o : outcome A) : (forall r, o <> Ok r) -> o = UB.
  Proof. destruct o; [intros H; destruct (H a eq_refl)|reflexivity]. Qed.
  Theorem C66_flat_bounds_undefined (a : answer F) (s : lmpc F) ex l x A name : d_ph d <> 1 -> is_matrix x A -> name = "setStateBounds"%string \/ name = "setOutputBounds"%string ->
    py_lstep junk ejunk d a s name [PArr1 ex l; x] = Some UB.
  Proof.
    intros P H [-> | ->].
    - rewrite (C66_lmpc_step a s _ _ (LSetStateBoundsMat (column l) A)) by (constructor; [constructor|exact H]). f_equal. apply not_ok. intros r E. apply C66_state_bounds_shape in E. cbn in E. lia.
    - rewrite (C66_lmpc_step a s _ _ (LSetOutputBoundsMat (column l) A)) by (constructor; [constructor|exact H]). f_equal. apply not_ok. intros r E. apply C66_output_bounds_shape in E. cbn in E. lia.
  Qed.
  Theorem C66_flat_weights_undefined (a : answer F) (s : lmpc F) ex l x y A B : d_ph d <> 1 -> is_fmatrix x A -> is_fmatrix y B ->
    py_lstep junk ejunk d a s "setObjectiveWeights"%string [PArr1 ex (map Fin l); x; y] = Some UB.
  Proof.
    intros P H H'.
    assert (L : is_fmatrix (PArr1 ex (map Fin l)) (mkMat (length l) 1 (fun i _ => match nth i (map Fin l) PInf with Fin x => x | _ => s0 end) true)).
    { exists (column (map Fin l)). split; [constructor|]. split; [|cbn; rewrite map_length; reflexivity]. cbn. intros i j Hi _. rewrite map_length in Hi.
      exists (nth i l s0). rewrite (nth_indep _ PInf (Fin s0)) by (rewrite map_length; exact Hi). apply map_nth. }
    rewrite (C66_lmpc_step a s _ _ _ (pl_wm a _ _ _ _ _ _ L H H')). f_equal. apply not_ok. intros r E. apply C66_weights_shape in E. cbn in E. lia.
  Qed.

  (** *** results *)
  Theorem C66_sequence_raises (t : list binding) vs m (cs : list (cval F)) :
    t = lmpc_table \/ t = nlmpc_table -> dispatch t "getOptimalSequence"%string vs = Some (m, cs) -> convertible (returns m) = false.
  Proof. intros [-> | ->]; destruct vs; cbn; intros H; try discriminate H; injection H as <- _; reflexivity. Qed.
  (** every other exported method returns something Python can hold *)
  Theorem C66_other_results_convert (b : binding) : In b lmpc_table \/ In b nlmpc_table -> b_name b <> "getOptimalSequence"%string -> convertible (returns (b_to b)) = true.
  Proof.
    intros [H|H] N; cbn [In lmpc_table nlmpc_table] in H; repeat (destruct H as [<- |H]; [try reflexivity; destruct (N eq_refl)|]); contradiction.
  Qed.
  Theorem C66_feasibility_hidden (r r' : lresult F) :
    py_result r = py_result r' <-> r_code r = r_code r' /\ r_cost r = r_cost r' /\ r_cmd r = r_cmd r' /\ r_status r = r_status r'.
  Proof. unfold py_result. split; [intros H; injection H; auto|intros (-> & -> & -> & ->); reflexivity]. Qed.

  (** *** programs: what is proved about the C++ calls holds of the Python statements *)
  Theorem C66_python_program (s : lmpc F) prog ops : Forall2 (fun st op => py_lmpc (snd st) (fst (fst st)) (snd (fst st)) op) prog ops ->
    py_play junk ejunk d s prog = Some (match l_play junk ejunk d s ops with Ok (s', h) => Ok (s', map snd h) | UB => UB end).
  Proof.
    intros H. revert s. induction H as [|[[name vs] a] op prog ops P H IH]; intros s; [reflexivity|]. cbn [py_play l_play]. cbn [fst snd] in P.
    rewrite (C66_lmpc_step _ _ _ _ _ P). destruct (l_step junk ejunk d s op) as [[s' r]|]; [|reflexivity]. rewrite IH.
    destruct (l_play junk ejunk d s' ops) as [[s'' h]|]; reflexivity.
  Qed.
  Definition solver_says (op : lop F) : answer F := match op with LOptimize _ _ a => a | _ => ANoSolution end.
  Theorem C66_program_exists ops : Forall (fun op => py_available (solver_says op) op) ops ->
    exists prog, Forall2 (fun st op => py_lmpc (snd st) (fst (fst st)) (snd (fst st)) op) prog ops.
  Proof.
    induction 1 as [|op ops A H [prog IH]]; [exists []; constructor|].
    apply C66_available in A as (name & vs & A). exists ((name, vs, solver_says op) :: prog). constructor; [exact A|exact IH].
  Qed.
End Py2.

(** *** instances *)
Example C66_instance_calls :
  py_lmpc ANoSolution "setStateBounds" [PArr1 false [Fin (q (-1)); MInf]; PArr1 true [Fin (q 1); PInf]; PSlice (mkSlice 0 1)]
    (LSetStateBounds (column [Fin (q (-1)); MInf]) (column [Fin (q 1); PInf]) (mkSlice 0 1)) /\
  dispatch lmpc_table "setScalarConstraint" [PInt 3; PInt 0; PFloat PInf; PArr1 true [Fin (q 1)]; PArr1 true [Fin (q 2)]] =
    Some (M_scalarIdx, [VUInt 3; VDouble (Fin (q 0)); VDouble PInf; VVec (column [Fin (q 1)]); VVec (column [Fin (q 2)])]) /\
  dispatch lmpc_table "setScalarConstraint" [PInt (-3); PInt 0; PFloat PInf; PArr1 true [Fin (q 1)]; PArr1 true [Fin (q 2)]] = None.
Proof.
  refine (conj _ (conj _ _)).
  - constructor; (split; [constructor|reflexivity]).
  - cbn. reflexivity.
  - reflexivity.
Qed.
(** the program of PropLMPC1.v with an optimize, written in Python *)
Definition py_ops : list (lop Qc) := ex_ops ++ [LOptimize (qv [2]%Z) (qv [1]%Z) (ASolution ex_z (fun _ => q 0) 1%Z (Fin (q 4)))].
Example C66_instance_program : Forall (fun op => py_available (solver_says op) op) py_ops.
Proof. repeat (apply Forall_cons; [cbn; auto|]). apply Forall_nil. Qed.
(** hypotheses of the flat-array theorems: two states, horizon 2 *)
Example C66_instance_flat : d_ph (mkDims 2 1 0 1 2 1) <> 1 /\ is_matrix (PArr1 true [Fin (q 1); Fin (q 2)]) (column [Fin (q 1); Fin (q 2)]).
Proof. split; [cbn; lia|constructor]. Qed.
(** the same state bounds as a two-dimensional array, one column per step, are accepted *)
Example C66_instance_shape : is_ok (l_step qj qej (mkDims 2 1 0 1 2 1) (l_init qj qej (mkDims 2 1 0 1 2 1)) (LSetStateBoundsMat (qme 2 2 [[-1; -1]; [-2; -2]]%Z) (qme 2 2 [[1; 1]; [2; 2]]%Z))) = true.
Proof. vm_compute. reflexivity. Qed.
(** results that differ in the feasibility flag only *)
Example C66_instance_feasible : exists r r' : lresult Qc, r <> r' /\ py_result r = py_result r'.
Proof. exists (mkRes 1 true PInf SUCCESS (qv [1]%Z)), (mkRes 1 false PInf SUCCESS (qv [1]%Z)). split; [intros H; injection H; intros H'; discriminate H'|reflexivity]. Qed.
