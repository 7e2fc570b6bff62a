(** The Python module pympcxx (python/pybind_export.cpp): its tables of exported methods and how pybind11 chooses among them.

    Modelled: python/pybind_export.cpp:59-88 (class NLMPC), 91-133 (class LMPC), 144-176 (other exports).  From pybind11 (not part of the repository)
    the documented rules are used: overloads are tried in the order of registration, first without, then with implicit conversions (the first
    round is skipped when a name has one binding); a dense Eigen argument accepts arrays of one or two dimensions (one dimension: a column; a
    vector type accepts two dimensions only with one column), other number sequences only with conversions; an argument of a class that was not
    exported accepts nothing; a std::function accepts any callable, and None with conversions. *)
From Coq Require Import Bool Arith ZArith NArith String List.
From Verif Require Import Scalar Sums Mat Slice Builder LMPC NLMap NLFun NLMPC.
Import ListNotations.

Section PyBind.
  Context {F : Type} {SO : ScalarOps F}.

  (** a Python callable, by what it computes *)
  Inductive pyfun :=
  | FCost (f : obj_t F)
  | FModel (f : list F -> list F -> nat -> list F)                     (* state or output function: state, input, step -> vector *)
  | FIneqs (f : rows F -> rows F -> rows F -> F -> list F)
  | FEqs (f : rows F -> rows F -> list F).
  (** a Python value; arrays: [true] for float64 arrays, [false] for lists and arrays of other number types *)
  Inductive pyval :=
  | PNone | PInt (z : Z) | PFloat (v : ext F)
  | PArr1 (exact : bool) (v : list (ext F)) | PArr2 (exact : bool) (M : mat (ext F))
  | PSlice (sl : slice) | PLevel (n : nat) | PStr (s : string) | PFun (f : pyfun) | POther.

  (** parameter types of the exported methods *)
  Inductive ctype := TUInt | TDouble | TMat | TVec | TStdVec | TSlice | TLevel | TString | TFun | TParams.
  Inductive cval :=
  | VUInt (n : N) | VDouble (v : ext F) | VMat (M : mat (ext F)) | VVec (M : mat (ext F)) | VStdVec (l : list (ext F))
  | VSlice (sl : slice) | VLevel (n : nat) | VString (s : string) | VFun (f : option pyfun).

  (** numbers of Python's int type reach a C++ double by conversion *)
  Fixpoint pos_f (p : positive) : F :=
    match p with xH => s1 | xO p => (s2 * pos_f p)%S | xI p => (s1 + s2 * pos_f p)%S end.
  Definition int_f (z : Z) : F := match z with Z0 => s0 | Zpos p => pos_f p | Zneg p => (- pos_f p)%S end.
  Definition column (v : list (ext F)) : mat (ext F) := mkMat (length v) 1 (fun i _ => nth i v PInf) true.

  (** loading one argument; [conv]: with implicit conversions *)
  Definition load (conv : bool) (t : ctype) (v : pyval) : option cval :=
    match t, v with
    | TUInt, PInt z => if (0 <=? z)%Z && (z <? 4294967296)%Z then Some (VUInt (Z.to_N z)) else None
    | TDouble, PFloat x => Some (VDouble x)
    | TDouble, PInt z => if conv then Some (VDouble (Fin (int_f z))) else None
    | TMat, PArr1 ex l => if ex || conv then Some (VMat (column l)) else None
    | TMat, PArr2 ex M => if ex || conv then Some (VMat M) else None
    | TVec, PArr1 ex l => if ex || conv then Some (VVec (column l)) else None
    | TVec, PArr2 ex M => if (ex || conv) && (mcols M =? 1) then Some (VVec M) else None
    | TStdVec, PArr1 _ l => Some (VStdVec l)
    | TSlice, PSlice sl => Some (VSlice sl)
    | TLevel, PLevel n => Some (VLevel n)
    | TString, PStr s => Some (VString s)
    | TFun, PFun f => Some (VFun (Some f))
    | TFun, PNone => if conv then Some (VFun None) else None
    | _, _ => None      (* TParams: mpc::Parameters and its subclasses are not exported *)
    end.
  Fixpoint load_all (conv : bool) (ts : list ctype) (vs : list pyval) : option (list cval) :=
    match ts, vs with
    | [], [] => Some []
    | t :: ts, v :: vs => match load conv t v, load_all conv ts vs with Some c, Some cs => Some (c :: cs) | _, _ => None end
    | _, _ => None
    end.

  (** C++ methods named by the bindings *)
  Inductive cppm :=
  | M_setSampling | M_setInputScale | M_setStateScale | M_setParams | M_setLevel | M_setPrefix | M_optimize | M_getResult | M_getSequence
  | M_getStats | M_resetStats | M_stateBoundsMat | M_stateBounds | M_inputBoundsMat | M_inputBounds | M_outputBoundsMat | M_outputBounds
  | M_model | M_disturbances | M_getPrimal | M_getDual | M_setWarm | M_weightsMat | M_weights | M_scalarIdx | M_scalar | M_exoMat | M_exo
  | M_refsMat | M_refs | M_objective | M_stateFun | M_outFun | M_ineqFun | M_eqFun.
  Record binding := Bnd { b_name : string; b_args : list ctype; b_to : cppm }.
  (** python/pybind_export.cpp:59-88 *)
  Definition nlmpc_table : list binding :=
    [ Bnd "setDiscretizationSamplingTime"%string [TDouble] M_setSampling; Bnd "setInputScale"%string [TVec] M_setInputScale; Bnd "setStateScale"%string [TVec] M_setStateScale;
      Bnd "setOptimizerParameters"%string [TParams] M_setParams; Bnd "setLoggerLevel"%string [TLevel] M_setLevel; Bnd "setLoggerPrefix"%string [TString] M_setPrefix;
      Bnd "optimize"%string [TVec; TVec] M_optimize; Bnd "getLastResult"%string [] M_getResult; Bnd "getOptimalSequence"%string [] M_getSequence;
      Bnd "getExecutionStats"%string [] M_getStats; Bnd "resetStats"%string [] M_resetStats;
      Bnd "setStateBounds"%string [TMat; TMat] M_stateBoundsMat; Bnd "setStateBounds"%string [TVec; TVec; TSlice] M_stateBounds;
      Bnd "setInputBounds"%string [TMat; TMat] M_inputBoundsMat; Bnd "setInputBounds"%string [TVec; TVec; TSlice] M_inputBounds;
      Bnd "setOutputBounds"%string [TMat; TMat] M_outputBoundsMat; Bnd "setOutputBounds"%string [TVec; TVec; TSlice] M_outputBounds;
      Bnd "setObjectiveFunction"%string [TFun] M_objective; Bnd "setStateSpaceFunction"%string [TFun; TDouble] M_stateFun; Bnd "setOutputFunction"%string [TFun] M_outFun;
      Bnd "setIneqConFunction"%string [TFun; TDouble] M_ineqFun; Bnd "setEqConFunction"%string [TFun; TDouble] M_eqFun ].
  (** python/pybind_export.cpp:97-132; the slice overload of setReferences is registered twice (131, 132) *)
  Definition lmpc_table : list binding :=
    [ Bnd "setOptimizerParameters"%string [TParams] M_setParams; Bnd "setLoggerLevel"%string [TLevel] M_setLevel; Bnd "setLoggerPrefix"%string [TString] M_setPrefix;
      Bnd "optimize"%string [TVec; TVec] M_optimize; Bnd "getLastResult"%string [] M_getResult; Bnd "getOptimalSequence"%string [] M_getSequence;
      Bnd "getExecutionStats"%string [] M_getStats; Bnd "resetStats"%string [] M_resetStats;
      Bnd "setStateBounds"%string [TMat; TMat] M_stateBoundsMat; Bnd "setStateBounds"%string [TVec; TVec; TSlice] M_stateBounds;
      Bnd "setInputBounds"%string [TMat; TMat] M_inputBoundsMat; Bnd "setInputBounds"%string [TVec; TVec; TSlice] M_inputBounds;
      Bnd "setOutputBounds"%string [TMat; TMat] M_outputBoundsMat; Bnd "setOutputBounds"%string [TVec; TVec; TSlice] M_outputBounds;
      Bnd "setStateSpaceModel"%string [TMat; TMat; TMat] M_model; Bnd "setDisturbances"%string [TMat; TMat] M_disturbances;
      Bnd "getSolverWarmStartPrimal"%string [] M_getPrimal; Bnd "getSolverWarmStartDual"%string [] M_getDual; Bnd "setSolverWarmStart"%string [TStdVec; TStdVec] M_setWarm;
      Bnd "setObjectiveWeights"%string [TMat; TMat; TMat] M_weightsMat; Bnd "setObjectiveWeights"%string [TVec; TVec; TVec; TSlice] M_weights;
      Bnd "setScalarConstraint"%string [TUInt; TDouble; TDouble; TVec; TVec] M_scalarIdx; Bnd "setScalarConstraint"%string [TDouble; TDouble; TVec; TVec; TSlice] M_scalar;
      Bnd "setExogenousInputs"%string [TMat] M_exoMat; Bnd "setExogenousInputs"%string [TVec; TSlice] M_exo;
      Bnd "setReferences"%string [TVec; TVec; TVec; TSlice] M_refs; Bnd "setReferences"%string [TVec; TVec; TVec; TSlice] M_refs ].

  (** pybind11's choice: the first binding of that name that accepts the arguments *)
  Definition overloads (t : list binding) (name : string) : list binding := filter (fun b => String.eqb (b_name b) name) t.
  Fixpoint first_match (conv : bool) (bs : list binding) (vs : list pyval) : option (cppm * list cval) :=
    match bs with
    | [] => None
    | b :: bs => match load_all conv (b_args b) vs with Some cs => Some (b_to b, cs) | None => first_match conv bs vs end
    end.
  (** the C++ call made, or None: TypeError *)
  Definition dispatch (t : list binding) (name : string) (vs : list pyval) : option (cppm * list cval) :=
    let bs := overloads t name in
    match (if 1 <? length bs then first_match false bs vs else None) with
    | Some r => Some r
    | None => first_match true bs vs
    end.

  (** ** What the C++ calls are in the models of the controllers.  The models take infinite values in bounds only. *)
  Definition finite_entries (M : mat (ext F)) : bool :=
    forallb (fun i => forallb (fun j => match ent M i j with Fin _ => true | _ => false end) (seq 0 (mcols M))) (seq 0 (mrows M)).
  Definition fin_mat (M : mat (ext F)) : option (mat F) :=
    if finite_entries M then Some (mkMat (mrows M) (mcols M) (fun i j => match ent M i j with Fin x => x | _ => s0 end) (mok M)) else None.
  Fixpoint fin_list (l : list (ext F)) : option (list F) :=
    match l with [] => Some [] | Fin x :: l => match fin_list l with Some k => Some (x :: k) | None => None end | _ :: _ => None end.
  Definition map1 {A B} (f : A -> B) (o : option A) : option B := match o with Some a => Some (f a) | None => None end.
  Definition map2 {A B C} (f : A -> B -> C) (o : option A) (o' : option B) : option C :=
    match o, o' with Some a, Some b => Some (f a b) | _, _ => None end.
  Definition map3 {A B C D} (f : A -> B -> C -> D) (o : option A) (o' : option B) (o'' : option C) : option D :=
    match o, o', o'' with Some a, Some b, Some c => Some (f a b c) | _, _, _ => None end.
  (** [a]: what the solver answers, for optimize.  None: not one of the modelled configuration calls (logger, statistics, getters). *)
  Definition lop_of (a : answer F) (c : cppm * list cval) : option (lop F) :=
    match c with
    | (M_model, [VMat A; VMat B; VMat C]) => map3 LSetModel (fin_mat A) (fin_mat B) (fin_mat C)
    | (M_disturbances, [VMat A; VMat B]) => map2 LSetDisturbances (fin_mat A) (fin_mat B)
    | (M_stateBoundsMat, [VMat A; VMat B]) => Some (LSetStateBoundsMat A B)
    | (M_inputBoundsMat, [VMat A; VMat B]) => Some (LSetInputBoundsMat A B)
    | (M_outputBoundsMat, [VMat A; VMat B]) => Some (LSetOutputBoundsMat A B)
    | (M_stateBounds, [VVec A; VVec B; VSlice sl]) => Some (LSetStateBounds A B sl)
    | (M_inputBounds, [VVec A; VVec B; VSlice sl]) => Some (LSetInputBounds A B sl)
    | (M_outputBounds, [VVec A; VVec B; VSlice sl]) => Some (LSetOutputBounds A B sl)
    | (M_weightsMat, [VMat A; VMat B; VMat C]) => map3 LSetWeightsMat (fin_mat A) (fin_mat B) (fin_mat C)
    | (M_weights, [VVec A; VVec B; VVec C; VSlice sl]) => map3 (fun a b c => LSetWeights a b c sl) (fin_mat A) (fin_mat B) (fin_mat C)
    | (M_scalarIdx, [VUInt i; VDouble x; VDouble y; VVec A; VVec B]) => map2 (LSetScalarIdx i x y) (fin_mat A) (fin_mat B)
    | (M_scalar, [VDouble x; VDouble y; VVec A; VVec B; VSlice sl]) => map2 (fun a b => LSetScalar x y a b sl) (fin_mat A) (fin_mat B)
    | (M_exoMat, [VMat A]) => map1 LSetExoMat (fin_mat A)
    | (M_exo, [VVec A; VSlice sl]) => map1 (fun a => LSetExo a sl) (fin_mat A)
    | (M_refsMat, [VMat A; VMat B; VMat C]) => map3 LSetRefsMat (fin_mat A) (fin_mat B) (fin_mat C)
    | (M_refs, [VVec A; VVec B; VVec C; VSlice sl]) => map3 (fun a b c => LSetRefs a b c sl) (fin_mat A) (fin_mat B) (fin_mat C)
    | (M_setWarm, [VStdVec x; VStdVec y]) => map2 LSetWarm (fin_list x) (fin_list y)
    | (M_optimize, [VVec A; VVec B]) => map2 (fun x u => LOptimize x u a) (fin_mat A) (fin_mat B)
    | _ => None
    end.
  (** the wrappers of python/pybind_export.cpp:19-57: the C++ callback assigns the vector the Python function returns *)
  Definition dyn_of (f : list F -> list F -> nat -> list F) : dyn_t F := fun x u k l => nth l (f x u k) s0.
  Definition ieq_of_py (f : rows F -> rows F -> rows F -> F -> list F) : ieq_t F := fun X Y U e k => nth k (f X Y U e) s0.
  Definition eqc_of_py (f : rows F -> rows F -> list F) : eqc_t F := fun X U k => nth k (f X U) s0.
  (** [acc]: does the solver library accept the function; [an]: its answer, for optimize *)
  Definition nop_of (acc : bool) (an : nanswer F) (c : cppm * list cval) : option (nop F) :=
    match c with
    | (M_setSampling, [VDouble (Fin t)]) => Some (NSetSampling t)
    | (M_setInputScale, [VVec A]) => map1 NSetInputScale (fin_mat A)
    | (M_setStateScale, [VVec A]) => map1 NSetStateScale (fin_mat A)
    | (M_objective, [VFun (Some (FCost f))]) => Some (NSetObjective f acc)
    | (M_stateFun, [VFun (Some (FModel f)); VDouble (Fin t)]) => Some (NSetDynamics (dyn_of f) t acc)
    | (M_outFun, [VFun (Some (FModel f))]) => Some (NSetOutput (dyn_of f))
    | (M_ineqFun, [VFun (Some (FIneqs f)); VDouble (Fin t)]) => Some (NSetIneq (ieq_of_py f) t acc)
    | (M_eqFun, [VFun (Some (FEqs f)); VDouble (Fin t)]) => Some (NSetEq (eqc_of_py f) t acc)
    | (M_stateBoundsMat, [VMat A; VMat B]) => Some (NSetStateBoundsMat A B)
    | (M_inputBoundsMat, [VMat A; VMat B]) => Some (NSetInputBoundsMat A B)
    | (M_outputBoundsMat, [VMat A; VMat B]) => Some (NSetOutputBoundsMat A B)
    | (M_stateBounds, [VVec A; VVec B; VSlice sl]) => Some (NSetStateBounds A B sl)
    | (M_inputBounds, [VVec A; VVec B; VSlice sl]) => Some (NSetInputBounds A B sl)
    | (M_outputBounds, [VVec A; VVec B; VSlice sl]) => Some (NSetOutputBounds A B sl)
    | (M_optimize, [VVec A; VVec B]) => map2 (fun x u => NOptimize x u an) (fin_mat A) (fin_mat B)
    | _ => None
    end.

  (** values a method returns that Python can see: the exported classes and what pybind11 converts by itself *)
  Inductive pyret := YNone | YBool | YResult | YSequence | YStats | YVector.
  Definition returns (m : cppm) : pyret :=
    match m with
    | M_setInputScale | M_setStateScale | M_setParams | M_resetStats | M_setWarm => YNone
    | M_optimize | M_getResult => YResult | M_getSequence => YSequence | M_getStats => YStats | M_getPrimal | M_getDual => YVector
    | _ => YBool
    end.
  (** mpc::OptSequence is not exported: returning one raises TypeError *)
  Definition convertible (y : pyret) : bool := match y with YSequence => false | _ => true end.
  (** the attributes of the exported Result (python/pybind_export.cpp:154-159) *)
  Definition py_result (r : lresult F) := (r_code r, r_cost r, r_cmd r, r_status r).

  (** what a Python statement [obj.name(vs)] does to a controller; a TypeError ([RThrow]) leaves it alone; None: not a configuration call or optimize *)
  Definition py_lstep (junk : nat -> nat -> F) (ejunk : nat -> nat -> ext F) (d : dims) (a : answer F) (s : lmpc F) (name : string) (vs : list pyval) :
      option (outcome (lmpc F * ret F)) :=
    match dispatch lmpc_table name vs with
    | None => Some (Ok (s, RThrow))
    | Some c => map1 (l_step junk ejunk d s) (lop_of a c)
    end.
  Definition py_nstep (junk : nat -> nat -> F) (d : dims) (ni ne : nat) (dyn_eq acc : bool) (a : nanswer F) (s : nmpc F) (name : string) (vs : list pyval) :
      option (outcome (nmpc F * ret F)) :=
    match dispatch nlmpc_table name vs with
    | None => Some (Ok (s, RThrow))
    | Some c => map1 (n_step junk d ni ne dyn_eq s) (nop_of acc a c)
    end.
  (** a Python program that catches the TypeErrors: statements are name, arguments and, for optimize, what the solver answers *)
  Fixpoint py_play (junk : nat -> nat -> F) (ejunk : nat -> nat -> ext F) (d : dims) (s : lmpc F) (prog : list (string * list pyval * answer F)) :
      option (outcome (lmpc F * list (ret F))) :=
    match prog with
    | [] => Some (Ok (s, []))
    | (name, vs, a) :: prog =>
        match py_lstep junk ejunk d a s name vs with
        | None => None
        | Some UB => Some UB
        | Some (Ok (s', r)) => map1 (fun o => match o with UB => UB | Ok (s'', rs) => Ok (s'', r :: rs) end) (py_play junk ejunk d s' prog)
        end
    end.
End PyBind.
Arguments pyval F : clear implicits. Arguments pyfun F : clear implicits. Arguments cval F : clear implicits.
