(** What the Python calls mean, as a user of the module reads them: name and arguments on the left, the C++ call on the right. *)
From Coq Require Import Bool Arith ZArith NArith String List.
From Verif Require Import Scalar Sums Mat Slice Builder LMPC NLMap NLFun NLMPC PyBind.
Import ListNotations.

Section SpecPy.
  Context {F : Type} {SO : ScalarOps F}.
  Implicit Types (v : pyval F).

  (** an integer as a scalar: 1 + 1 + ... + 1, negated below zero *)
  Fixpoint ones (n : nat) : F := match n with O => s0 | S n => (s1 + ones n)%S end.
  Definition of_int (z : Z) : F := if (z <? 0)%Z then (- ones (Z.to_nat (- z)))%S else ones (Z.to_nat z).
  (** an array or number sequence of one dimension is a column, of two dimensions a matrix *)
  Definition as_column (l : list (ext F)) : mat (ext F) := mkMat (length l) 1 (fun i _ => nth i l PInf) true.
  Inductive is_matrix : pyval F -> mat (ext F) -> Prop :=
  | im_flat ex l : is_matrix (PArr1 ex l) (as_column l)
  | im_mat ex M : is_matrix (PArr2 ex M) M.
  Definition is_vector v M : Prop := is_matrix v M /\ mcols M = 1.
  (** the same with finite numbers only *)
  Definition finite_matrix (M : mat (ext F)) (A : mat F) : Prop :=
    (forall i j, i < mrows M -> j < mcols M -> exists x, ent M i j = Fin x) /\
    A = mkMat (mrows M) (mcols M) (fun i j => match ent M i j with Fin x => x | _ => s0 end) (mok M).
  Definition is_fmatrix v A : Prop := exists M, is_matrix v M /\ finite_matrix M A.
  Definition is_fvector v A : Prop := exists M, is_vector v M /\ finite_matrix M A.
  Inductive is_number : pyval F -> ext F -> Prop :=
  | in_float x : is_number (PFloat x) x
  | in_int z : is_number (PInt z) (Fin (of_int z)).
  Definition is_index v (n : N) : Prop := exists z, v = PInt z /\ (0 <= z < 4294967296)%Z /\ n = Z.to_N z.
  Definition is_list v (l : list F) : Prop := exists ex, v = PArr1 ex (map Fin l).

  Local Open Scope string_scope.
  (** LMPC; [a]: the solver's answer *)
  Inductive py_lmpc (a : answer F) : string -> list (pyval F) -> lop F -> Prop :=
  | pl_model x y z A B C : is_fmatrix x A -> is_fmatrix y B -> is_fmatrix z C -> py_lmpc a "setStateSpaceModel" [x; y; z] (LSetModel A B C)
  | pl_dist x y A B : is_fmatrix x A -> is_fmatrix y B -> py_lmpc a "setDisturbances" [x; y] (LSetDisturbances A B)
  | pl_xm x y A B : is_matrix x A -> is_matrix y B -> py_lmpc a "setStateBounds" [x; y] (LSetStateBoundsMat A B)
  | pl_um x y A B : is_matrix x A -> is_matrix y B -> py_lmpc a "setInputBounds" [x; y] (LSetInputBoundsMat A B)
  | pl_ym x y A B : is_matrix x A -> is_matrix y B -> py_lmpc a "setOutputBounds" [x; y] (LSetOutputBoundsMat A B)
  | pl_xs x y A B sl : is_vector x A -> is_vector y B -> py_lmpc a "setStateBounds" [x; y; PSlice sl] (LSetStateBounds A B sl)
  | pl_us x y A B sl : is_vector x A -> is_vector y B -> py_lmpc a "setInputBounds" [x; y; PSlice sl] (LSetInputBounds A B sl)
  | pl_ys x y A B sl : is_vector x A -> is_vector y B -> py_lmpc a "setOutputBounds" [x; y; PSlice sl] (LSetOutputBounds A B sl)
  | pl_wm x y z A B C : is_fmatrix x A -> is_fmatrix y B -> is_fmatrix z C -> py_lmpc a "setObjectiveWeights" [x; y; z] (LSetWeightsMat A B C)
  | pl_ws x y z A B C sl : is_fvector x A -> is_fvector y B -> is_fvector z C ->
      py_lmpc a "setObjectiveWeights" [x; y; z; PSlice sl] (LSetWeights A B C sl)
  | pl_si i l h x y n lo hi A B : is_index i n -> is_number l lo -> is_number h hi -> is_fvector x A -> is_fvector y B ->
      py_lmpc a "setScalarConstraint" [i; l; h; x; y] (LSetScalarIdx n lo hi A B)
  | pl_ss l h x y lo hi A B sl : is_number l lo -> is_number h hi -> is_fvector x A -> is_fvector y B ->
      py_lmpc a "setScalarConstraint" [l; h; x; y; PSlice sl] (LSetScalar lo hi A B sl)
  | pl_em x A : is_fmatrix x A -> py_lmpc a "setExogenousInputs" [x] (LSetExoMat A)
  | pl_es x A sl : is_fvector x A -> py_lmpc a "setExogenousInputs" [x; PSlice sl] (LSetExo A sl)
  | pl_rs x y z A B C sl : is_fvector x A -> is_fvector y B -> is_fvector z C -> py_lmpc a "setReferences" [x; y; z; PSlice sl] (LSetRefs A B C sl)
  | pl_ws2 x y l k : is_list x l -> is_list y k -> py_lmpc a "setSolverWarmStart" [x; y] (LSetWarm l k)
  | pl_opt x y A B : is_fvector x A -> is_fvector y B -> py_lmpc a "optimize" [x; y] (LOptimize A B a).

  (** NLMPC; a Python function's result is read by position *)
  Inductive py_nlmpc (acc : bool) (a : nanswer F) : string -> list (pyval F) -> nop F -> Prop :=
  | pn_ts x t : is_number x (Fin t) -> py_nlmpc acc a "setDiscretizationSamplingTime" [x] (NSetSampling t)
  | pn_su x A : is_fvector x A -> py_nlmpc acc a "setInputScale" [x] (NSetInputScale A)
  | pn_sx x A : is_fvector x A -> py_nlmpc acc a "setStateScale" [x] (NSetStateScale A)
  | pn_obj f : py_nlmpc acc a "setObjectiveFunction" [PFun (FCost f)] (NSetObjective f acc)
  | pn_dyn f x t : is_number x (Fin t) -> py_nlmpc acc a "setStateSpaceFunction" [PFun (FModel f); x] (NSetDynamics (fun s u k l => nth l (f s u k) s0) t acc)
  | pn_out f : py_nlmpc acc a "setOutputFunction" [PFun (FModel f)] (NSetOutput (fun s u k l => nth l (f s u k) s0))
  | pn_ieq f x t : is_number x (Fin t) -> py_nlmpc acc a "setIneqConFunction" [PFun (FIneqs f); x] (NSetIneq (fun X Y U e k => nth k (f X Y U e) s0) t acc)
  | pn_eqc f x t : is_number x (Fin t) -> py_nlmpc acc a "setEqConFunction" [PFun (FEqs f); x] (NSetEq (fun X U k => nth k (f X U) s0) t acc)
  | pn_xm x y A B : is_matrix x A -> is_matrix y B -> py_nlmpc acc a "setStateBounds" [x; y] (NSetStateBoundsMat A B)
  | pn_um x y A B : is_matrix x A -> is_matrix y B -> py_nlmpc acc a "setInputBounds" [x; y] (NSetInputBoundsMat A B)
  | pn_ym x y A B : is_matrix x A -> is_matrix y B -> py_nlmpc acc a "setOutputBounds" [x; y] (NSetOutputBoundsMat A B)
  | pn_xs x y A B sl : is_vector x A -> is_vector y B -> py_nlmpc acc a "setStateBounds" [x; y; PSlice sl] (NSetStateBounds A B sl)
  | pn_us x y A B sl : is_vector x A -> is_vector y B -> py_nlmpc acc a "setInputBounds" [x; y; PSlice sl] (NSetInputBounds A B sl)
  | pn_ys x y A B sl : is_vector x A -> is_vector y B -> py_nlmpc acc a "setOutputBounds" [x; y; PSlice sl] (NSetOutputBounds A B sl)
  | pn_opt x y A B : is_fvector x A -> is_fvector y B -> py_nlmpc acc a "optimize" [x; y] (NOptimize A B a).

  (** the C++ calls of LMPC that some Python call makes *)
  Definition py_available (a : answer F) (op : lop F) : Prop :=
    match op with
    | LSetRefsMat _ _ _ | LSetParams _ | LSetSampling | LSetInputScale | LSetStateScale => False
    | LSetStateBounds A B _ | LSetInputBounds A B _ | LSetOutputBounds A B _ => mcols A = 1 /\ mcols B = 1
    | LSetWeights A B C _ | LSetRefs A B C _ => mcols A = 1 /\ mcols B = 1 /\ mcols C = 1
    | LSetScalar _ _ A B _ => mcols A = 1 /\ mcols B = 1
    | LSetScalarIdx n _ _ A B => (n < 4294967296)%N /\ mcols A = 1 /\ mcols B = 1
    | LSetExo A _ => mcols A = 1
    | LOptimize A B a' => mcols A = 1 /\ mcols B = 1 /\ a' = a
    | _ => True
    end.
End SpecPy.
