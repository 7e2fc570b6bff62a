(** Model of include/mpc/LMPC/LOptimizer.hpp and include/mpc/LMPC.hpp as a state machine.
    The external solver (OSQP) is not modelled: each [LOptimize] operation carries
    the answer the solver gave, universally quantified in the theorems. *)
From Coq Require Import Bool Arith ZArith List Lia.
From Verif Require Import Scalar Sums Mat Slice Csc Builder.
Import ListNotations.

(** Types.hpp:87-94 *)
Inductive rstatus := SUCCESS | MAX_ITERATION | INFEASIBLE | ERROR | UNKNOWN.

(** OSQP 0.6 status values (osqp/constants.h) *)
Definition OSQP_DUAL_INFEASIBLE_INACCURATE := 4%Z.
Definition OSQP_PRIMAL_INFEASIBLE_INACCURATE := 3%Z.
Definition OSQP_SOLVED_INACCURATE := 2%Z.
Definition OSQP_SOLVED := 1%Z.
Definition OSQP_MAX_ITER_REACHED := (-2)%Z.
Definition OSQP_PRIMAL_INFEASIBLE := (-3)%Z.
Definition OSQP_DUAL_INFEASIBLE := (-4)%Z.
Definition OSQP_SIGINT := (-5)%Z.
Definition OSQP_TIME_LIMIT_REACHED := (-6)%Z.
Definition OSQP_NON_CVX := (-7)%Z.
Definition OSQP_UNSOLVED := (-10)%Z.

(** LOptimizer::convertToResultStatus, LOptimizer.hpp:386-415 *)
Definition l_status (s : Z) : rstatus :=
  if Z.eqb s OSQP_SOLVED then SUCCESS
  else if Z.eqb s OSQP_MAX_ITER_REACHED then MAX_ITERATION
  else if Z.eqb s OSQP_PRIMAL_INFEASIBLE then INFEASIBLE
  else if Z.eqb s OSQP_DUAL_INFEASIBLE then INFEASIBLE
  else if Z.eqb s OSQP_SOLVED_INACCURATE then SUCCESS
  else if Z.eqb s OSQP_PRIMAL_INFEASIBLE_INACCURATE then SUCCESS
  else if Z.eqb s OSQP_DUAL_INFEASIBLE_INACCURATE then SUCCESS
  else if Z.eqb s OSQP_SIGINT then ERROR
  else if Z.eqb s OSQP_TIME_LIMIT_REACHED then UNKNOWN
  else if Z.eqb s OSQP_NON_CVX then ERROR
  else if Z.eqb s OSQP_UNSOLVED then UNKNOWN
  else UNKNOWN.

(** LOptimizer.hpp:344 *)
Definition l_feasible (s : Z) : bool :=
  Z.eqb s OSQP_SOLVED || Z.eqb s OSQP_SOLVED_INACCURATE || Z.eqb s OSQP_MAX_ITER_REACHED.

Section LMPC.
  Context {F : Type} {SO : ScalarOps F}.
  Variable junk : nat -> nat -> F.
  Variable ejunk : nat -> nat -> ext F.
  Variable d : dims.
  Notation nx := (d_nx d). Notation nu := (d_nu d). Notation ndu := (d_ndu d).
  Notation ny := (d_ny d). Notation ph := (d_ph d). Notation ch := (d_ch d).

  (** Types.hpp:99-115 and 145-163 *)
  Record lparams := mkLP {
    lp_maxit : Z; lp_tlim : F; lp_warm : bool;
    lp_alpha : F; lp_rho : F; lp_eps_rel : F; lp_eps_abs : F; lp_eps_pinf : F; lp_eps_dinf : F;
    lp_verbose : bool; lp_adaptive : bool; lp_polish : bool }.
  Definition lp_default : lparams :=
    mkLP 100 s0 false (sdec 16 10) (sdec 1 1000000) (sdec 1 10000) (sdec 1 10000)
         (sdec 1 1000) (sdec 1 1000) false true true.
  (** dynamic type of the argument of setOptimizerParameters *)
  Inductive param_arg := PLinear (p : lparams) | PNonLinear.

  (** Types.hpp:168-186 (solver_status_msg is never written by LMPC and is omitted) *)
  Record lresult := mkRes {
    r_code : Z; r_feasible : bool; r_cost : ext F; r_status : rstatus; r_cmd : mat F }.
  (** Types.hpp:188-197 *)
  Record lseq := mkSeq { q_state : mat F; q_output : mat F; q_input : mat F }.

  (** LOptimizer data members, LOptimizer.hpp:44, 370-373, 523-528 and IOptimizer.hpp *)
  Record lopt := mkOpt {
    o_yref : mat F; o_uref : mat F; o_duref : mat F; o_dist : mat F;
    o_res : lresult; o_seq : lseq; o_wx : list F; o_wy : list F; o_par : lparams }.
  Record lmpc := mkL { l_b : builder F; l_o : lopt }.

  (** the data handed to OSQP by run(), LOptimizer.hpp:201-282 *)
  Record call := mkCall {
    cl_n : nat; cl_m : nat; cl_P : csc F; cl_q : list F; cl_A : csc F;
    cl_l : list (ext F); cl_u : list (ext F); cl_par : lparams;
    cl_warm : option (list F * list F) }.

  (** answer of OSQP: setup rejected the data, or solve() ended, with or without a solution vector *)
  Inductive answer :=
  | ASetupFailed
  | ANoSolution
  | ASolution (x y : nat -> F) (code : Z) (obj : ext F).

  (** onInit, LOptimizer.hpp:59-84; Result() of Types.hpp:170-174 *)
  Definition o_init : lopt :=
    mkOpt (mzero ny ph) (mzero nu ph) (mzero nu ph) (mzero ndu ph)
      (mkRes 0 false (Fin s0) UNKNOWN (mzero nu 1))
      (mkSeq (mzero (ph + 1) nx) (mzero (ph + 1) ny) (mzero (ph + 1) nu))
      [] [] lp_default.
  Definition l_init : lmpc := mkL (b_init junk ejunk d) o_init.

  Definition vec_list {T} (n : nat) (V : mat T) : list T := map (fun i => ent V i 0) (seq 0 n).

  (** lines 197, 201-282 of run: problem generation and warm start decision *)
  Definition l_built (s : lmpc) (x0 u0 : mat F) : builder F :=
    let o := l_o s in get d (l_b s) x0 u0 (o_yref o) (o_uref o) (o_duref o) (o_dist o).
  Definition l_warm (o : lopt) : option (list F * list F) :=
    if lp_warm (o_par o) && (0 <? length (o_wx o)) && (0 <? length (o_wy o))
    then Some (o_wx o, o_wy o) else None.
  Definition l_call (s : lmpc) (x0 u0 : mat F) : call :=
    let p := b_prob (l_built s x0 u0) in
    mkCall (mrows (pP p)) (mrows (pA p)) (csc_upper (pP p))
      (vec_list (mrows (pP p)) (pq p)) (csc_full (pA p))
      (vec_list (mrows (pA p)) (pl p)) (vec_list (mrows (pA p)) (pu p))
      (o_par (l_o s)) (l_warm (l_o s)).

  (** osqp_warm_start reads n primal and m dual entries; LMPC::setSolverWarmStart does not check sizes *)
  Definition warm_ok (c : call) : bool :=
    match cl_warm c with
    | None => true
    | Some (wx, wy) => (cl_n c <=? length wx) && (cl_m c <=? length wy) end.

  (** sequence extraction, LOptimizer.hpp:305-338 *)
  Definition seq_state (x : nat -> F) (prev : mat F) : mat F :=
    loop (ph + 1) (fun i M => loop nx (fun j M => set_entry M i j (x (i * (nx + nu) + j))) M) prev.
  Definition seq_input (x : nat -> F) (prev : mat F) : mat F :=
    loop (ph + 1) (fun i M => loop nu (fun j' M =>
      let j := nx + j' in
      set_entry M i (j - nx)
        (if i + 1 <? ph + 1 then x ((i + 1) * (nx + nu) + j) else x (i * (nx + nu) + j))) M) prev.
  Definition seq_output (b : builder F) (st dist prev : mat F) : mat F :=
    loop (ph + 1) (fun i M =>
      set_mrow M i (mtrans (mapToOutput d b (mtrans (mrow st i))
                              (mcol dist (if i =? 0 then 0 else i - 1))))) prev.

  (** run, LOptimizer.hpp:189-368. [None] = undefined behaviour: with a failed osqp_setup the workspace pointer
      is uninitialised, dangling or partially built and is dereferenced at 270/280/292. *)
  Definition l_run (s : lmpc) (x0 u0 : mat F) (a : answer) : outcome lmpc :=
    let o := l_o s in
    let b := l_built s x0 u0 in
    let c := l_call s x0 u0 in
    if negb (warm_ok c) then UB else
    match a with
    | ASetupFailed => UB
    | ASolution x y code obj =>
        let st := seq_state x (q_state (o_seq o)) in
        let inp := seq_input x (q_input (o_seq o)) in
        let out := seq_output b st (o_dist o) (q_output (o_seq o)) in
        Ok (mkL b (mkOpt (o_yref o) (o_uref o) (o_duref o) (o_dist o)
          (mkRes code (l_feasible code) obj (l_status code) (mtrans (mrow inp 0)))
          (mkSeq st out inp)
          (map x (seq 0 (cl_n c))) (map y (seq 0 (cl_m c))) (o_par o)))
    | ANoSolution =>
        let z M := mzero (mrows M) (mcols M) in
        Ok (mkL b (mkOpt (o_yref o) (o_uref o) (o_duref o) (o_dist o)
          (mkRes (-1) false PInf ERROR (r_cmd (o_res o)))
          (mkSeq (z (q_state (o_seq o))) (z (q_output (o_seq o))) (z (q_input (o_seq o))))
          (o_wx o) (o_wy o) (o_par o)))
    end.

  Definition o_ok (o : lopt) : bool :=
    mok (o_yref o) && mok (o_uref o) && mok (o_duref o) && mok (o_dist o) &&
    mok (r_cmd (o_res o)) && mok (q_state (o_seq o)) && mok (q_output (o_seq o)) && mok (q_input (o_seq o)).
  Definition l_ok (s : lmpc) : bool := b_ok (l_b s) && o_ok (l_o s).

  (** ** Public API, LMPC.hpp *)
  Inductive lop :=
  | LSetModel (A B C : mat F)                                   (* setStateSpaceModel, 493-501 *)
  | LSetDisturbances (Bd Dd : mat F)                            (* setDisturbances, 518-526 *)
  | LSetStateBoundsMat (mn mx : mat (ext F))                    (* setStateBounds, 111-115 *)
  | LSetInputBoundsMat (mn mx : mat (ext F))                    (* setInputBounds, 124-128 *)
  | LSetOutputBoundsMat (mn mx : mat (ext F))                   (* setOutputBounds, 137-141 *)
  | LSetStateBounds (mn mx : mat (ext F)) (sl : slice)          (* setStateBounds, 153-190 *)
  | LSetInputBounds (mn mx : mat (ext F)) (sl : slice)          (* setInputBounds, 205-242 *)
  | LSetOutputBounds (mn mx : mat (ext F)) (sl : slice)         (* setOutputBounds, 255-292 *)
  | LSetWeightsMat (OW UW DUW : mat F)                          (* setObjectiveWeights, 306-313 *)
  | LSetWeights (OW UW DUW : mat F) (sl : slice)                (* setObjectiveWeights, 436-482 *)
  | LSetScalar (mn mx : ext F) (X U : mat F) (sl : slice)       (* setScalarConstraint, 355-396 *)
  | LSetScalarIdx (index : N) (mn mx : ext F) (X U : mat F)     (* setScalarConstraint, 409-422 *)
  | LSetExoMat (M : mat F)                                      (* setExogenousInputs, 534-538 *)
  | LSetExo (v : mat F) (sl : slice)                            (* setExogenousInputs, 550-585 *)
  | LSetRefsMat (Y U DU : mat F)                                (* setReferences, 596-602 *)
  | LSetRefs (y u du : mat F) (sl : slice)                      (* setReferences, 616-660 *)
  | LSetParams (p : param_arg)                                  (* setOptimizerParameters, 79-82 *)
  | LSetWarm (wx wy : list F)                                   (* setSolverWarmStart, 716-722 *)
  | LSetSampling | LSetInputScale | LSetStateScale              (* throw, 68-72, 88-91, 97-100 *)
  | LOptimize (x0 u0 : mat F) (a : answer).                     (* IMPC::optimize, IMPC.hpp:149-166 *)

  Inductive ret := RBool (b : bool) | RVoid | RThrow | RResult (r : lresult).

  Definition upd_b (f : builder F -> builder F) (s : lmpc) : lmpc := mkL (f (l_b s)) (l_o s).
  Definition upd_refs (Y U DU : mat F) (s : lmpc) : lmpc :=
    let o := l_o s in
    mkL (l_b s) (mkOpt Y U DU (o_dist o) (o_res o) (o_seq o) (o_wx o) (o_wy o) (o_par o)).
  Definition upd_dist (D : mat F) (s : lmpc) : lmpc :=
    let o := l_o s in
    mkL (l_b s) (mkOpt (o_yref o) (o_uref o) (o_duref o) D (o_res o) (o_seq o) (o_wx o) (o_wy o) (o_par o)).

  (** LOptimizer::setReferences(index,..), LOptimizer.hpp:141-152 *)
  Definition set_refs_step (i : nat) (y u du : mat F) (s : lmpc) : lmpc :=
    let o := l_o s in
    upd_refs (set_mcol (o_yref o) i y) (set_mcol (o_uref o) i u) (set_mcol (o_duref o) i du) s.
  (** LOptimizer::setExogenousInputs(index,..), LOptimizer.hpp:175-181 *)
  Definition set_dist_step (i : nat) (v : mat F) (s : lmpc) : lmpc :=
    upd_dist (set_mcol (o_dist (l_o s)) i v) s.

  (** the loops "Mat.col(i) = v" over fresh local matrices, e.g. LMPC.hpp:158-167 *)
  Definition replicate {T} (g : nat -> nat -> T) (n k : nat) (v : mat T) : mat T :=
    loop k (fun i M => set_mcol M i v) (mjunk g n k).

  Definition finish (s : lmpc) : outcome (lmpc * ret) :=
    if l_ok s then Ok (s, RBool true) else UB.
  (** the common shape of the slice setters. The builder and optimizer setters always return true, so
      `ret = ret && f(i)` never short-circuits. *)
  Definition on_slice (H : nat) (sl : slice) (whole : lmpc -> lmpc) (one : nat -> lmpc -> lmpc)
      (s : lmpc) : outcome (lmpc * ret) :=
    if slice_unset sl then finish (whole s)
    else match slice_check (Z.of_nat H) sl with
         | UB => UB
         | Ok false => Ok (s, RBool false)
         | Ok true => match slice_steps sl with
                      | None => UB
                      | Some l => finish (fold_left (fun s i => one i s) l s)
                      end
         end.

  Definition l_step (s : lmpc) (op : lop) : outcome (lmpc * ret) :=
    match op with
    | LSetModel A B C => finish (upd_b (b_setStateModel junk ejunk d A B C) s)
    | LSetDisturbances Bd Dd => finish (upd_b (b_setExogenousInput junk ejunk d Bd Dd) s)
    | LSetStateBoundsMat mn mx => finish (upd_b (b_setStateBoundsMat junk ejunk d mn mx) s)
    | LSetInputBoundsMat mn mx => finish (upd_b (b_setInputBoundsMat junk ejunk d mn mx) s)
    | LSetOutputBoundsMat mn mx => finish (upd_b (b_setOutputBoundsMat junk ejunk d mn mx) s)
    | LSetStateBounds mn mx sl =>
        on_slice ph sl
          (upd_b (b_setStateBoundsMat junk ejunk d (replicate ejunk nx ph mn) (replicate ejunk nx ph mx)))
          (fun i => upd_b (b_setStateBoundsStep junk ejunk d i mn mx)) s
    | LSetInputBounds mn mx sl =>
        on_slice ch sl
          (upd_b (b_setInputBoundsMat junk ejunk d (replicate ejunk nu ch mn) (replicate ejunk nu ch mx)))
          (fun i => upd_b (b_setInputBoundsStep junk ejunk d i mn mx)) s
    | LSetOutputBounds mn mx sl =>
        on_slice ph sl
          (upd_b (b_setOutputBoundsMat junk ejunk d (replicate ejunk ny ph mn) (replicate ejunk ny ph mx)))
          (fun i => upd_b (b_setOutputBoundsStep junk ejunk d i mn mx)) s
    | LSetWeightsMat OW UW DUW => finish (upd_b (b_setObjectiveMat junk ejunk d OW UW DUW) s)
    | LSetWeights OW UW DUW sl =>
        on_slice ph sl
          (upd_b (b_setObjectiveMat junk ejunk d (replicate junk ny ph OW) (replicate junk nu ph UW)
                                    (replicate junk nu ph DUW)))
          (fun i => upd_b (b_setObjectiveStep junk ejunk d i OW UW DUW)) s
    | LSetScalar mn mx X U sl =>
        on_slice ph sl
          (upd_b (b_setScalarMat junk ejunk d (mconst ph 1 mn) (mconst ph 1 mx) X U))
          (fun i => upd_b (b_setScalarStep junk ejunk d i mn mx X U)) s
    | LSetScalarIdx index mn mx X U =>
        if (N.of_nat ph <=? index)%N then Ok (s, RBool false)
        else finish (upd_b (b_setScalarStep junk ejunk d (N.to_nat index) mn mx X U) s)
    | LSetExoMat M => finish (upd_dist M s)
    | LSetExo v sl =>
        on_slice ch sl (upd_dist (replicate junk ndu ph v)) (fun i => set_dist_step i v) s
    | LSetRefsMat Y U DU => finish (upd_refs Y U DU s)
    | LSetRefs y u du sl =>
        on_slice ph sl
          (upd_refs (replicate junk ny ph y) (replicate junk nu ph u) (replicate junk nu ph du))
          (fun i => set_refs_step i y u du) s
    | LSetParams (PLinear p) =>
        let o := l_o s in
        Ok (mkL (l_b s) (mkOpt (o_yref o) (o_uref o) (o_duref o) (o_dist o) (o_res o) (o_seq o)
                               (o_wx o) (o_wy o) p), RVoid)
    | LSetParams PNonLinear => UB   (* LOptimizer.hpp:103 dereferences the null result of dynamic_cast *)
    | LSetWarm wx wy =>
        let o := l_o s in
        Ok (mkL (l_b s) (mkOpt (o_yref o) (o_uref o) (o_duref o) (o_dist o) (o_res o) (o_seq o)
                               wx wy (o_par o)), RVoid)
    | LSetSampling | LSetInputScale | LSetStateScale => Ok (s, RThrow)
    | LOptimize x0 u0 a =>
        match l_run s x0 u0 a with
        | UB => UB
        | Ok s' => if l_ok s' then Ok (s', RResult (o_res (l_o s'))) else UB
        end
    end.

  (** any history of calls after construction, with the value each call returned; it stops at
      undefined behaviour *)
  Fixpoint l_play (s : lmpc) (ops : list lop) : outcome (lmpc * list (lop * ret)) :=
    match ops with
    | [] => Ok (s, [])
    | op :: ops => match l_step s op with
                   | UB => UB
                   | Ok (s', r) => match l_play s' ops with
                                   | UB => UB
                                   | Ok (s'', h) => Ok (s'', (op, r) :: h)
                                   end
                   end
    end.
End LMPC.
Arguments lparams F : clear implicits. Arguments lresult F : clear implicits.
Arguments lseq F : clear implicits. Arguments lopt F : clear implicits.
Arguments lmpc F : clear implicits. Arguments call F : clear implicits.
Arguments answer F : clear implicits. Arguments lop F : clear implicits. Arguments ret F : clear implicits.
Arguments param_arg F : clear implicits.
