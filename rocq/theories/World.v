(** A process with any number of controllers, created, configured, run, copied and destroyed in any order, and the logger they share.
    Models include/mpc/IMPC.hpp (the facade common to LMPC and NLMPC), the construction, copy and destruction of LMPC.hpp and NLMPC.hpp, and every
    message the library sends to Logger.hpp.  The controllers themselves are the state machines of LMPC.v and NLMPC.v, the statistics those of
    Profiler.v, the logger that of Logger.v.

    Simplifications: of a message its severity and its fixed text are kept, not the numbers and matrices printed in between nor the line ends;
    the messages about OpenMP (IMPC.hpp:229-237) exist only when it is enabled and are left out; memory exhaustion is not modelled. *)
From Coq Require Import Bool Arith ZArith Lia String Reals List.
From Verif Require Import Scalar Sums Mat Slice Builder LMPC NLMap NLFun NLMPC Logger Profiler.
Import ListNotations.
Local Open Scope nat_scope.

Definition msg := (log_type * string)%type.
Definition detail (t : string) : msg := (T_DETAIL, t).
Definition info (t : string) : msg := (T_INFO, t).
Definition error (t : string) : msg := (T_ERROR, t).

(** every message of the library is one statement [Logger::instance().log(type) << text << ...] *)
Definition msg_ops (m : msg) : list gop := [GLog (fst m); GWrite (snd m)].
Definition say (ms : list msg) : list gop := concat (map msg_ops ms).

Section World.
  Context {F : Type} {SO : ScalarOps F}.
  (** limits of the clock's duration type, Profiler.hpp:45-56 *)
  Variables big low : R.

  (** *** Messages of LMPC *)
  (** what OSQP reports by return codes, LOptimizer.hpp:270-288: refused warm start, failed solve *)
  Record lenv := mkLE { le_warm : bool; le_solve : bool; le_t0 : R; le_t1 : R }.
  (** isPredictionHorizonSliceValid and isControlHorizonSliceValid, IMPC.hpp:256-283, and the loops of the slice setters, e.g. LMPC.hpp:169-189 *)
  Definition slice_msgs (H : nat) (sl : slice) (bad : string) (whole : list msg) (step : list msg) : list msg :=
    if slice_unset sl then whole
    else match slice_check (Z.of_nat H) sl with
         | Ok true => match slice_steps sl with Some l => concat (map (fun _ => step) l) | None => [] end
         | Ok false => [error bad]
         | UB => []
         end.
  Definition bad_ph : string := "The prediction horizon slice is out of bounds".
  Definition bad_ch : string := "The control horizon slice is out of bounds".
  (** the summary at the end of optimize, IMPC.hpp:157-163 *)
  Definition step_done : msg := info "Optimization step completed".
  (** LOptimizer.hpp:202-211 *)
  Definition rule : msg := detail "---------------------".
  Definition l_problem_msgs : list msg := [detail "P = "; rule; detail "A = "; rule; detail "q = "; rule; detail "l = "; rule; detail "u = "; rule].

  Definition l_msgs (d : dims) (s : lmpc F) (op : lop F) (e : lenv) : list msg :=
    match op with
    | LSetModel _ _ _ => [detail "Setting state space model"]                                       (* LMPC.hpp:498 *)
    | LSetDisturbances _ _ => [detail "Setting disturbances matrices"]                              (* 523 *)
    | LSetStateBoundsMat _ _ => [detail "Setting state bounds"]                                     (* 113 *)
    | LSetInputBoundsMat _ _ => [detail "Setting input bounds"]                                     (* 126 *)
    | LSetOutputBoundsMat _ _ => [detail "Setting output bounds"]                                   (* 139 *)
    | LSetStateBounds _ _ sl => slice_msgs (d_ph d) sl bad_ph [detail "Setting state bounds equally on the horizon"] [detail "Setting state bounds for the step "]
    | LSetInputBounds _ _ sl => slice_msgs (d_ch d) sl bad_ch [detail "Setting input bounds equally on the horizon"] [detail "Setting input bounds for the step "]
    | LSetOutputBounds _ _ sl => slice_msgs (d_ph d) sl bad_ph [detail "Setting output bounds equally on the horizon"] [detail "Setting output bounds for the step "]
    | LSetWeightsMat _ _ _ => [detail "Setting weights"]                                            (* 311 *)
    | LSetWeights _ _ _ sl => slice_msgs (d_ph d) sl bad_ph [detail "Setting weights equally on the horizon"] [detail "Setting weights for the step "]
    | LSetScalar _ _ _ _ sl => slice_msgs (d_ph d) sl bad_ph [detail "Setting scalar constraint equally on the horizon"] [detail "Setting scalar constraints for the step "]
    | LSetScalarIdx i _ _ _ _ => if (N.of_nat (d_ph d) <=? i)%N then [error "Horizon index out of bounds"] else [detail "Setting scalar constraint"]   (* 414-420 *)
    | LSetExoMat _ => []                                                                            (* 534-538 *)
    | LSetExo _ sl => slice_msgs (d_ch d) sl bad_ch [] []                                           (* 550-585 *)
    | LSetRefsMat _ _ _ => []                                                                       (* 596-602 *)
    | LSetRefs _ _ _ sl => slice_msgs (d_ph d) sl bad_ph [] [detail "Setting references for the step "]     (* 616-660 *)
    | LSetParams _ => [detail "Setting tolerances and stopping criterias"]                          (* LOptimizer.hpp:105 *)
    | LSetWarm _ _ => []
    | LSetSampling | LSetInputScale | LSetStateScale => []
    | LOptimize x0 u0 a =>
        l_problem_msgs
        ++ (match a with ASetupFailed => [error "Unable to setup "] | _ => [] end)                   (* LOptimizer.hpp:262-265 *)
        ++ (match l_warm (l_o s) with Some _ => if le_warm e then [error "Unable to warm start "] else [] | None => [] end)   (* 267-275 *)
        ++ (if le_solve e then [error "Unable to solve "] else [])                                   (* 284-288 *)
        ++ (match a with ASolution _ _ _ _ => detail "Optimal vector: " :: repeat (detail "") (cl_n (l_call d s x0 u0)) | _ => [] end)   (* 298-302 *)
        ++ [step_done]
    end.

  (** *** Messages of NLMPC *)
  (** the messages of the evaluations the solver asked for (Objective.hpp:145-168, Constraints.hpp:209-443, 525, 582: all of severity DETAIL), and the clock *)
  Record nenv := mkNE { ne_evals : list string; ne_t0 : R; ne_t1 : R }.
  (** updateBounds, NLOptimizer.hpp:648-668 *)
  Definition bounds_msgs : list msg := [detail "Setting lower bounds: "; detail ""; detail "Setting upper bounds: "; detail ""].
  (** setParameters, NLOptimizer.hpp:147-191 *)
  Definition params_msgs : list msg :=
    [detail "Setting relative function tolerance: "; detail "Setting relative variable tolerance: "; detail "Setting absolute function tolerance: ";
     detail "Setting maximum number of function evaluations: "; detail "Setting maximum time limit: "] ++ bounds_msgs ++ [detail "Setting tolerances and stopping criterias"].
  (** bindEq, bindUserIneq, bindUserEq: NLOptimizer.hpp:242-252, 279-289, 317-327 *)
  Definition bind_msgs (acc : bool) (ok : string) : list msg := if acc then [detail ok] else [detail "Unable to bind constraints function\n"].
  Definition no_output : msg := error "Output constraints cannot be set for this type of MPC, the ouput is not considered in the optimization process. Thus we cannot restrict the search space.".
  (** isFeasible, Constraints.hpp:151-187 *)
  Definition feas_msgs (d : dims) (ni ne : nat) (s : nmpc F) (x0 opt : mat F) : list msg :=
    (match n_ieq s with Some _ => [detail "User inequality constraints value (feasibility):\n"] | None => [] end)
    ++ (match n_eqc s with
        | Some _ => if is_feasible d ni ne (n_map s) (n_ieq s) None (n_out s) (n_itol s) (n_etol s) x0 opt then [detail "User equality constraints value (feasibility):\n"] else []
        | None => [] end).
  Definition n_msgs (d : dims) (ni ne : nat) (s : nmpc F) (op : nop F) (e : nenv) : list msg :=
    match op with
    | NSetSampling _ => [detail "Setting sampling time to: "]                                       (* NLMPC.hpp:82 *)
    | NSetParams _ => params_msgs
    | NSetInputScale _ | NSetStateScale _ => []
    | NSetObjective _ acc => [detail "Setting objective function handle"; detail "Binding objective function handle"]
                             ++ (if acc then [] else [detail "Unable to bind objective function: "])  (* NLMPC.hpp:141-149, NLOptimizer.hpp:212 *)
    | NSetDynamics _ _ acc => [detail "Setting state space function handle"; detail "Binding state space constraints"]
                              ++ bind_msgs acc "Adding state defined equality constraints"          (* NLMPC.hpp:176-188 *)
    | NSetOutput _ => [detail "Setting output function handle"]                                     (* NLMPC.hpp:204 *)
    | NSetIneq _ _ acc => bind_msgs acc "Adding user inequality constraints"
    | NSetEq _ _ acc => bind_msgs acc "Adding user equality constraints"
    | NSetStateBoundsMat _ _ => concat (repeat bounds_msgs (d_ph d))                                (* NLMPC.hpp:270-284 *)
    | NSetInputBoundsMat _ _ => concat (repeat bounds_msgs (d_ch d))                                (* NLMPC.hpp:295-309 *)
    | NSetStateBounds _ _ sl => if slice_unset sl then bounds_msgs else match slice_check (Z.of_nat (d_ph d)) sl with Ok true => bounds_msgs | Ok false => [error bad_ph] | UB => [] end
    | NSetInputBounds _ _ sl => if slice_unset sl then bounds_msgs else match slice_check (Z.of_nat (d_ch d)) sl with Ok true => bounds_msgs | Ok false => [error bad_ch] | UB => [] end
    | NSetOutputBoundsMat _ _ | NSetOutputBounds _ _ _ => [no_output]                               (* NLMPC.hpp:322, 390 *)
    | NOptimize x0 u0 a =>
        map detail (ne_evals e)
        ++ (match a with
            | NThrow => [detail "No optimal solution found: "]                                      (* NLOptimizer.hpp:526, 537 *)
            | NSolved z _ _ =>                                                                      (* NLOptimizer.hpp:508-522, 554-585 *)
                let opt := mvec (n_dec d) z in
                feas_msgs d ni ne s x0 opt
                ++ [detail (if is_feasible d ni ne (n_map s) (n_ieq s) (n_eqc s) (n_out s) (n_itol s) (n_etol s) x0 opt then "Optimal solution found" else "Optimal solution found but not feasible")]
                ++ [detail "Optimization end after: "; detail "Optimization end with code: "; detail "Optimization end with cost: ";
                    detail "Optimal predicted state vector\n"; detail "Optimal predicted control input vector\n"]
            end)
        ++ [step_done]
    end.

  (** *** The process *)
  (** what IMPC::optPtr and the other pointers of a controller lead to: the optimizer object and the objects it uses.  For LMPC the builder, a
      member of the controller itself, is included (LMPC.hpp:745); for NLMPC objF, conF, model and mapping (NLMPC.hpp:461-464) *)
  Inductive core :=
  | CL (d : dims) (junk : nat -> nat -> F) (ejunk : nat -> nat -> ext F) (s : lmpc F)
  | CN (d : dims) (ni ne : nat) (dyn : bool) (junk : nat -> nat -> F) (s : nmpc F).
  (** [c_alive]: the object behind optPtr has not been deleted *)
  Record cell := mkCell { c_core : core; c_alive : bool }.
  (** a controller variable: the pointer, and the Profiler it holds by value (IMPC.hpp:295-296) *)
  Record ctrl := mkCtrl { k_cell : nat; k_prof : prof }.
  (** [w_ctrls]: the variables in order of construction, None after destruction; [w_out]: all that has been written to the streams *)
  Record world := mkW { w_cells : list cell; w_ctrls : list (option ctrl); w_log : logger; w_out : output }.
  Definition w_init : world := mkW [] [] g_new [].

  Inductive wop :=
  | WNewL (d : dims) (junk : nat -> nat -> F) (ejunk : nat -> nat -> ext F)                          (* LMPC(...), LMPC.hpp:51-61 *)
  | WNewN (d : dims) (ni ne : nat) (dyn : bool) (junk : nat -> nat -> F)                             (* NLMPC(...), NLMPC.hpp:54-66 *)
  | WCopy (i : nat)                                                                                 (* NLMPC b(a): implicit copy constructor *)
  | WAssign (i j : nat)                                                                             (* i = j: implicit copy assignment *)
  | WDelete (i : nat)                                                                               (* LMPC.hpp:63, NLMPC.hpp:68-71 *)
  | WL (i : nat) (op : lop F) (e : lenv)                                                            (* any call of LMPC.v *)
  | WN (i : nat) (op : nop F) (e : nenv)                                                            (* any call of NLMPC.v *)
  | WGetResult (i : nat)                                                                            (* getLastResult, IMPC.hpp:173-176 *)
  | WGetSequence (i : nat)                                                                          (* getOptimalSequence, IMPC.hpp:183-186 *)
  | WGetStats (i : nat)                                                                             (* getExecutionStats, IMPC.hpp:199-202 *)
  | WResetStats (i : nat)                                                                           (* resetStats, IMPC.hpp:214-217 *)
  | WLevel (i : nat) (l : log_level)                                                                (* setLoggerLevel, IMPC.hpp:123-127 *)
  | WPrefix (i : nat) (p : string)                                                                  (* setLoggerPrefix, IMPC.hpp:136-140 *)
  | WLogger (o : gop).                                                                              (* Logger::instance() used directly *)

  Inductive wret := VDone | VRet (r : ret F) | VResult (r : lresult F) | VSequence (q : lseq F) | VStats (s : stats).
  (** [WBad]: not an execution of the program (no such variable, call of the other class, copy of an LMPC - whose builder holds a class with
      deleted copy operations, ProblemBuilder.hpp:45-46 -, or the assertion on the dimensions fails, IDimensionable.hpp:57) *)
  Inductive wout := WBad | WUB | WOk (w : world) (v : wret).

  Fixpoint upd {A} (l : list A) (i : nat) (x : A) : list A :=
    match l, i with [], _ => [] | _ :: l, O => x :: l | y :: l, S i => y :: upd l i x end.
  Definition ctl (w : world) (i : nat) : option (ctrl * cell) :=
    match nth_error (w_ctrls w) i with
    | Some (Some k) => match nth_error (w_cells w) (k_cell k) with Some c => Some (k, c) | None => None end
    | _ => None end.
  (** the messages of a call reach the logger *)
  Definition speak (ms : list msg) (w : world) (v : wret) : wout :=
    match g_play (w_log w) (say ms) with
    | UB => WUB
    | Ok (g, o) => WOk (mkW (w_cells w) (w_ctrls w) g (w_out w ++ o)) v end.
  Definition set_core_as (k : nat) (c : core) (alive : bool) (w : world) : world := mkW (upd (w_cells w) k (mkCell c alive)) (w_ctrls w) (w_log w) (w_out w).
  Definition set_ctrl (i : nat) (k : option ctrl) (w : world) : world := mkW (w_cells w) (upd (w_ctrls w) i k) (w_log w) (w_out w).
  (** optimize: profiler.solutionStart, run, profiler.solutionEnd, IMPC.hpp:151-155 *)
  Definition profiled (r : ret F) (t0 t1 : R) (k : ctrl) : ctrl :=
    match r with RResult x => mkCtrl (k_cell k) (p_step big low (k_prof k) (POptimize t0 t1 (r_status x))) | _ => k end.
  Definition fresh_prof : prof := mkProf 0 (s_clear big low).
  (** calls of NLMPC that do not touch the object behind optPtr: setDiscretizationSamplingTime, setOutputBounds, refused slices *)
  Definition optimizer_free (d : dims) (op : nop F) : bool :=
    match op with
    | NSetSampling _ | NSetOutputBoundsMat _ _ | NSetOutputBounds _ _ _ => true
    | NSetStateBounds _ _ sl => negb (slice_unset sl) && match slice_check (Z.of_nat (d_ph d)) sl with Ok false => true | _ => false end
    | NSetInputBounds _ _ sl => negb (slice_unset sl) && match slice_check (Z.of_nat (d_ch d)) sl with Ok false => true | _ => false end
    | _ => false end.

  Definition core_result (c : core) : lresult F := match c with CL _ _ _ s => o_res (l_o s) | CN _ _ _ _ _ s => n_res s end.
  Definition core_sequence (c : core) : lseq F := match c with CL _ _ _ s => o_seq (l_o s) | CN _ _ _ _ _ s => n_seq s end.

  Definition w_step (w : world) (op : wop) : wout :=
    match op with
    | WNewL d junk ejunk =>
        if (d_ph d =? 0) || (d_ch d =? 0) then WBad else
        WOk (mkW (w_cells w ++ [mkCell (CL d junk ejunk (l_init junk ejunk d)) true]) (w_ctrls w ++ [Some (mkCtrl (length (w_cells w)) fresh_prof)]) (w_log w) (w_out w)) VDone
    | WNewN d ni ne dyn junk =>                            (* NLMPC.hpp:405-441 *)
        if (d_ph d =? 0) || (d_ch d =? 0) then WBad else
        match n_new d with
        | UB => WUB
        | Ok s => speak (params_msgs ++ [info "Mapping assignment done"])
                    (mkW (w_cells w ++ [mkCell (CN d ni ne dyn junk s) true]) (w_ctrls w ++ [Some (mkCtrl (length (w_cells w)) fresh_prof)]) (w_log w) (w_out w)) VDone
        end
    | WCopy i =>                                           (* the pointer is copied, the statistics are copied by value *)
        match ctl w i with
        | Some (k, mkCell (CN _ _ _ _ _ _) _) => WOk (mkW (w_cells w) (w_ctrls w ++ [Some k]) (w_log w) (w_out w)) VDone
        | _ => WBad end
    | WAssign i j =>
        match ctl w i, ctl w j with
        | Some (_, mkCell (CN _ _ _ _ _ _) _), Some (k, mkCell (CN _ _ _ _ _ _) _) => WOk (set_ctrl i (Some k) w) VDone
        | _, _ => WBad end
    | WDelete i =>
        match ctl w i with
        | Some (k, mkCell (CN d ni ne dyn junk s) alive) =>      (* delete optPtr *)
            if alive then WOk (set_ctrl i None (set_core_as (k_cell k) (CN d ni ne dyn junk s) false w)) VDone else WUB
        | Some (k, mkCell (CL _ _ _ _) _) => WOk (set_ctrl i None w) VDone   (* optPtr is not deleted *)
        | None => WBad end
    | WL i op e =>
        match ctl w i with
        | Some (k, mkCell (CL d junk ejunk s) alive) =>
            match l_step junk ejunk d s op with
            | UB => WUB
            | Ok (s', r) => speak (l_msgs d s op e) (set_ctrl i (Some (profiled r (le_t0 e) (le_t1 e) k)) (set_core_as (k_cell k) (CL d junk ejunk s') alive w)) (VRet r)
            end
        | _ => WBad end
    | WN i op e =>
        match ctl w i with
        | Some (k, mkCell (CN d ni ne dyn junk s) alive) =>
            if negb alive && negb (optimizer_free d op) then WUB else
            match n_step junk d ni ne dyn s op with
            | UB => WUB
            | Ok (s', r) => speak (n_msgs d ni ne s op e) (set_ctrl i (Some (profiled r (ne_t0 e) (ne_t1 e) k)) (set_core_as (k_cell k) (CN d ni ne dyn junk s') alive w)) (VRet r)
            end
        | _ => WBad end
    | WGetResult i => match ctl w i with Some (_, c) => if c_alive c then WOk w (VResult (core_result (c_core c))) else WUB | None => WBad end
    | WGetSequence i => match ctl w i with Some (_, c) => if c_alive c then WOk w (VSequence (core_sequence (c_core c))) else WUB | None => WBad end
    | WGetStats i => match ctl w i with Some (k, _) => WOk w (VStats (p_stats (k_prof k))) | None => WBad end
    | WResetStats i => match ctl w i with Some (k, _) => WOk (set_ctrl i (Some (mkCtrl (k_cell k) (p_step big low (k_prof k) PReset))) w) VDone | None => WBad end
    | WLevel i l => match ctl w i with Some _ => match g_step (w_log w) (GLevel l) with Ok (g, o) => WOk (mkW (w_cells w) (w_ctrls w) g (w_out w ++ o)) (VRet (RBool true)) | UB => WUB end | None => WBad end
    | WPrefix i p => match ctl w i with Some _ => match g_step (w_log w) (GPrefix p) with Ok (g, o) => WOk (mkW (w_cells w) (w_ctrls w) g (w_out w ++ o)) (VRet (RBool true)) | UB => WUB end | None => WBad end
    | WLogger o => match g_step (w_log w) o with Ok (g, x) => WOk (mkW (w_cells w) (w_ctrls w) g (w_out w ++ x)) VDone | UB => WUB end
    end.

  Inductive wfin := FBad | FUB | FOk (w : world) (vs : list wret).
  Fixpoint w_run (w : world) (ops : list wop) : wfin :=
    match ops with
    | [] => FOk w []
    | op :: ops => match w_step w op with
                   | WBad => FBad
                   | WUB => FUB
                   | WOk w1 v => match w_run w1 ops with FBad => FBad | FUB => FUB | FOk w2 vs => FOk w2 (v :: vs) end
                   end
    end.
End World.
Arguments core F : clear implicits. Arguments cell F : clear implicits. Arguments world F : clear implicits. Arguments wop F : clear implicits.
Arguments wret F : clear implicits. Arguments wout F : clear implicits. Arguments wfin F : clear implicits.
