(** Model of include/mpc/NLMPC/NLOptimizer.hpp and include/mpc/NLMPC.hpp as a state machine.
    The external solver (NLopt) is not modelled: each operation that can be refused by the solver carries its verdict [acc]
    (true: accepted), each [NOptimize] the answer the solver gave; both are universally quantified in the theorems. *)
From Coq Require Import Bool Arith ZArith List Lia.
From Verif Require Import Scalar Sums Mat Slice Builder LMPC NLMap NLFun.
Import ListNotations.

(** nlopt::result codes (nlopt.h) *)
Definition NLOPT_FAILURE := (-1)%Z.
Definition NLOPT_INVALID_ARGS := (-2)%Z.
Definition NLOPT_OUT_OF_MEMORY := (-3)%Z.
Definition NLOPT_ROUNDOFF_LIMITED := (-4)%Z.
Definition NLOPT_FORCED_STOP := (-5)%Z.
Definition NLOPT_SUCCESS := 1%Z.
Definition NLOPT_STOPVAL_REACHED := 2%Z.
Definition NLOPT_FTOL_REACHED := 3%Z.
Definition NLOPT_XTOL_REACHED := 4%Z.
Definition NLOPT_MAXEVAL_REACHED := 5%Z.
Definition NLOPT_MAXTIME_REACHED := 6%Z.
(** convertToResultStatus, NLOptimizer.hpp:683-704 *)
Definition n_status (s : Z) : rstatus :=
  if Z.eqb s NLOPT_FAILURE || Z.eqb s NLOPT_INVALID_ARGS || Z.eqb s NLOPT_OUT_OF_MEMORY
     || Z.eqb s NLOPT_ROUNDOFF_LIMITED || Z.eqb s NLOPT_FORCED_STOP then ERROR
  else if Z.eqb s NLOPT_SUCCESS || Z.eqb s NLOPT_STOPVAL_REACHED || Z.eqb s NLOPT_FTOL_REACHED
     || Z.eqb s NLOPT_XTOL_REACHED then SUCCESS
  else if Z.eqb s NLOPT_MAXEVAL_REACHED || Z.eqb s NLOPT_MAXTIME_REACHED then MAX_ITERATION
  else UNKNOWN.

(** [slice.start == -1 ? 0 : slice.start] and [slice.end == -1 ? H : slice.end] followed by the loop over size_t,
    NLOptimizer.hpp:351-355 and 385-389.  [None]: both ends negative, the loop writes at indices of magnitude 2^64
    (nothing is written when the vector has no components, a case the model does not single out). *)
Definition nl_steps (H : nat) (s : slice) : option (list nat) :=
  slice_steps (mkSlice (if (sl_start s =? -1)%Z then 0%Z else sl_start s)
                       (if (sl_end s =? -1)%Z then Z.of_nat H else sl_end s)).

Section NLMPC.
  Context {F : Type} {SO : ScalarOps F}.
  Variable junk : nat -> nat -> F.
  Variable d : dims.
  (** number of user inequality and equality constraints; [dyn_eq]: the template parameter Teq is Eigen::Dynamic *)
  Variables ni ne : nat.
  Variable dyn_eq : bool.
  Notation nx := (d_nx d). Notation nu := (d_nu d). Notation ny := (d_ny d).
  Notation ph := (d_ph d). Notation ch := (d_ch d).

  (** Types.hpp:99-139 *)
  Record nparams := mkNP {
    np_maxit : Z; np_tlim : F; np_warm : bool;
    np_rftol : F; np_rxtol : F; np_aftol : F; np_axtol : F; np_hard : bool }.
  Definition np_default : nparams := mkNP 100 s0 false (sopp s1) (sopp s1) (sopp s1) (sopp s1) true.
  (** dynamic type of the argument of setOptimizerParameters *)
  Inductive nparam_arg := NPNonLinear (p : nparams) | NPLinear.

  (** stopping criteria held by the nlopt::opt object (all zero, i.e. disabled, after its construction) *)
  Record sparams := mkSP { sp_rftol : F; sp_rxtol : F; sp_aftol : F; sp_axtol : F; sp_maxtime : F; sp_maxeval : Z }.
  Definition sp_fresh : sparams := mkSP s0 s0 s0 s0 s0 0.

  (** constraints registered with the solver: which wrapper (NLOptimizer.hpp:743, 781, 819) and the tolerances *)
  Inductive ckind := KDyn | KIneq | KEq.

  (** data members of Mapping, Model, Objective, Constraints, NLOptimizer and of the nlopt::opt object *)
  Record nmpc := mkN {
    n_map : mapping F;                                             (* Mapping *)
    n_ts : option F; n_dyn : option (dyn_t F); n_out : option (out_t F);   (* Model.hpp *)
    n_obj : option (obj_t F);                                      (* Objective.hpp *)
    n_ieq : option (ieq_t F); n_itol : F; n_eqc : option (eqc_t F); n_etol : F;  (* Constraints.hpp *)
    n_bobj : bool; n_cons : list (ckind * list F); n_par : sparams;  (* nlopt::opt *)
    n_slb : mat (ext F); n_sub : mat (ext F);                      (* bounds held by nlopt::opt *)
    n_lb : mat (ext F); n_ub : mat (ext F); n_opt : mat F;         (* NLOptimizer.hpp:857-858 *)
    n_first : bool; n_warm : bool;                                 (* NLOptimizer.hpp:859-860 *)
    n_slack : F; n_res : lresult F; n_seq : lseq F }.              (* IOptimizer.hpp *)

  (** answer of innerOpt->optimize: an exception, or a point with its result code and objective value *)
  Inductive nanswer := NThrow | NSolved (z : nat -> F) (code : Z) (cost : ext F).

  (** *** setParameters and updateBounds *)
  (** updateBounds, NLOptimizer.hpp:635-645 *)
  Definition update_bounds (s : nmpc) : nmpc :=
    mkN (n_map s) (n_ts s) (n_dyn s) (n_out s) (n_obj s) (n_ieq s) (n_itol s) (n_eqc s) (n_etol s)
        (n_bobj s) (n_cons s) (n_par s) (n_lb s) (n_ub s) (n_lb s) (n_ub s) (n_opt s)
        (n_first s) (n_warm s) (n_slack s) (n_res s) (n_seq s).
  Definition with_bounds (l u : mat (ext F)) (s : nmpc) : nmpc :=
    mkN (n_map s) (n_ts s) (n_dyn s) (n_out s) (n_obj s) (n_ieq s) (n_itol s) (n_eqc s) (n_etol s)
        (n_bobj s) (n_cons s) (n_par s) (n_slb s) (n_sub s) l u (n_opt s)
        (n_first s) (n_warm s) (n_slack s) (n_res s) (n_seq s).
  Definition with_par (p : sparams) (w : bool) (s : nmpc) : nmpc :=
    mkN (n_map s) (n_ts s) (n_dyn s) (n_out s) (n_obj s) (n_ieq s) (n_itol s) (n_eqc s) (n_etol s)
        (n_bobj s) (n_cons s) p (n_slb s) (n_sub s) (n_lb s) (n_ub s) (n_opt s)
        (n_first s) w (n_slack s) (n_res s) (n_seq s).
  (** NLOptimizer.hpp:126-192 *)
  Definition set_params (p : nparams) (s : nmpc) : nmpc :=
    let q := n_par s in
    let mt := if sltb s0 (np_tlim p) then np_tlim p else sp_maxtime q in
    let s := with_par (mkSP (np_rftol p) (np_rxtol p) (np_aftol p) (np_axtol p) mt (np_maxit p)) (np_warm p) s in
    let s := if np_hard p
             then with_bounds (set_entry (n_lb s) (n_dec d - 1) 0 (Fin s0)) (set_entry (n_ub s) (n_dec d - 1) 0 (Fin s0)) s
             else s in
    update_bounds s.

  (** NLMPC.hpp:402-440 and NLOptimizer.hpp:62-89 (x0 of Objective and Constraints is written by every optimize before it
      is read and is therefore an argument of the evaluations below) *)
  Definition n_init : nmpc :=
    let inf_lo := mconst (n_dec d) 1 MInf in let inf_hi := mconst (n_dec d) 1 PInf in
    set_params np_default
      (mkN (map_init d) None None None None None s0 None s0 false [] sp_fresh
           inf_lo inf_hi inf_lo inf_hi (mzero (n_dec d) 1) true false s0
           (mkRes 0 false (Fin s0) UNKNOWN (mzero nu 1))
           (mkSeq (mzero (ph + 1) nx) (mzero (ph + 1) ny) (mzero (ph + 1) nu))).

  (** *** bounds *)
  (** the loops of setStateBounds (off = 0, w = nx; 354-361) and setInputBounds (off = ph*nx, w = nu; 388-395) *)
  Definition write_step (off w : nat) (v : mat (ext F)) (M : mat (ext F)) (i : nat) : mat (ext F) :=
    loop w (fun j M => set_entry M (off + i * w + j) 0 (ent v j 0)) M.
  Definition write_steps (off w : nat) (v : mat (ext F)) (l : list nat) (M : mat (ext F)) : mat (ext F) :=
    fold_left (write_step off w v) l M.
  (** lower_bounds(j) for j < w must be in range *)
  Definition covers (w : nat) (v : mat (ext F)) : bool := mok v && (w <=? mrows v).
  Definition n_bounds (off w H : nat) (lo hi : mat (ext F)) (sl : slice) (s : nmpc) : outcome nmpc :=
    match nl_steps H sl with
    | None => UB
    | Some [] => Ok (update_bounds s)
    | Some l => let L := write_steps off w lo l (n_lb s) in let U := write_steps off w hi l (n_ub s) in
                if covers w lo && covers w hi && mok L && mok U then Ok (update_bounds (with_bounds L U s)) else UB
    end.
  (** NLMPC.hpp:270-284 and 295-309: one call per column of the matrices *)
  Definition n_bounds_mat (off w H : nat) (lo hi : mat (ext F)) (s : nmpc) : outcome nmpc :=
    loop H (fun i o => match o with
                       | UB => UB
                       | Ok s => n_bounds off w H (mcol lo i) (mcol hi i) (mkSlice (Z.of_nat i) (Z.of_nat i + 1)) s
                       end) (Ok s).

  (** *** run *)
  (** NLOptimizer.hpp:420-440 *)
  Definition cold_fill (x0 u0 v : mat F) : mat F :=
    let v := loop ph (fun i v => loop nx (fun j v => set_entry v (i * nx + j) 0 (ent x0 j 0)) v) v in
    loop ch (fun i v => loop nu (fun j v => set_entry v (ph * nx + i * nu + j) 0 (ent u0 j 0)) v) v.
  Definition n_start (s : nmpc) (x0 u0 : mat F) : mat F :=
    if n_first s || negb (n_warm s) then cold_fill x0 u0 (n_opt s) else n_opt s.
  (** NLOptimizer.hpp:442-496: the point the solver starts from *)
  Definition n_guess (s : nmpc) (x0 u0 : mat F) : mat F :=
    let v := n_start s x0 u0 in
    let g := mzero (n_dec d) 1 in
    let g := loop ph (fun i g => loop nx (fun j g =>
               set_entry g (i * nx + j) 0 (if i =? ph - 1 then ent v (i * nx + j) 0 else ent v ((i + 1) * nx + j) 0)) g) g in
    let tmp := mmul (mp_z2u (n_map s)) (middle_rows v (ph * nx) (nu * ch)) in
    let Uv := loop ph (fun i U => loop nu (fun j U =>
               set_entry U (i * nu + j) 0 (if i =? ph - 1 then ent tmp (i * nu + j) 0 else ent tmp ((i + 1) * nu + j) 0)) U)
               (mjunk junk (ph * nu) 1) in
    let res := mmul (mp_u2z (n_map s)) (guard (mok tmp) Uv) in
    let g := loop (nu * ch) (fun i g => set_entry g (ph * nx + i) 0 (ent res i 0)) g in
    guard (mok v && mok res) (set_entry g (n_dec d - 1) 0 (n_slack s)).

  (** what the solver can observe: starting point, bounds, criteria, and the functions registered with it.
      Decision vectors are lists; an evaluation returns the value(s) and the gradient (row-major, one row per constraint). *)
  Definition vec_of (z : list F) : mat F := mvec (length z) (fun i => nth i z s0).
  Definition eval_obj (s : nmpc) (x0 : mat F) (z : list F) : outcome (F * list F) :=
    match n_obj s with
    | None => UB
    | Some f => let '(v, g) := obj_evaluate junk d (n_map s) f (n_out s) x0 (vec_of z) in
                if mok g then Ok (v, lst g) else UB
    end.
  Definition eval_con (s : nmpc) (x0 : mat F) (k : ckind) (z : list F) : outcome (list F * list F) :=
    let fin '(v, g) := if mok v && mok g then Ok (lst v, lst g) else UB in
    match k with
    | KDyn => match n_dyn s with None => UB | Some f => fin (seq_evaluate junk d (n_map s) f (n_ts s) x0 (vec_of z)) end
    | KIneq => match n_ieq s with None => UB | Some c => fin (ieq_evaluate junk d ni (n_map s) c (n_out s) x0 (vec_of z)) end
    | KEq => match n_eqc s with None => UB | Some c => fin (eqc_evaluate junk d ne (n_map s) c x0 (vec_of z)) end
    end.
  Record ncall := mkNC {
    nc_guess : list F; nc_lo : list (ext F); nc_hi : list (ext F); nc_par : sparams;
    nc_obj : option (list F -> outcome (F * list F));
    nc_cons : list (ckind * list F * (list F -> outcome (list F * list F))) }.
  Definition elst (V : mat (ext F)) : list (ext F) := map (fun i => ent V i 0) (seq 0 (mrows V)).
  Definition n_call (s : nmpc) (x0 u0 : mat F) : ncall :=
    mkNC (lst (n_guess s x0 u0)) (elst (n_slb s)) (elst (n_sub s)) (n_par s)
      (if n_bobj s then Some (eval_obj s x0) else None)
      (map (fun '(k, tol) => (k, tol, eval_con s x0 k)) (n_cons s)).

  (** NLOptimizer.hpp:498-607 *)
  Definition with_run (opt : mat F) (first : bool) (sl : F) (r : lresult F) (q : lseq F) (s : nmpc) : nmpc :=
    mkN (n_map s) (n_ts s) (n_dyn s) (n_out s) (n_obj s) (n_ieq s) (n_itol s) (n_eqc s) (n_etol s)
        (n_bobj s) (n_cons s) (n_par s) (n_slb s) (n_sub s) (n_lb s) (n_ub s) opt
        first (n_warm s) sl r q.
  Definition has_eq (s : nmpc) : bool := match n_eqc s with Some _ => true | None => false end.
  Definition n_run (s : nmpc) (x0 u0 : mat F) (a : nanswer) : outcome nmpc :=
    if negb (mok (n_guess s x0 u0)) then UB else
    match a with
    | NThrow =>
        let z M := mzero (mrows M) (mcols M) in
        let q := n_seq s in
        Ok (with_run (n_start s x0 u0) (n_first s) (n_slack s)
              (mkRes (-1) false PInf ERROR (r_cmd (n_res s)))
              (mkSeq (z (q_state q)) (z (q_output q)) (z (q_input q))) s)
    | NSolved z code cost =>
        let opt := mvec (n_dec d) z in
        (* maxCoeff of an empty array, Constraints.hpp:183 *)
        if has_eq s && (ne =? 0) then UB else
        let feas := is_feasible d ni ne (n_map s) (n_ieq s) (n_eqc s) (n_out s) (n_itol s) (n_etol s) x0 opt in
        let X := unwrap_X d (n_map s) opt x0 in let U := unwrap_U d (n_map s) opt in
        let Y := get_output d (n_out s) X U in
        let q := mkSeq (block X 0 0 (ph + 1) nx) (block Y 0 0 (ph + 1) ny) (block U 0 0 (ph + 1) nu) in
        let cmd := mtrans (mrow U 0) in
        if mok (q_state q) && mok (q_output q) && mok (q_input q) && mok cmd then
          Ok (with_run opt false (unwrap_e opt) (mkRes code feas cost (n_status code) cmd) q s)
        else UB
    end.

  (** *** Public API, NLMPC.hpp *)
  Inductive nop :=
  | NSetSampling (ts : F)                                        (* setDiscretizationSamplingTime, 80-90 *)
  | NSetParams (p : nparam_arg)                                  (* setOptimizerParameters, 97-100 *)
  | NSetInputScale (sc : mat F)                                  (* setInputScale, 108-115 *)
  | NSetStateScale (sc : mat F)                                  (* setStateScale, 123-130 *)
  | NSetObjective (f : obj_t F) (acc : bool)                     (* setObjectiveFunction, 139-153 *)
  | NSetDynamics (f : dyn_t F) (tol : F) (acc : bool)            (* setStateSpaceFunction, 165-193 *)
  | NSetOutput (g : out_t F)                                     (* setOutputFunction, 202-215 *)
  | NSetIneq (c : ieq_t F) (tol : F) (acc : bool)                (* setIneqConFunction, 228-237 *)
  | NSetEq (c : eqc_t F) (tol : F) (acc : bool)                  (* setEqConFunction, 250-259 *)
  | NSetStateBoundsMat (lo hi : mat (ext F))                     (* setStateBounds, 270-284 *)
  | NSetInputBoundsMat (lo hi : mat (ext F))                     (* setInputBounds, 295-309 *)
  | NSetOutputBoundsMat (lo hi : mat (ext F))                    (* setOutputBounds, 320-328 *)
  | NSetStateBounds (lo hi : mat (ext F)) (sl : slice)           (* setStateBounds, 340-352 *)
  | NSetInputBounds (lo hi : mat (ext F)) (sl : slice)           (* setInputBounds, 364-376 *)
  | NSetOutputBounds (lo hi : mat (ext F)) (sl : slice)          (* setOutputBounds, 388-396 *)
  | NOptimize (x0 u0 : mat F) (a : nanswer).                     (* IMPC::optimize, IMPC.hpp:149-166 *)

  Definition with_model (m : mapping F) (ts : option F) (f : option (dyn_t F)) (g : option (out_t F)) (s : nmpc) : nmpc :=
    mkN m ts f g (n_obj s) (n_ieq s) (n_itol s) (n_eqc s) (n_etol s)
        (n_bobj s) (n_cons s) (n_par s) (n_slb s) (n_sub s) (n_lb s) (n_ub s) (n_opt s)
        (n_first s) (n_warm s) (n_slack s) (n_res s) (n_seq s).
  Definition with_obj (f : obj_t F) (b : bool) (s : nmpc) : nmpc :=
    mkN (n_map s) (n_ts s) (n_dyn s) (n_out s) (Some f) (n_ieq s) (n_itol s) (n_eqc s) (n_etol s)
        b (n_cons s) (n_par s) (n_slb s) (n_sub s) (n_lb s) (n_ub s) (n_opt s)
        (n_first s) (n_warm s) (n_slack s) (n_res s) (n_seq s).
  Definition with_ieq (c : ieq_t F) (t : F) (s : nmpc) : nmpc :=
    mkN (n_map s) (n_ts s) (n_dyn s) (n_out s) (n_obj s) (Some c) t (n_eqc s) (n_etol s)
        (n_bobj s) (n_cons s) (n_par s) (n_slb s) (n_sub s) (n_lb s) (n_ub s) (n_opt s)
        (n_first s) (n_warm s) (n_slack s) (n_res s) (n_seq s).
  Definition with_eqc (c : eqc_t F) (t : F) (s : nmpc) : nmpc :=
    mkN (n_map s) (n_ts s) (n_dyn s) (n_out s) (n_obj s) (n_ieq s) (n_itol s) (Some c) t
        (n_bobj s) (n_cons s) (n_par s) (n_slb s) (n_sub s) (n_lb s) (n_ub s) (n_opt s)
        (n_first s) (n_warm s) (n_slack s) (n_res s) (n_seq s).
  (** innerOpt->add_..._mconstraint: appended when the solver accepts it, NLOptimizer.hpp:231-252, 265-286, 299-320 *)
  Definition bind_con (acc : bool) (k : ckind) (tol : list F) (s : nmpc) : nmpc :=
    mkN (n_map s) (n_ts s) (n_dyn s) (n_out s) (n_obj s) (n_ieq s) (n_itol s) (n_eqc s) (n_etol s)
        (n_bobj s) (if acc then n_cons s ++ [(k, tol)] else n_cons s)
        (n_par s) (n_slb s) (n_sub s) (n_lb s) (n_ub s) (n_opt s)
        (n_first s) (n_warm s) (n_slack s) (n_res s) (n_seq s).

  Definition bool_of (o : outcome nmpc) : outcome (nmpc * ret F) :=
    match o with UB => UB | Ok s => Ok (s, RBool true) end.
  (** the slice setters, NLMPC.hpp:340-352 and 364-376 *)
  Definition n_slice (off w H : nat) (lo hi : mat (ext F)) (sl : slice) (s : nmpc) : outcome (nmpc * ret F) :=
    if slice_unset sl then bool_of (n_bounds off w H lo hi sl s)
    else match slice_check (Z.of_nat H) sl with
         | UB => UB
         | Ok false => Ok (s, RBool false)
         | Ok true => bool_of (n_bounds off w H lo hi sl s)
         end.
  Definition m_ok (m : mapping F) : bool := mok (mp_st m) && mok (mp_inv m) && mok (mp_z2u m) && mok (mp_u2z m).

  Definition n_step (s : nmpc) (op : nop) : outcome (nmpc * ret F) :=
    match op with
    | NSetSampling ts => Ok (with_model (n_map s) (Some ts) (n_dyn s) (n_out s) s, RBool true)
    | NSetParams (NPNonLinear p) => Ok (set_params p s, RVoid)
    | NSetParams NPLinear => UB     (* NLOptimizer.hpp:130 dereferences the null result of dynamic_cast *)
    | NSetInputScale sc =>
        let m := set_input_scaling d sc (n_map s) in
        if m_ok m && mok sc && (nu <=? mrows sc) then Ok (with_model m (n_ts s) (n_dyn s) (n_out s) s, RVoid) else UB
    | NSetStateScale sc =>
        let m := set_state_scaling sc (n_map s) in
        if m_ok m && mok sc && (mrows sc =? nx) && (mcols sc =? 1) then Ok (with_model m (n_ts s) (n_dyn s) (n_out s) s, RVoid) else UB
    | NSetObjective f acc => Ok (with_obj f (n_bobj s || acc) s, RBool true)
    | NSetDynamics f tol acc =>
        Ok (bind_con acc KDyn (repeat tol (ph * nx)) (with_model (n_map s) (n_ts s) (Some f) (n_out s) s), RBool acc)
    | NSetOutput g => Ok (with_model (n_map s) (n_ts s) (n_dyn s) (Some g) s, RBool true)
    | NSetIneq c tol acc => Ok (bind_con acc KIneq (repeat tol ni) (with_ieq c tol s), RBool true)
    | NSetEq c tol acc =>           (* Ones(Size(Teq)) with Teq = -1 at 254 *)
        if dyn_eq then UB else Ok (bind_con acc KEq (repeat tol ne) (with_eqc c tol s), RBool true)
    | NSetStateBoundsMat lo hi => bool_of (n_bounds_mat 0 nx ph lo hi s)
    | NSetInputBoundsMat lo hi => bool_of (n_bounds_mat (ph * nx) nu ch lo hi s)
    | NSetStateBounds lo hi sl => n_slice 0 nx ph lo hi sl s
    | NSetInputBounds lo hi sl => n_slice (ph * nx) nu ch lo hi sl s
    | NSetOutputBoundsMat _ _ | NSetOutputBounds _ _ _ => Ok (s, RThrow)
    | NOptimize x0 u0 a => match n_run s x0 u0 a with UB => UB | Ok s' => Ok (s', RResult (n_res s')) end
    end.

  (** construction (undefined when the mapping cannot be built, i.e. ch > ph), then any history of calls *)
  Definition n_new : outcome nmpc := if m_ok (n_map n_init) && mok (n_lb n_init) then Ok n_init else UB.
  Fixpoint n_play (s : nmpc) (ops : list nop) : outcome (nmpc * list (nop * ret F)) :=
    match ops with
    | [] => Ok (s, [])
    | op :: ops => match n_step s op with
                   | UB => UB
                   | Ok (s', r) => match n_play s' ops with
                                   | UB => UB
                                   | Ok (s'', h) => Ok (s'', (op, r) :: h)
                                   end
                   end
    end.
  Definition n_life (ops : list nop) : outcome (nmpc * list (nop * ret F)) :=
    match n_new with UB => UB | Ok s => n_play s ops end.
End NLMPC.
Arguments nparams F : clear implicits. Arguments nparam_arg F : clear implicits. Arguments sparams F : clear implicits.
Arguments nmpc F : clear implicits. Arguments nanswer F : clear implicits. Arguments ncall F : clear implicits.
Arguments nop F : clear implicits.
