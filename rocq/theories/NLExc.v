(** Model of NLOptimizer::run and IMPC::optimize when user functions throw (NLOptimizer.hpp:498-607, Constraints.hpp:145-190,
    Model.hpp:73-97, IMPC.hpp:149-166).  Each user function comes with a description of the arguments on which it throws, and
    of what: something derived from std::exception (caught at 538), or something else (int, const char*, ...; not caught there).
    While NLopt runs, its C++ interface catches whatever a callback throws, stops, and throws itself (nlopt.hpp); that case is
    the answer [NThrow].  Modelled here: the evaluations made after NLopt returned.  Simplification: as in [n_run], an
    equality function of size 0 makes the call undefined also when an earlier evaluation throws. *)
From Coq Require Import Bool Arith ZArith List.
From Verif Require Import Scalar Sums Mat Slice Builder LMPC NLMap NLFun NLMPC.
Import ListNotations.

Inductive exc := EStd | EOther.
(** where the output, inequality and equality functions throw; same arguments as [out_t], [ieq_t], [eqc_t] *)
Record throws (F : Type) := mkThrows {
  t_out : list F -> list F -> nat -> option exc;
  t_ieq : rows F -> rows F -> rows F -> F -> option exc;
  t_eqc : rows F -> rows F -> option exc }.
Arguments mkThrows {F}. Arguments t_out {F}. Arguments t_ieq {F}. Arguments t_eqc {F}.
Definition never {F} : throws F := mkThrows (fun _ _ _ => None) (fun _ _ _ _ => None) (fun _ _ => None).

Section Exc.
  Context {F : Type} {SO : ScalarOps F}.
  Variable junk : nat -> nat -> F.
  Variable d : dims.
  Variables ni ne : nat.
  Variable dyn_eq : bool.
  Notation nx := (d_nx d). Notation nu := (d_nu d). Notation ny := (d_ny d).
  Notation ph := (d_ph d). Notation ch := (d_ch d).

  (** getOutput calls the output function for i = 0..ph, Model.hpp:83-93: the first exception ends it *)
  Fixpoint first_exc (n : nat) (f : nat -> option exc) (i : nat) : option exc :=
    match n with 0 => None | S n => match f i with Some e => Some e | None => first_exc n f (S i) end end.
  Definition out_exc (t : throws F) (og : option (out_t F)) (X U : mat F) : option exc :=
    match og with
    | None => None
    | Some _ => first_exc (ph + 1) (fun i => t_out t (lst (mtrans (mrow X i))) (lst (mtrans (mrow U i))) i) 0
    end.
  (** isFeasible, Constraints.hpp:149-189 *)
  Definition feas_exc (t : throws F) (s : nmpc F) (x0 opt : mat F) : option exc :=
    let X := unwrap_X d (n_map s) opt x0 in let U := unwrap_U d (n_map s) opt in let e := unwrap_e opt in
    let eqs := match n_eqc s with None => None | Some _ => t_eqc t (rows_of X) (rows_of U) end in
    match n_ieq s with
    | None => eqs
    | Some c =>
        match out_exc t (n_out s) X U with
        | Some e => Some e
        | None =>
            match t_ieq t (rows_of X) (rows_of (get_output d (n_out s) X U)) (rows_of U) e with
            | Some e => Some e
            | None => if any_gt (map Some (lst (ieq_call d ni c (n_out s) X U e))) (n_itol s) then None else eqs
            end
        end
    end.

  (** the controller with the functions' exceptions, and the results handed to the profiler (IMPC.hpp:155) *)
  Record xmpc := mkX { x_n : nmpc F; x_t : throws F; x_rec : list (lresult F) }.

  (** run after NLopt returned the point [z], NLOptimizer.hpp:503-607; [true]: an exception leaves optimize *)
  Definition x_run (t : throws F) (s : nmpc F) (x0 u0 : mat F) (z : nat -> F) (code : Z) (cost : ext F) : outcome (nmpc F * bool) :=
    if negb (mok (n_guess junk d s x0 u0)) then UB else
    if has_eq s && (ne =? 0) then UB else
    let opt := mvec (n_dec d) z in
    let zero M := mzero (mrows M) (mcols M) in
    let q := n_seq s in
    let X := unwrap_X d (n_map s) opt x0 in let U := unwrap_U d (n_map s) opt in
    if negb (mok X && mok U) then UB else
    match feas_exc t s x0 opt with
    | Some EStd =>      (* caught at 538-548 after opt_vector and is_first_iteration were written (507-509); then 594-604 *)
        Ok (with_run opt false (n_slack s) (mkRes (-1) false PInf ERROR (r_cmd (n_res s)))
              (mkSeq (zero (q_state q)) (zero (q_output q)) (zero (q_input q))) s, false)
    | Some EOther =>    (* not caught *)
        Ok (with_run opt false (n_slack s) (n_res s) q s, true)
    | None =>
        match out_exc t (n_out s) X U with
        | Some _ =>     (* getOutput at 591, outside the try block; currentSlack (577), sequence.state and .input (589-590) are written *)
            Ok (with_run opt false (unwrap_e opt) (n_res s)
                  (mkSeq (block X 0 0 (ph + 1) nx) (q_output q) (block U 0 0 (ph + 1) nu)) s, true)
        | None => match n_run junk d ni ne s x0 u0 (NSolved z code cost) with UB => UB | Ok s' => Ok (s', false) end
        end
    end.

  (** a call, with the exceptions of the function it passes (ignored by calls that pass none of the three) *)
  Definition xop : Type := nop F * throws F.
  Definition set_throws (op : xop) (t : throws F) : throws F :=
    match fst op with
    | NSetOutput _ => mkThrows (t_out (snd op)) (t_ieq t) (t_eqc t)
    | NSetIneq _ _ _ => mkThrows (t_out t) (t_ieq (snd op)) (t_eqc t)
    | NSetEq _ _ _ => mkThrows (t_out t) (t_ieq t) (t_eqc (snd op))
    | _ => t end.
  Definition x_step (x : xmpc) (op : xop) : outcome (xmpc * ret F) :=
    match fst op with
    | NOptimize x0 u0 (NSolved z code cost) =>
        match x_run (x_t x) (x_n x) x0 u0 z code cost with
        | UB => UB
        | Ok (s', true) => Ok (mkX s' (x_t x) (x_rec x), RThrow)    (* solutionEnd at IMPC.hpp:155 is not reached *)
        | Ok (s', false) => Ok (mkX s' (x_t x) (x_rec x ++ [n_res s']), RResult (n_res s'))
        end
    | NOptimize x0 u0 NThrow =>
        match n_run junk d ni ne (x_n x) x0 u0 NThrow with
        | UB => UB | Ok s' => Ok (mkX s' (x_t x) (x_rec x ++ [n_res s']), RResult (n_res s')) end
    | _ => match n_step junk d ni ne dyn_eq (x_n x) (fst op) with
           | UB => UB | Ok (s', r) => Ok (mkX s' (set_throws op (x_t x)) (x_rec x), r) end
    end.
  Fixpoint x_play (x : xmpc) (ops : list xop) : outcome (xmpc * list (xop * ret F)) :=
    match ops with
    | [] => Ok (x, [])
    | op :: ops => match x_step x op with
                   | UB => UB
                   | Ok (x', r) => match x_play x' ops with UB => UB | Ok (x'', h) => Ok (x'', (op, r) :: h) end
                   end
    end.
  Definition x_life (ops : list xop) : outcome (xmpc * list (xop * ret F)) :=
    match n_new d with UB => UB | Ok s => x_play (mkX s never []) ops end.
End Exc.
Arguments xmpc F : clear implicits. Arguments xop F : clear implicits.
