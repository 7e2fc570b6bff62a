(** Vocabulary for the properties of a process with several controllers (C59-C62): which calls concern a controller, what they answered. *)
From Coq Require Import Bool Arith ZArith Lia String Reals List.
From Verif Require Import Scalar Mat Slice Builder LMPC NLMPC Logger Profiler World.
Import ListNotations.
Local Open Scope nat_scope.

Section Spec.
  Context {F : Type} {SO : ScalarOps F}.
  Notation wop := (wop F). Notation wret := (wret F).

  (** the variable a call concerns, when [n] variables have been constructed so far *)
  Definition subject (n : nat) (op : wop) : option nat :=
    match op with
    | WNewL _ _ _ | WNewN _ _ _ _ _ | WCopy _ => Some n
    | WAssign i _ | WDelete i | WL i _ _ | WN i _ _ | WGetResult i | WGetSequence i | WGetStats i | WResetStats i | WLevel i _ | WPrefix i _ => Some i
    | WLogger _ => None end.
  Definition concerns (i n : nat) (op : wop) : bool := match subject n op with Some j => j =? i | None => false end.
  Definition constructs (op : wop) : bool := match op with WNewL _ _ _ | WNewN _ _ _ _ _ | WCopy _ => true | _ => false end.
  (** the same call on the first variable of a program *)
  Definition on_first (op : wop) : wop :=
    match op with
    | WDelete _ => WDelete 0 | WL _ o e => WL 0 o e | WN _ o e => WN 0 o e | WGetResult _ => WGetResult 0 | WGetSequence _ => WGetSequence 0
    | WGetStats _ => WGetStats 0 | WResetStats _ => WResetStats 0 | WLevel _ l => WLevel 0 l | WPrefix _ p => WPrefix 0 p
    | op => op end.
  (** the program that has variable [i] only: its construction and the calls on it, in the same order *)
  Fixpoint alone (i n : nat) (ops : list wop) : list wop :=
    match ops with
    | [] => []
    | op :: ops => (if concerns i n op then [on_first op] else []) ++ alone i (if constructs op then S n else n) ops
    end.
  (** the answers the calls on variable [i] got *)
  Fixpoint answers (i n : nat) (ops : list wop) (vs : list wret) : list wret :=
    match ops, vs with
    | op :: ops, v :: vs => (if concerns i n op then [v] else []) ++ answers i (if constructs op then S n else n) ops vs
    | _, _ => []
    end.
  Definition is_copy (op : wop) : bool := match op with WCopy _ | WAssign _ _ => true | _ => false end.
  Definition copy_free (ops : list wop) : Prop := Forall (fun op => is_copy op = false) ops.

  (** the result returned by the last optimize among answers, if any *)
  Definition last_result (r0 : lresult F) (vs : list wret) : lresult F :=
    fold_left (fun r v => match v with VRet (RResult x) => x | _ => r end) vs r0.
  (** what the statistics of variable [i] should be about: one entry (duration, status answered) per optimize that returned, newest first, forgotten
      at resetStats *)
  Fixpoint solved (i n : nat) (ops : list wop) (vs : list wret) (acc : list (R * rstatus)) : list (R * rstatus) :=
    match ops, vs with
    | op :: ops, v :: vs =>
        solved i (if constructs op then S n else n) ops vs
          (if concerns i n op then
             match op, v with
             | WL _ _ e, VRet (RResult r) => ((le_t1 e - le_t0 e)%R, r_status r) :: acc
             | WN _ _ e, VRet (RResult r) => ((ne_t1 e - ne_t0 e)%R, r_status r) :: acc
             | WResetStats _, _ => []
             | _, _ => acc end
           else acc)
    | _, _ => acc
    end.
  (** the dimensions variable [i] was constructed with *)
  Fixpoint dims_of (i n : nat) (ops : list wop) : option dims :=
    match ops with
    | [] => None
    | op :: ops => match (if concerns i n op then match op with WNewL d _ _ | WNewN d _ _ _ _ => Some d | _ => None end else None) with
                   | Some d => Some d
                   | None => dims_of i (if constructs op then S n else n) ops end
    end.
  (** the result before the first optimize *)
  Definition no_result (d : dims) : lresult F := mkRes 0 false (Fin s0) UNKNOWN (mzero (d_nu d) 1).
  (** *** copies *)
  (** variables of a program in which variable [j] is a copy of [i], seen as those of the program without the copy: [j] becomes [i] *)
  Definition second_name (i j v : nat) : nat := if v <? j then v else if v =? j then i else v - 1.
  Definition rename (f : nat -> nat) (op : wop) : wop :=
    match op with
    | WCopy i => WCopy (f i) | WAssign i k => WAssign (f i) (f k)
    | WDelete i => WDelete (f i) | WL i o e => WL (f i) o e | WN i o e => WN (f i) o e | WGetResult i => WGetResult (f i) | WGetSequence i => WGetSequence (f i)
    | WGetStats i => WGetStats (f i) | WResetStats i => WResetStats (f i) | WLevel i l => WLevel (f i) l | WPrefix i p => WPrefix (f i) p
    | op => op end.
  (** no further copies, and variable [i] is neither destroyed nor asked for its statistics *)
  Definition plain_use (i : nat) (op : wop) : Prop := is_copy op = false /\ op <> WDelete i /\ op <> WGetStats i.
  Definition assigned (i : nat) (op : wop) : bool := match op with WAssign v _ => v =? i | _ => false end.
  (** original and copy *)
  Definition duplicate (n : nat) (op : wop) : option (nat * nat) := match op with WCopy i => Some (i, n) | WAssign i j => Some (j, i) | _ => None end.
  (** the object numbered [m] is the optimizer of an NLMPC (LMPC) and is allocated *)
  Definition n_allocated (w : world F) (m : nat) : Prop := exists d ni ne dyn junk s, nth_error (w_cells w) m = Some (mkCell (CN d ni ne dyn junk s) true).
  Definition l_allocated (w : world F) (m : nat) : Prop := exists d junk ejunk s, nth_error (w_cells w) m = Some (mkCell (CL d junk ejunk s) true).
  (** some controller that still exists refers to it *)
  Definition referred (w : world F) (m : nat) : Prop := exists v k, nth_error (w_ctrls w) v = Some (Some k) /\ k_cell k = m.
  (** calls of NLMPC on variable [i] that need its optimizer whatever their arguments: all but setDiscretizationSamplingTime, setOutputBounds (which
      throws) and the bounds on a slice (which may be refused before) *)
  Definition needs_optimizer (i : nat) (op : wop) : bool :=
    match op with
    | WGetResult v | WGetSequence v | WDelete v => v =? i
    | WN v (NSetSampling _) _ | WN v (NSetOutputBoundsMat _ _) _ | WN v (NSetOutputBounds _ _ _) _ | WN v (NSetStateBounds _ _ _) _ | WN v (NSetInputBounds _ _ _) _ => false
    | WN v _ _ => v =? i
    | _ => false end.

  (** *** logging *)
  (** the calls that reach the logger directly, in order *)
  Definition logger_calls (ops : list wop) : list gop :=
    concat (map (fun op => match op with WLevel _ l => [GLevel l] | WPrefix _ p => [GPrefix p] | WLogger o => [o] | _ => [] end) ops).
  (** the level, prefix and stream in force after a history: those of the last call, on whatever controller *)
  Definition level_of (ops : list wop) := level_after (logger_calls ops).
  Definition prefix_of (ops : list wop) := prefix_after (logger_calls ops).
  Definition stream_of (ops : list wop) := stream_after (logger_calls ops).
  (** one message per text, each after the header with the prefix in force *)
  Fixpoint lines (p : string) (xs : list string) : string := match xs with [] => ""%string | x :: xs => (header p ++ x ++ lines p xs)%string end.
  (** between the worlds [w] and [w1] exactly the messages [xs] have been written to the stream in force after [ops], and nothing elsewhere *)
  Definition written (ops : list wop) (w w1 : world F) (xs : list string) : Prop :=
    exists new, w_out w1 = w_out w ++ new /\ text (stream_of ops) new = lines (prefix_of ops) xs /\ forall s, s <> stream_of ops -> text s new = ""%string.
  (** a call of setStateSpaceFunction that the solver refused *)
  Definition refused_dynamics (op : nop F) : Prop := exists f tol, op = NSetDynamics f tol false.
  (** a call of the logger itself that writes *)
  Definition writes (op : wop) : bool := match op with WLogger (GWrite _) => true | _ => false end.
End Spec.
