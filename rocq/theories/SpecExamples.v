(** Independent specification for C89: what a run of one of the example programs is, and when a position is clear of an obstacle. *)
From Coq Require Import Bool Arith ZArith List BinPos Reals.
From Verif Require Import Scalar Sums Mat Slice Builder LMPC SpecLMPC NLMap NLFun SpecNL NLMPC SpecNLC SpecNLP SpecNLO SpecNLoop.
Import ListNotations.

Section SpecExamples.
  Context {F : Type} {SO : ScalarOps F}.
  Variables (junk : nat -> nat -> F) (d : dims) (ni ne : nat) (dyn_eq : bool) (plant : list F -> list F -> nat -> F).

  (** the calls a program may make once its controller is set up: optimize(), and a new objective function where the program changes a variable that its
      objective function captures by reference (C86: the controller then behaves as if the function had been registered with the new value) *)
  Definition loop_call (new_objective : bool) (op : nop F) : Prop :=
    match op with NOptimize _ _ _ => True | NSetObjective _ acc => new_objective = true /\ acc = true | _ => False end.
  (** a run of a program: its setup calls, then its control loop with this plant; ps are the periods of the loop so far *)
  Definition program_run (setup : list (nop F)) (new_objective : bool) (ps : list (nperiod F)) : Prop :=
    exists s h x u rest, nl_control_run junk d ni ne dyn_eq plant s h x u ps /\ map fst h = setup ++ rest /\ Forall (loop_call new_objective) rest.
  (** in every period the solver either returned a point that satisfies its problem up to t, or threw *)
  Definition answered (t : tols F) (ps : list (nperiod F)) : Prop := forall pe, In pe ps -> nl_solved d t pe \/ nl_failed pe.
  (** the limit the example programs put on a command: 0.5 *)
  Definition one_half : F := sdec 1%positive 2%positive.
End SpecExamples.

(** Euclidean distance in the plane *)
Definition dist2 (x y a b : R) : R := sqrt ((x - a) * (x - a) + (y - b) * (y - b)).
