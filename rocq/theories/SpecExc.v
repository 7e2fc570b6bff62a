(** Specification vocabulary for user functions that throw: which functions are called on the trajectory the solver returned, in
    which order, and with what effect.  Nothing here refers to the state of the modelled objects. *)
From Coq Require Import Bool Arith ZArith List.
From Verif Require Import Scalar Sums Mat Slice Builder LMPC NLMap NLFun SpecNL NLMPC SpecLMPC SpecNLC SpecNLP NLExc.
Import ListNotations.

Section SpecExc.
  Context {F : Type} {SO : ScalarOps F}.
  Variable junk : nat -> nat -> F.
  Variable d : dims.
  Variables ni ne : nat.
  Variable dyn_eq : bool.
  Notation nx := (d_nx d). Notation nu := (d_nu d). Notation ny := (d_ny d).
  Notation ph := (d_ph d).

  (** calls and visible returns of a history, without the exceptions *)
  Definition plain (h : list (xop F * ret F)) : list (nop F * ret F) := map (fun e => (fst (fst e), snd e)) h.
  (** the exceptions of the newest output, inequality and equality function *)
  Definition throws_in (h : list (xop F * ret F)) : throws F :=
    mkThrows
      (fold_left (fun t e => match fst (fst e) with NSetOutput _ => t_out (snd (fst e)) | _ => t end) h (fun _ _ _ => None))
      (fold_left (fun t e => match fst (fst e) with NSetIneq _ _ _ => t_ieq (snd (fst e)) | _ => t end) h (fun _ _ _ _ => None))
      (fold_left (fun t e => match fst (fst e) with NSetEq _ _ _ => t_eqc (snd (fst e)) | _ => t end) h (fun _ _ => None)).
  Definition xreached (x : xmpc F) (h : list (xop F * ret F)) : Prop :=
    exists ops, Forall (fun op => nop_sized d (fst op)) ops /\ x_life junk d ni ne dyn_eq ops = Ok (x, h).

  (** evaluations on the trajectory described by [z]; each either returns ([None]) or throws *)
  Variables (c : ncfg F) (t : throws F) (x0 : mat F) (z : nat -> F).
  Definition output_calls : list (option exc) :=
    match k_out c with
    | None => []
    | Some _ => map (fun i => t_out t (traj_row nx (x_traj d c x0 z) i) (traj_row nu (u_traj d c z) i) i) (seq 0 (ph + 1))
    end.
  Definition states : rows F := tab (ph + 1) nx (x_traj d c x0 z).
  Definition outputs : rows F := tab (ph + 1) ny (y_traj d c x0 z).
  Definition inputs : rows F := tab (ph + 1) nu (u_traj d c z).
  Definition ieq_call_exc : option exc := t_ieq t states outputs inputs (z (v_slack d)).
  Definition eqc_call_exc : option exc := t_eqc t states inputs.
  (** [e] is the first exception thrown by a series of calls *)
  Definition raises (l : list (option exc)) (e : exc) : Prop := exists l1 l2, l = l1 ++ Some e :: l2 /\ Forall (fun o => o = None) l1.
  Definition quiet (l : list (option exc)) : Prop := Forall (fun o => o = None) l.
  (** judging the point: outputs and inequalities if there are inequalities, then the equalities if there are any and no
      inequality exceeds its tolerance *)
  Definition ineq_met : Prop := forall f, k_ieq c = Some f -> forall k, k < ni -> (ieq_of d c x0 f k z <= k_itol c)%S.
  Inductive judge_calls : list (option exc) -> Prop :=
  | judge_nothing : k_ieq c = None -> k_eqc c = None -> judge_calls []
  | judge_eq f : k_ieq c = None -> k_eqc c = Some f -> judge_calls [eqc_call_exc]
  | judge_ineq f : k_ieq c = Some f -> k_eqc c = None \/ ~ ineq_met -> judge_calls (output_calls ++ [ieq_call_exc])
  | judge_both f g : k_ieq c = Some f -> k_eqc c = Some g -> ineq_met -> judge_calls (output_calls ++ [ieq_call_exc; eqc_call_exc]).
End SpecExc.
