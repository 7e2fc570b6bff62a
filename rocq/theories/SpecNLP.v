(** Vocabulary of the non-linear optimal control problem posed by a configuration, in the user's terms: trajectories described
    by a decision vector, and what the solver is asked to do with them. *)
From Coq Require Import Bool Arith List.
From Verif Require Import Scalar Sums Mat Slice Builder LMPC NLMap NLFun SpecNL NLMPC SpecLMPC SpecNLC.
Import ListNotations.

Section SpecNLP.
  Context {F : Type} {SO : ScalarOps F}.
  Variable d : dims.
  Variables (c : ncfg F) (x0 : mat F).
  Notation nx := (d_nx d). Notation nu := (d_nu d). Notation ny := (d_ny d).
  Notation ph := (d_ph d). Notation ch := (d_ch d).

  (** decision vector as the solver passes it *)
  Definition dvar (z : list F) (r : nat) : F := nth r z s0.
  Definition scaled : Prop := forall j, j < nx -> k_sx c j <> s0.
  (** trajectories the code derives from the decision vector [z]; row 0 of the states is the measured state times the state scaling *)
  Definition x_traj (z : nat -> F) : nat -> nat -> F := st_traj d (k_sx c) (fun j => (k_sx c j * vec x0 j)%S) z.
  Definition u_traj (z : nat -> F) : nat -> nat -> F := in_traj d (k_su c) z.
  Definition y_traj (z : nat -> F) : nat -> nat -> F := out_traj d (k_out c) (x_traj z) (u_traj z).
  Definition cost_of (f : obj_t F) (z : nat -> F) : F := obj_at d f (k_out c) (x_traj z) (u_traj z) (z (v_slack d)).
  Definition ieq_of (f : ieq_t F) (k : nat) (z : nat -> F) : F := ieq_at d f (k_out c) k (x_traj z) (u_traj z) (z (v_slack d)).
  Definition eqc_of (f : eqc_t F) (k : nat) (z : nat -> F) : F := eqc_at d f k (x_traj z) (u_traj z).
  (** the trajectory obeys the dynamics at step i, component l: exactly (discrete time) or by the trapezoidal rule with the input held *)
  Definition obeys (f : dyn_t F) (ts : option F) (X U : nat -> nat -> F) (i l : nat) : Prop :=
    let fx a := f (traj_row nx X a) (traj_row nu U i) i l in
    match ts with
    | None => X (S i) l = fx i
    | Some t => X (S i) l = (X i l + t / s2 * (fx i + fx (S i)))%S
    end.
End SpecNLP.
