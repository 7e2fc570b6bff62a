(** What the data handed to the solver mean (independent of how the code builds them), and how
    a vector of decision variables is read as a trajectory. *)
From Coq Require Import Bool Arith ZArith List.
From Verif Require Import Scalar Sums Mat Slice Csc CscProof Builder LMPC SpecLMPC.
Import ListNotations.

Section SpecQP.
  Context {F : Type} {SO : ScalarOps F}.
  Local Open Scope S_scope.
  Local Open Scope nat_scope.

  (** the standard QP of OSQP: minimise 1/2 z'Pz + q'z subject to l <= Az <= u, where P is
      symmetric and given by its upper triangle, A and P in compressed columns *)
  Definition qp_row (c : call F) (r : nat) (z : nat -> F) : F :=
    ssum (cl_n c) (fun j => (csc_val (cl_A c) r j * z j)%S).
  Definition row_holds (c : call F) (r : nat) (z : nat -> F) : Prop :=
    within (nth r (cl_l c) PInf) (nth r (cl_u c) MInf) (qp_row c r z).
  Definition qp_feasible (c : call F) (z : nat -> F) : Prop := forall r, r < cl_m c -> row_holds c r z.
  (** lower bound not above upper bound: OSQP's validate_data rejects the problem otherwise *)
  Definition ele (a b : ext F) : Prop :=
    match a, b with
    | MInf, _ => True | _, PInf => True | Fin x, Fin y => (x <= y)%S | _, _ => False end.
  Definition bounds_ordered (c : call F) : Prop :=
    forall r, r < cl_m c -> ele (nth r (cl_l c) PInf) (nth r (cl_u c) MInf).
  Definition qp_P (c : call F) (i j : nat) : F := csc_val (cl_P c) (Nat.min i j) (Nat.max i j).
  Definition quad_form (c : call F) (z : nat -> F) : F :=
    ssum (cl_n c) (fun i => (z i * ssum (cl_n c) (fun j => (qp_P c i j * z j)%S))%S).
  Definition qp_cost2 (c : call F) (z : nat -> F) : F :=     (* twice the cost: z'Pz + 2 q'z *)
    (ssum (cl_n c) (fun i => z i * ssum (cl_n c) (fun j => qp_P c i j * z j))
     + s2 * ssum (cl_n c) (fun i => nth i (cl_q c) s0 * z i))%S.
  Definition qp_cost (c : call F) (z : nat -> F) : F := (qp_cost2 c z / s2)%S.
  Definition qp_optimal (c : call F) (z : nat -> F) : Prop :=
    qp_feasible c z /\ forall z', qp_feasible c z' -> (qp_cost c z <= qp_cost c z')%S.

  (** everything the solver receives, except the warm start vectors *)
  Definition same_problem (a b : call F) : Prop :=
    cl_n a = cl_n b /\ cl_m a = cl_m b /\ cl_P a = cl_P b /\ cl_q a = cl_q b /\ cl_A a = cl_A b /\
    cl_l a = cl_l b /\ cl_u a = cl_u b /\ cl_par a = cl_par b.

  (** decision vector -> trajectory: ph+1 blocks [x_i ; u_{i-1}], then the increments *)
  Variable d : dims.
  Notation nx := (d_nx d). Notation nu := (d_nu d). Notation ph := (d_ph d).
  Definition z_state (z : nat -> F) (i a : nat) : F := z (i * (nu + nx) + a).
  Definition z_cmd (z : nat -> F) (k a : nat) : F := z (S k * (nu + nx) + (nx + a)).
  (** the part of a decision vector that only repeats the trajectory: the command part of block 0 is the
      last command, the tail holds the command increments *)
  Definition z_tail (um : nat -> F) (z : nat -> F) : Prop :=
    (forall a, a < nu -> z (nx + a) = um a) /\
    (forall i a, i < ph -> a < nu -> z ((ph + 1) * (nu + nx) + (i * nu + a)) = dcmd um (z_cmd z) i a).
  (** trajectory -> decision vector *)
  Definition z_of (um : nat -> F) (x u : nat -> nat -> F) (r : nat) : F :=
    let N1 := (ph + 1) * (nu + nx) in
    if r <? N1 then let i := r / (nu + nx) in let a := r mod (nu + nx) in
                    if a <? nx then x i a else ucmd um u i (a - nx)
    else dcmd um u ((r - N1) / nu) ((r - N1) mod nu).
End SpecQP.
