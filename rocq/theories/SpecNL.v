(** Specification vocabulary for the non-linear controller: what the optimisation problem over the decision vector [z]
    is supposed to be, in terms of the user's functions.  Nothing here refers to the model of the code except the dimension record and the
    callback types. *)
From Coq Require Import Bool Arith List.
From Verif Require Import Scalar Sums Builder NLFun.
Import ListNotations.

Section SpecNL.
  Context {F : Type} {SO : ScalarOps F}.
  Variable d : dims.
  Notation nx := (d_nx d). Notation nu := (d_nu d). Notation ny := (d_ny d).
  Notation ph := (d_ph d). Notation ch := (d_ch d).

  (** positions of the decision variables: predicted state [i] (1..ph), input block [b] (0..ch-1), slack *)
  Definition v_state (i j : nat) : nat := (i - 1) * nx + j.
  Definition v_input (b j : nat) : nat := ph * nx + (b * nu + j).
  Definition v_slack : nat := ph * nx + nu * ch.

  (** control step whose decision variables act at prediction step [a]: one block per step, the last one held *)
  Definition held (a : nat) : nat := Nat.min a (ch - 1).

  (** sum over the prediction steps 0..ph-1 that use input block [b] *)
  Definition over_block (b : nat) (f : nat -> F) : F := ssum ph (fun a => if held a =? b then f a else s0).

  (** state trajectory in physical units: row 0 given by [xi], row i is the scaled decision variable *)
  Definition st_traj (sx xi z : nat -> F) (a b : nat) : F :=
    if a =? 0 then xi b else (sx b * z (v_state a b))%S.
  Definition in_traj (su z : nat -> F) (a b : nat) : F := (su b * z (v_input (held a) b))%S.
  Definition traj_row (n : nat) (X : nat -> nat -> F) (i : nat) : list F := map (X i) (seq 0 n).
  (** outputs along the horizon; zero without an output function *)
  Definition out_traj (og : option (out_t F)) (X U : nat -> nat -> F) (i k : nat) : F :=
    match og with None => s0 | Some g => g (traj_row nx X i) (traj_row nu U i) i k end.
  (** user functions evaluated on trajectories *)
  Definition obj_at (f : obj_t F) og (X U : nat -> nat -> F) (e : F) : F :=
    f (tab (ph + 1) nx X) (tab (ph + 1) ny (out_traj og X U)) (tab (ph + 1) nu U) e.
  Definition ieq_at (c : ieq_t F) og (k : nat) (X U : nat -> nat -> F) (e : F) : F :=
    c (tab (ph + 1) nx X) (tab (ph + 1) ny (out_traj og X U)) (tab (ph + 1) nu U) e k.
  Definition eqc_at (c : eqc_t F) (k : nat) (X U : nat -> nat -> F) : F :=
    c (tab (ph + 1) nx X) (tab (ph + 1) nu U) k.
  (** residual of the dynamics at step i, component l (divided by the state scaling) *)
  Definition dyn_res (f : dyn_t F) (ts : option F) (sx : nat -> F) (X U : nat -> nat -> F) (i l : nat) : F :=
    let fx a := f (traj_row nx X a) (traj_row nu U i) i l in
    match ts with
    | None => ((X (S i) l - fx i) / sx l)%S
    | Some t => ((X i l + t / s2 * (fx i + fx (S i)) - X (S i) l) / sx l)%S
    end.

  (** change of one entry of a trajectory *)
  Definition pert (X : nat -> nat -> F) (a b : nat) (t : F) (i j : nat) : F :=
    if (i =? a) && (j =? b) then (X i j + t)%S else X i j.
  (** change of one decision variable *)
  Definition bump (z : nat -> F) (k : nat) (t : F) (i : nat) : F := if i =? k then (z i + t)%S else z i.

  (** [D] is the derivative at 0 of [g], [g] being a polynomial of degree at most two *)
  Definition slope (g : F -> F) (D : F) : Prop :=
    exists C : F, forall t, g t = (g s0 + t * D + t * t * C)%S.
  (** the user function has the given partial derivatives at (X,U,e) and is of degree at most two around it *)
  Definition dot2 (n k : nat) (G D : nat -> nat -> F) : F := ssum n (fun a => ssum k (fun b => (G a b * D a b)%S)).
  Definition has_grad (psi : (nat -> nat -> F) -> (nat -> nat -> F) -> F -> F) (X U : nat -> nat -> F) (e : F)
      (gX gU : nat -> nat -> F) (ge : F) : Prop :=
    exists Q : (nat -> nat -> F) -> (nat -> nat -> F) -> F -> F,
      (forall dX dU de, psi (fun a b => (X a b + dX a b)%S) (fun a b => (U a b + dU a b)%S) (e + de)%S =
        (psi X U e + (dot2 (ph + 1) nx gX dX + dot2 (ph + 1) nu gU dU + ge * de) + Q dX dU de)%S) /\
      (forall t dX dU de, Q (fun a b => (t * dX a b)%S) (fun a b => (t * dU a b)%S) (t * de)%S = (t * t * Q dX dU de)%S).
  (** the same for any function with a second-order remainder: for perturbations of size at most [rho] the first-order
      expansion is accurate up to [K] times the square of the size *)
  Definition small (t : F) (dX dU : nat -> nat -> F) (de : F) : Prop :=
    (forall a b, (sabs (dX a b) <= t)%S) /\ (forall a b, (sabs (dU a b) <= t)%S) /\ (sabs de <= t)%S.
  Definition near_grad (psi : (nat -> nat -> F) -> (nat -> nat -> F) -> F -> F) (X U : nat -> nat -> F) (e : F)
      (gX gU : nat -> nat -> F) (ge K rho : F) : Prop :=
    (s0 <= K)%S /\ forall t dX dU de, (s0 <= t)%S -> (t <= rho)%S -> small t dX dU de ->
      (sabs (psi (fun a b => (X a b + dX a b)%S) (fun a b => (U a b + dU a b)%S) (e + de)%S -
        (psi X U e + (dot2 (ph + 1) nx gX dX + dot2 (ph + 1) nu gU dU + ge * de))) <= K * (t * t))%S.
  (** component [l] of the user's dynamics at (xv, uv), step p: partial derivatives [ax], [bu], of degree at most two around the point *)
  Definition dyn_grad (f : dyn_t F) (p l : nat) (xv uv ax bu : nat -> F) : Prop :=
    let at_ x u := f (map x (seq 0 nx)) (map u (seq 0 nu)) p l in
    exists Q : (nat -> F) -> (nat -> F) -> F,
      (forall dx du, at_ (fun b => (xv b + dx b)%S) (fun b => (uv b + du b)%S) =
        (at_ xv uv + (ssum nx (fun b => ax b * dx b) + ssum nu (fun b => bu b * du b)) + Q dx du)%S) /\
      (forall t dx du, Q (fun b => (t * dx b)%S) (fun b => (t * du b)%S) = (t * t * Q dx du)%S).
  (** entry (a,b) only *)
  Definition unit2 (a b i j : nat) : F := if (i =? a) && (j =? b) then s1 else s0.
End SpecNL.
