(** The optimal control problem a configuration of the non-linear controller describes, over trajectories, and the problem the solver
    observes (box, constraint callbacks, cost callback), both up to constraint tolerances. *)
From Coq Require Import Bool Arith List.
From Verif Require Import Scalar Sums Mat Slice Builder LMPC NLMap NLFun SpecNL NLMPC SpecLMPC SpecNLC SpecNLP.
Import ListNotations.

Section SpecNLO.
  Context {F : Type} {SO : ScalarOps F}.
  Variable d : dims.
  Variables ni ne : nat.
  Notation nx := (d_nx d). Notation nu := (d_nu d). Notation ny := (d_ny d).
  Notation ph := (d_ph d). Notation ch := (d_ch d).

  (** tolerances for inequalities, equalities, dynamics; all zero: exact *)
  Record tols := mkTols { t_ieq : F; t_eqc : F; t_dyn : F }.
  Definition exactly : tols := mkTols s0 s0 s0.

  (** what the model predicts for component l of state i+1: the next state (discrete time), or the trapezoidal rule with the input held *)
  Definition predicted (f : dyn_t F) (ts : option F) (X U : nat -> nat -> F) (i l : nat) : F :=
    let fx a := f (traj_row nx X a) (traj_row nu U i) i l in
    match ts with None => fx i | Some t => (X i l + t / s2 * (fx i + fx (S i)))%S end.

  (** trajectories (states 0..ph, commands 0..ph) the user accepts.  The bounds are on values divided by the scales and row 0 is the
      measured state times its scale (findings C22, C23) *)
  Definition nl_admissible (c : ncfg F) (x0 : mat F) (t : tols) (X U : nat -> nat -> F) : Prop :=
    (forall j, j < nx -> X 0 j = (k_sx c j * vec x0 j)%S) /\
    (forall i j, i <= ph -> j < nu -> U i j = U (held d i) j) /\
    (forall k j, k < ph -> j < nx -> within (k_xlo c k j) (k_xhi c k j) (X (k + 1)%nat j / k_sx c j)%S) /\
    (forall k j, k < ch -> j < nu -> within (k_ulo c k j) (k_uhi c k j) (U k j / k_su c j)%S) /\
    (forall f, k_dyn c = Some f -> forall i l, i < ph -> l < nx ->
       (sabs (X (S i) l - predicted f (k_ts c) X U i l) <= sabs (k_sx c l) * t_dyn t)%S) /\
    (forall f, k_ieq c = Some f -> forall k, k < ni -> (ieq_at d f (k_out c) k X U s0 <= t_ieq t)%S) /\
    (forall f, k_eqc c = Some f -> forall k, k < ne -> (sabs (eqc_at d f k X U) <= t_eqc t)%S).
  (** the user's cost along a trajectory *)
  Definition nl_cost (c : ncfg F) (f : obj_t F) (X U : nat -> nat -> F) : F := obj_at d f (k_out c) X U s0.

  (** the problem the solver sees, through the callbacks it was given *)
  Definition nlp_feasible (t : tols) (nc : ncall F) (z : list F) : Prop :=
    length z = n_dec d /\
    (forall r, r < n_dec d -> within (nth r (nc_lo nc) PInf) (nth r (nc_hi nc) MInf) (nth r z s0)) /\
    forall k tol ev, In (k, tol, ev) (nc_cons nc) -> exists v g, ev z = Ok (v, g) /\ forall r, r < length v ->
      match k with
      | KIneq => (nth r v s0 <= t_ieq t)%S
      | KEq => (sabs (nth r v s0) <= t_eqc t)%S
      | KDyn => (sabs (nth r v s0) <= t_dyn t)%S
      end.
  Definition nlp_optimal (t : tols) (nc : ncall F) (z : list F) : Prop :=
    nlp_feasible t nc z /\
    exists ev v g, nc_obj nc = Some ev /\ ev z = Ok (v, g) /\
      forall z', nlp_feasible t nc z' -> exists v' g', ev z' = Ok (v', g') /\ (v <= v')%S.

  (** every function the user configured was accepted by the solver library when it was set *)
  Definition all_accepted (c : ncfg F) : Prop :=
    (k_dyn c <> None -> exists tol, In (KDyn, tol) (k_cons c)) /\
    (k_ieq c <> None -> exists tol, In (KIneq, tol) (k_cons c)) /\
    (k_eqc c <> None -> exists tol, In (KEq, tol) (k_cons c)) /\
    (k_obj c <> None -> k_bobj c = true).
End SpecNLO.
Arguments tols F : clear implicits.
