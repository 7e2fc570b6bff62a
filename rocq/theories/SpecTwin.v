(** When a linear and a non-linear controller are given the same problem.  Written for the user's point of view: plant, cost, bounds. *)
From Coq Require Import Bool Arith List.
From Verif Require Import Scalar Sums Mat Slice Builder LMPC NLMap NLFun SpecNL NLMPC SpecLMPC SpecNLC SpecNLP SpecNLO.
Import ListNotations.

Section SpecTwin.
  Context {F : Type} {SO : ScalarOps F}.
  Variables (dl dn : dims) (ni ne : nat).      (* dimensions of the two controllers; numbers of user constraints *)
  Notation nx := (d_nx dl). Notation nu := (d_nu dl). Notation ndu := (d_ndu dl). Notation ny := (d_ny dl). Notation ph := (d_ph dl).

  (** the user's constraints of the non-linear controller hold along a trajectory (slack zero) *)
  Definition user_constraints (k : ncfg F) (X U : nat -> nat -> F) : Prop :=
    (forall f, k_ieq k = Some f -> forall r, r < ni -> (ieq_at dn f (k_out k) r X U s0 <= s0)%S) /\
    (forall f, k_eqc k = Some f -> forall r, r < ne -> eqc_at dn f r X U = s0).

  Record twin (p : plant F) (c : cfg F) (k : ncfg F) (x0 u0 : nat -> F) : Prop := {
    tw_nx : d_nx dn = nx; tw_nu : d_nu dn = nu; tw_ny : d_ny dn = ny; tw_ph : d_ph dn = ph;
    (* the linear controller leaves one command more free than its control horizon says *)
    tw_ch : d_ch dn = Nat.min ph (d_ch dl + 1);
    tw_sx : forall j, j < nx -> k_sx k j = s1; tw_su : forall j, j < nu -> k_su k j = s1;
    (* discrete time, the same linear plant with the same measured disturbance *)
    tw_ts : k_ts k = None;
    tw_dyn : exists f, k_dyn k = Some f /\ forall i l (x u : nat -> F), i < ph -> l < nx ->
      f (map x (seq 0 nx)) (map u (seq 0 nu)) i l =
      (ssum nx (fun a => pl_A p l a * x a) + ssum nu (fun a => pl_B p l a * u a) + ssum ndu (fun a => g_Bd c l a * g_d c i a))%S;
    tw_out : exists g, k_out k = Some g /\ forall i l (x u : nat -> F), i <= ph -> l < ny ->
      g (map x (seq 0 nx)) (map u (seq 0 nu)) i l =
      (ssum nx (fun a => pl_C p l a * x a) + ssum ndu (fun a => g_Dd c l a * g_d c (stp i) a))%S;
    (* the user's objective computes the tracking cost *)
    tw_obj : exists J, k_obj k = Some J /\ forall X U, nl_cost dn k J X U = tracking_cost dl p c u0 X U;
    (* the same state bounds, met by the current state *)
    tw_xlo : forall i j, i < ph -> j < nx -> k_xlo k i j = g_xlo c i j; tw_xhi : forall i j, i < ph -> j < nx -> k_xhi k i j = g_xhi c i j;
    tw_x0 : forall j, j < nx -> within (g_xlo c 0 j) (g_xhi c 0 j) (x0 j);
    (* input bounds: the linear controller's bounds of step i+1 govern command i (the last bounds also the last command); the previous
       command meets those of step 0; bounds stay the same once the commands are frozen *)
    tw_ulo : forall i j, i < ph -> j < nu -> g_ulo c (Nat.min (i + 1) (ph - 1)) j = k_ulo k (held dn i) j;
    tw_uhi : forall i j, i < ph -> j < nu -> g_uhi c (Nat.min (i + 1) (ph - 1)) j = k_uhi k (held dn i) j;
    tw_u0 : forall j, j < nu -> within (g_ulo c 0 j) (g_uhi c 0 j) (u0 j);
    (* the user's constraint functions express the output bounds and the scalar constraint *)
    tw_user : forall X U, user_constraints k X U <-> output_ok dl p c X /\ scalar_ok dl c u0 X U }.
End SpecTwin.
