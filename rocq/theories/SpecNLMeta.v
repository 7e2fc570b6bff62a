(** Independent specification for C80-C82: the same non-linear control problem posed with other scales, problems with wider bounds or fewer constraints,
    plants at rest.  Configurations and trajectories are those of SpecNLC.v, SpecNLO.v. *)
From Coq Require Import Bool Arith ZArith List.
From Verif Require Import Scalar Sums Mat Slice Builder LMPC SpecLMPC NLMap NLFun SpecNL NLMPC SpecNLC SpecNLP SpecNLO SpecMeta SpecNLoop.
Import ListNotations.
Local Open Scope nat_scope.

Section NLMeta.
  Context {F : Type} {SO : ScalarOps F}.
  Variables (d : dims) (ni ne : nat).
  Notation nx := (d_nx d). Notation nu := (d_nu d). Notation ph := (d_ph d). Notation ch := (d_ch d).

  (** the user's functions are the same *)
  Definition same_functions (c c' : ncfg F) : Prop :=
    k_ts c' = k_ts c /\ k_obj c' = k_obj c /\ k_dyn c' = k_dyn c /\ k_out c' = k_out c /\ k_ieq c' = k_ieq c /\ k_eqc c' = k_eqc c.

  (** *** Scales *)
  (** multiplied by their scales a resp. a', the two pairs of bounds are the same pair (a negative scale exchanges lower and upper bound) *)
  Definition same_bounds (a a' : F) (lo hi lo' hi' : ext F) : Prop := exists L H, box_in a lo hi L H /\ box_in a' lo' hi' L H.
  (** multiplied by their scales, the bounds of c and c' are the same and so are the measured states x0 and x0' *)
  Definition same_times_scale (c c' : ncfg F) (x0 x0' : mat F) : Prop :=
    (forall j, j < nx -> (k_sx c' j * vec x0' j)%S = (k_sx c j * vec x0 j)%S) /\
    (forall k j, k < ph -> j < nx -> same_bounds (k_sx c j) (k_sx c' j) (k_xlo c k j) (k_xhi c k j) (k_xlo c' k j) (k_xhi c' k j)) /\
    (forall k j, k < ch -> j < nu -> same_bounds (k_su c j) (k_su c' j) (k_ulo c k j) (k_uhi c k j) (k_ulo c' k j) (k_uhi c' k j)).
  Definition scales_ok (c : ncfg F) : Prop := (forall j, j < nx -> k_sx c j <> s0) /\ (forall j, j < nu -> k_su c j <> s0).

  (** *** Fewer constraints *)
  (** c' poses the problem of c with wider bounds and possibly without the inequality or equality constraints *)
  Record nl_relaxed (c c' : ncfg F) : Prop := {
    rl_sx : forall j, j < nx -> k_sx c' j = k_sx c j; rl_su : forall j, j < nu -> k_su c' j = k_su c j;
    rl_ts : k_ts c' = k_ts c; rl_obj : k_obj c' = k_obj c; rl_dyn : k_dyn c' = k_dyn c; rl_out : k_out c' = k_out c;
    rl_ieq : k_ieq c' = k_ieq c \/ k_ieq c' = None; rl_eqc : k_eqc c' = k_eqc c \/ k_eqc c' = None;
    rl_x : forall k j, k < ph -> j < nx -> wider (k_xlo c k j) (k_xhi c k j) (k_xlo c' k j) (k_xhi c' k j);
    rl_u : forall k j, k < ch -> j < nu -> wider (k_ulo c k j) (k_uhi c k j) (k_ulo c' k j) (k_uhi c' k j) }.
  Definition tols_le (t t' : tols F) : Prop := (t_ieq t <= t_ieq t')%S /\ (t_eqc t <= t_eqc t')%S /\ (t_dyn t <= t_dyn t')%S.

  (** *** Rest *)
  (** the model rests at state xs under the command us: the next state is xs, resp. the derivative is 0 *)
  Definition model_rests (f : dyn_t F) (ts : option F) (xs us : nat -> F) : Prop :=
    forall i l, i < ph -> l < nx -> f (comps nx xs) (comps nu us) i l = match ts with None => xs l | Some _ => s0 end.
  (** the trajectory that stays *)
  Definition staying (v : nat -> F) (i : nat) : nat -> F := v.
  (** resting is allowed by bounds and constraints *)
  Definition rest_allowed (c : ncfg F) (xs us : nat -> F) : Prop :=
    (forall k j, k < ph -> j < nx -> within (k_xlo c k j) (k_xhi c k j) (xs j)) /\
    (forall k j, k < ch -> j < nu -> within (k_ulo c k j) (k_uhi c k j) (us j)) /\
    user_constraints d ni ne c (staying xs) (staying us).
  (** whatever else is allowed from xs costs at least as much, and costs the same only if it starts with the command us *)
  Definition rest_is_best (c : ncfg F) (J : obj_t F) (x0 : mat F) (xs us : nat -> F) : Prop :=
    forall X U, nl_admissible d ni ne c x0 exactly X U ->
      (nl_cost d c J (staying xs) (staying us) <= nl_cost d c J X U)%S /\
      (nl_cost d c J X U = nl_cost d c J (staying xs) (staying us) -> forall j, j < nu -> U 0 j = us j).
  (** a configuration under which it pays to stay at (xs, us) *)
  Definition keeps_rest (c : ncfg F) (xs us : nat -> F) : Prop :=
    unit_scales d c /\ all_accepted c /\ rest_allowed c xs us /\ (exists f, k_dyn c = Some f /\ model_rests f (k_ts c) xs us) /\
    exists J, k_obj c = Some J /\ forall x0, (forall j, j < nx -> vec x0 j = xs j) -> rest_is_best c J x0 xs us.
  (** the solver returned an optimum of its problem *)
  Definition nl_optimally (pe : nperiod F) : Prop := exists z code cost, ne_ans pe = NSolved (dvar z) code cost /\ nlp_optimal d exactly (ne_call pe) z.
End NLMeta.
