(** When the non-linear controller can always do better by the cost of one period, and what its periods cost (specification for C88).
    Configurations, trajectories, costs and periods are those of SpecNLC.v, SpecNLO.v, SpecNLoop.v. *)
From Coq Require Import Bool Arith ZArith List.
From Verif Require Import Scalar Sums Mat Slice Builder LMPC SpecLMPC NLMap NLFun SpecNL NLMPC SpecNLC SpecNLP SpecNLO SpecMeta SpecNLoop SpecNLMeta.
Import ListNotations.
Local Open Scope nat_scope.

Section NLStab.
  Context {F : Type} {SO : ScalarOps F}.
  Variables (d : dims) (ni ne : nat).
  Notation nx := (d_nx d). Notation nu := (d_nu d). Notation ph := (d_ph d). Notation ch := (d_ch d).
  (** [l x u]: what one period costs that starts at state x and applies the command u *)
  Variable l : list F -> list F -> F.

  (** after the first step of any admissible plan there is an admissible plan that costs less, by at least the cost of that step *)
  Definition descends (c : ncfg F) (J : obj_t F) : Prop :=
    forall x0 X U x1, nl_admissible d ni ne c x0 exactly X U -> (forall j, j < nx -> vec x1 j = X 1 j) ->
      exists X' U', nl_admissible d ni ne c x1 exactly X' U' /\ (nl_cost d c J X' U' + l (comps nx (X O)) (comps nu (U O)) <= nl_cost d c J X U)%S.

  (** what a period cost, and the cost of the plan read back in a period *)
  Definition ne_spent (pe : nperiod F) : F := l (comps nx (vec (ne_x pe))) (comps nu (vec (r_cmd (ne_res pe)))).
  Definition ne_planned (J : obj_t F) (pe : nperiod F) : F := nl_cost d (ne_cfg pe) J (ent (q_state (ne_seq pe))) (ent (q_input (ne_seq pe))).
  (** the plant ended the period where the plan read back said *)
  Definition as_planned (pe : nperiod F) : Prop := forall j, j < nx -> vec (ne_next pe) j = ent (q_state (ne_seq pe)) 1 j.
  (** every period is solved to optimality and goes as planned, under configurations that pose the same problem, with the cost J, without scales, and can descend *)
  Definition nl_good_loop (J : obj_t F) (ps : list (nperiod F)) : Prop :=
    forall pe, In pe ps -> unit_scales d (ne_cfg pe) /\ all_accepted (ne_cfg pe) /\ k_obj (ne_cfg pe) = Some J /\ descends (ne_cfg pe) J /\
      nl_optimally d pe /\ as_planned pe /\ forall q, In q ps -> nl_relaxed d (ne_cfg pe) (ne_cfg q).

  (** the usual way to make that true: the cost adds up l over the rows of the states and commands; the bounds are the same at every step; the user's constraints
      are the same condition G on every row and, on the last row, to be at the point of rest (xs, us), which costs nothing *)
  Record ends_at_rest (c : ncfg F) (J : obj_t F) (f : dyn_t F) (G : list F -> list F -> Prop) (xs us : nat -> F) : Prop := {
    er_units : unit_scales d c;
    er_dyn : k_dyn c = Some f; er_ts : k_ts c = None; er_auto : autonomous f;
    er_uniform : nl_uniform d c;
    er_cost : forall X U, nl_cost d c J X U = ssum (ph + 1) (fun i => l (comps nx (X i)) (comps nu (U i)));
    er_cons : forall X U, user_constraints d ni ne c X U <->
      (forall i, i <= ph -> G (comps nx (X i)) (comps nu (U i))) /\ (forall j, j < nx -> X ph j = xs j) /\ (forall j, j < nu -> U ph j = us j);
    er_rest : forall j, j < nx -> f (comps nx xs) (comps nu us) 0 j = xs j;
    er_free : l (comps nx xs) (comps nu us) = s0 }.
End NLStab.
