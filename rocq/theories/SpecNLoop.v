(** What it means that the non-linear controller drives a plant: periods of "measure, optimize(), apply the command", with any other calls of the API in
    between (specification for C77). *)
From Coq Require Import Bool Arith ZArith List.
From Verif Require Import Scalar Sums Mat Slice Builder LMPC SpecLMPC NLMap NLFun SpecNL NLMPC SpecNLC SpecNLP SpecNLO.
Import ListNotations.
Local Open Scope nat_scope.

Section NLoop.
  Context {F : Type} {SO : ScalarOps F}.
  Variables (junk : nat -> nat -> F) (d : dims) (ni ne : nat) (dyn_eq : bool).
  Notation nx := (d_nx d). Notation nu := (d_nu d). Notation ph := (d_ph d). Notation ch := (d_ch d).
  (** the components of a vector, as a user function receives them *)
  Definition comps (n : nat) (v : nat -> F) : list F := map v (seq 0 n).

  (** one period: the configuration in force, the measured state, the last command, the problem given to the solver, its answer, what optimize() returned,
      the sequence it left, and the state the plant has at the end of the period *)
  Record nperiod := mkNPeriod {
    ne_cfg : ncfg F; ne_x : mat F; ne_u : mat F; ne_call : ncall F; ne_ans : nanswer F; ne_res : lresult F; ne_seq : lseq F; ne_next : mat F }.

  (** [plant x u j]: component j of the state the plant reaches from x in one period under the command u *)
  Variable plant : list F -> list F -> nat -> F.
  Inductive nl_control_run : nmpc F -> list (nop F * ret F) -> mat F -> mat F -> list nperiod -> Prop :=
  | nrun_start s x u : n_new d = Ok s -> gm x nx 1 -> gm u nu 1 -> nl_control_run s [] x u []
  | nrun_call s h x u ps op s' r : nl_control_run s h x u ps -> nop_sized d op -> (forall x0 u0 a, op <> NOptimize x0 u0 a) ->
      n_step junk d ni ne dyn_eq s op = Ok (s', r) -> nl_control_run s' (h ++ [(op, r)]) x u ps
  | nrun_period s h x u ps a s' res x' : nl_control_run s h x u ps ->
      n_step junk d ni ne dyn_eq s (NOptimize x u a) = Ok (s', RResult res) ->
      gm x' nx 1 -> (forall j, j < nx -> vec x' j = plant (comps nx (vec x)) (comps nu (vec (r_cmd res))) j) ->
      nl_control_run s' (h ++ [(NOptimize x u a, RResult res)]) x' (r_cmd res)
        (ps ++ [mkNPeriod (ncfg_run d ni ne h) x u (n_call junk d ni ne s x u) a res (n_seq s') x']).

  (** all scales are 1 *)
  Definition unit_scales (c : ncfg F) : Prop := (forall j, j < nx -> k_sx c j = s1) /\ (forall j, j < nu -> k_su c j = s1).
  (** the solver returned a point that satisfies its problem (box and constraint callbacks) up to the tolerances t *)
  Definition nl_solved (t : tols F) (pe : nperiod) : Prop :=
    exists z code cost, ne_ans pe = NSolved (dvar z) code cost /\ nlp_feasible d t (ne_call pe) z.
  (** the solver threw *)
  Definition nl_failed (pe : nperiod) : Prop := ne_ans pe = NThrow.
  (** the same bounds at every step *)
  Definition nl_uniform (c : ncfg F) : Prop :=
    (forall k j, k < ph -> j < nx -> k_xlo c k j = k_xlo c 0 j /\ k_xhi c k j = k_xhi c 0 j) /\
    (forall k j, k < ch -> j < nu -> k_ulo c k j = k_ulo c 0 j /\ k_uhi c k j = k_uhi c 0 j).
  (** the function does not look at the step index *)
  Definition autonomous (f : dyn_t F) : Prop := forall x u k k' l, f x u k l = f x u k' l.
  (** the plan moved one period on: its tail, then one more step of the model with the last command held *)
  Definition moved_x (f : dyn_t F) (X U : nat -> nat -> F) (i : nat) : nat -> F :=
    if i <? ph then X (S i) else f (comps nx (X ph)) (comps nu (U ph)) 0.
  Definition moved_u (U : nat -> nat -> F) (i : nat) : nat -> F := U (Nat.min (S i) ph).
  (** the user's inequality and equality constraints *)
  Definition user_constraints (c : ncfg F) (X U : nat -> nat -> F) : Prop :=
    (forall f, k_ieq c = Some f -> forall k, k < ni -> (ieq_at d f (k_out c) k X U s0 <= s0)%S) /\
    (forall f, k_eqc c = Some f -> forall k, k < ne -> eqc_at d f k X U = s0).
End NLoop.
Arguments nperiod F : clear implicits.
