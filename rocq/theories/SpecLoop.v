(** What it means that the linear controller drives the plant it was given: periods of "measure, optimize(), apply the command", with any other calls of the API
    in between (specification for C76). *)
From Coq Require Import Bool Arith ZArith List.
From Verif Require Import Scalar Sums Mat Slice Csc CscProof Builder LMPC SpecLMPC SpecQP SpecCert PropLMPC4 PropLMPC5.
Import ListNotations.
Local Open Scope nat_scope.

Section Loop.
  Context {F : Type} {SO : ScalarOps F}.
  Variables (junk : nat -> nat -> F) (ejunk : nat -> nat -> ext F) (d : dims).
  Notation nx := (d_nx d). Notation nu := (d_nu d).

  (** one period: the configuration in force and its plant, the measured state, the last command, the problem given to the solver, its answer, what
      optimize() returned, the sequence it left, and the state the plant has at the end of the period *)
  Record period := mkPeriod {
    pe_cfg : cfg F; pe_plant : plant F; pe_x : mat F; pe_u : mat F; pe_call : call F; pe_ans : answer F;
    pe_res : lresult F; pe_seq : lseq F; pe_next : mat F }.

  Inductive control_run : lmpc F -> list (lop F * ret F) -> mat F -> mat F -> list period -> Prop :=
  | run_start x u : sized x nx 1 -> sized u nu 1 -> control_run (l_init junk ejunk d) [] x u []
  | run_call s h x u ps op s' r : control_run s h x u ps -> op_sized d op -> op_proper op -> (forall x0 u0 a, op <> LOptimize x0 u0 a) ->
      l_step junk ejunk d s op = Ok (s', r) -> control_run s' (h ++ [(op, r)]) x u ps
  | run_period s h x u ps p a s' res x' : control_run s h x u ps -> g_plant (cfg_run h) = Some p ->
      l_step junk ejunk d s (LOptimize x u a) = Ok (s', RResult res) ->
      sized x' nx 1 -> (forall j, j < nx -> vec x' j = next_state d p (cfg_run h) 0 (vec x) (vec (r_cmd res)) j) ->
      control_run s' (h ++ [(LOptimize x u a, RResult res)]) x' (r_cmd res)
        (ps ++ [mkPeriod (cfg_run h) p x u (l_call d s x u) a res (o_seq (l_o s')) x']).

  (** the solver returned a point that satisfies every row of its problem *)
  Definition solved (pe : period) : Prop := exists z y code obj, pe_ans pe = ASolution z y code obj /\ qp_feasible (pe_call pe) z.
  (** ... that satisfies every row up to e *)
  Definition nearly_solved (e : F) (pe : period) : Prop := exists z y code obj, pe_ans pe = ASolution z y code obj /\ rows_nearly e (pe_call pe) z.
  (** the solver returned no point *)
  Definition failed (pe : period) : Prop := pe_ans pe = ANoSolution.

  (** every step of the horizon has the same bounds and the same disturbance *)
  Definition uniform (c : cfg F) : Prop :=
    forall k, k < d_ph d ->
      (forall j, j < nx -> g_xlo c k j = g_xlo c 0 j /\ g_xhi c k j = g_xhi c 0 j) /\
      (forall j, j < d_ny d -> g_ylo c k j = g_ylo c 0 j /\ g_yhi c k j = g_yhi c 0 j) /\
      (forall j, j < nu -> g_ulo c k j = g_ulo c 0 j /\ g_uhi c k j = g_uhi c 0 j) /\
      g_slo c k = g_slo c 0 /\ g_shi c k = g_shi c 0 /\
      (forall j, j < d_ndu d -> g_d c k j = g_d c 0 j).
  (** the bounds of step k on a state, reached with command u *)
  Definition state_allowed (p : plant F) (c : cfg F) (k : nat) (x u : nat -> F) : Prop :=
    (forall j, j < nx -> within (g_xlo c k j) (g_xhi c k j) (x j)) /\
    (forall j, j < d_ny d -> within (g_ylo c k j) (g_yhi c k j) (out_now d p c k x j)) /\
    within (g_slo c k) (g_shi c k) (ssum nx (fun l => g_sX c l * x l) + ssum nu (fun l => g_sU c l * u l))%S.
  (** no bounds but those on the inputs *)
  Definition only_input_bounds (c : cfg F) : Prop :=
    forall k, k < d_ph d ->
      (forall j, j < nx -> g_xlo c k j = MInf /\ g_xhi c k j = PInf) /\ (forall j, j < d_ny d -> g_ylo c k j = MInf /\ g_yhi c k j = PInf) /\
      g_slo c k = MInf /\ g_shi c k = PInf.
End Loop.
Arguments period F : clear implicits.
