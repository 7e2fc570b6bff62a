(** What it means that two linear controllers differ only by their horizons (specification for C92). Configurations and cost are those of SpecLMPC.v. *)
From Coq Require Import Bool Arith ZArith List.
From Verif Require Import Scalar Sums Mat Slice Builder LMPC SpecLMPC.
Local Open Scope nat_scope.

(** the same plant sizes with prediction horizon n and control horizon m *)
Definition with_horizons (d : dims) (n m : nat) : dims := mkDims (d_nx d) (d_nu d) (d_ndu d) (d_ny d) n m.

Section Horizon.
  Context {F : Type} {SO : ScalarOps F}.
  Variable d : dims.
  Notation nx := (d_nx d). Notation nu := (d_nu d). Notation ndu := (d_ndu d). Notation ny := (d_ny d).

  (** the two configurations say the same about the first n steps *)
  Record agree_upto (n : nat) (c c' : cfg F) : Prop := {
    ag_model : same_model d c c';
    ag_mult : same_mult d c c';
    ag_wy : eqm n ny (g_wy c') (g_wy c); ag_wu : eqm n nu (g_wu c') (g_wu c); ag_wdu : eqm n nu (g_wdu c') (g_wdu c);
    ag_yr : eqm n ny (g_yr c') (g_yr c); ag_ur : eqm n nu (g_ur c') (g_ur c); ag_dur : eqm n nu (g_dur c') (g_dur c);
    ag_d : eqm n ndu (g_d c') (g_d c);
    ag_xlo : eqm n nx (g_xlo c') (g_xlo c); ag_xhi : eqm n nx (g_xhi c') (g_xhi c);
    ag_ylo : eqm n ny (g_ylo c') (g_ylo c); ag_yhi : eqm n ny (g_yhi c') (g_yhi c);
    ag_ulo : eqm n nu (g_ulo c') (g_ulo c); ag_uhi : eqm n nu (g_uhi c') (g_uhi c);
    ag_slo : eqv n (g_slo c') (g_slo c); ag_shi : eqv n (g_shi c') (g_shi c) }.

  (** where the shorter horizon ends, the input bounds do not change: input bounds act one step late (C06) *)
  Definition inputs_steady_at (n : nat) (c : cfg F) : Prop := forall j, j < nu -> g_ulo c n j = g_ulo c (n - 1) j /\ g_uhi c n j = g_uhi c (n - 1) j.
End Horizon.
