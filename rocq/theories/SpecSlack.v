(** When the bounds of a linear problem do not touch a plan (specification for C94). Configurations are those of SpecLMPC.v. *)
From Coq Require Import Bool Arith ZArith List.
From Verif Require Import Scalar Sums Mat Slice Builder LMPC SpecLMPC.
Local Open Scope nat_scope.

Section Slack.
  Context {F : Type} {SO : ScalarOps F}.
  Variable d : dims.
  Notation nx := (d_nx d). Notation nu := (d_nu d). Notation ny := (d_ny d). Notation ph := (d_ph d).

  (** v is not on the lower, the upper, bound *)
  Definition off_lower (lo : ext F) (v : F) : Prop := match lo with Fin b => (b < v)%S | MInf => True | PInf => False end.
  Definition off_upper (hi : ext F) (v : F) : Prop := match hi with Fin b => (v < b)%S | PInf => True | MInf => False end.
  (** the pair (lo, hi) may become (lo', hi') at v: a side that changes is not touched by v *)
  Definition free_to_move (lo hi lo' hi' : ext F) (v : F) : Prop :=
    (lo' = lo \/ off_lower lo v) /\ (hi' = hi \/ off_upper hi v).

  (** c' has the settings of c, except for bounds that the plan (x, u), made with last command um, does not touch *)
  Record rebounded (p : plant F) (c c' : cfg F) (um : nat -> F) (x u : nat -> nat -> F) : Prop := {
    rb_model : same_model d c c'; rb_w : same_weights d c c'; rb_mult : same_mult d c c'; rb_refs : same_refs d c c'; rb_dist : same_dist d c c';
    rb_x : forall i j, i <= ph -> j < nx -> free_to_move (g_xlo c (stp i) j) (g_xhi c (stp i) j) (g_xlo c' (stp i) j) (g_xhi c' (stp i) j) (x i j);
    rb_y : forall i j, i <= ph -> j < ny -> free_to_move (g_ylo c (stp i) j) (g_yhi c (stp i) j) (g_ylo c' (stp i) j) (g_yhi c' (stp i) j) (output d p c x i j);
    rb_u : forall i j, i <= ph -> j < nu ->
      free_to_move (g_ulo c (Nat.min i (ph - 1)) j) (g_uhi c (Nat.min i (ph - 1)) j) (g_ulo c' (Nat.min i (ph - 1)) j) (g_uhi c' (Nat.min i (ph - 1)) j) (ucmd um u i j);
    rb_s : forall i, i <= ph -> free_to_move (g_slo c (stp i)) (g_shi c (stp i)) (g_slo c' (stp i)) (g_shi c' (stp i))
      (ssum nx (fun l => g_sX c l * x i l) + ssum nu (fun l => g_sU c l * ucmd um u i l))%S }.
End Slack.
