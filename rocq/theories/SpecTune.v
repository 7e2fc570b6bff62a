(** What it means to tune the linear controller by its weights (specification for C93). Configurations and cost are those of SpecLMPC.v. *)
From Coq Require Import Bool Arith ZArith List.
From Verif Require Import Scalar Sums Mat Slice Builder LMPC SpecLMPC.
Local Open Scope nat_scope.

Section Tune.
  Context {F : Type} {SO : ScalarOps F}.
  Variable d : dims.
  Notation nx := (d_nx d). Notation nu := (d_nu d). Notation ny := (d_ny d). Notation ph := (d_ph d).

  (** the three kinds of weights of setObjectiveWeights() *)
  Inductive kind := OnOutputs | OnCommands | OnIncrements.
  (** what the terms with that kind of weight contribute to the cost of a plan *)
  Definition share (k : kind) (p : plant F) (c : cfg F) (um : nat -> F) (x u : nat -> nat -> F) : F :=
    match k with
    | OnOutputs => ssum (ph + 1) (fun i => ssum ny (fun j => (g_wy c (stp i) j * sq (output d p c x i j - g_yr c (stp i) j))%S))
    | OnCommands => ssum (ph + 1) (fun i => ssum nu (fun j => (g_wu c (stp i) j * sq (ucmd um u i j - g_ur c (stp i) j))%S))
    | OnIncrements => ssum ph (fun i => ssum nu (fun j => (g_wdu c i j * sq (dcmd um u i j - g_dur c (stp i) j))%S))
    end.
  (** what the other two kinds of terms contribute *)
  Definition other_shares (k : kind) (p : plant F) (c : cfg F) (um : nat -> F) (x u : nat -> nat -> F) : F :=
    match k with
    | OnOutputs => (share OnCommands p c um x u + share OnIncrements p c um x u)%S
    | OnCommands => (share OnOutputs p c um x u + share OnIncrements p c um x u)%S
    | OnIncrements => (share OnOutputs p c um x u + share OnCommands p c um x u)%S
    end.
  (** c' has the same settings as c, but a factor a on the weights of kind k *)
  Record retuned (k : kind) (a : F) (c c' : cfg F) : Prop := {
    rt_model : same_model d c c'; rt_mult : same_mult d c c'; rt_refs : same_refs d c c'; rt_dist : same_dist d c c';
    rt_xb : same_xb d c c'; rt_yb : same_yb d c c'; rt_ub : same_ub d c c'; rt_sb : same_sb d c c';
    rt_wy : forall i j, i < ph -> j < ny -> g_wy c' i j = match k with OnOutputs => a * g_wy c i j | _ => g_wy c i j end%S;
    rt_wu : forall i j, i < ph -> j < nu -> g_wu c' i j = match k with OnCommands => a * g_wu c i j | _ => g_wu c i j end%S;
    rt_wdu : forall i j, i < ph -> j < nu -> g_wdu c' i j = match k with OnIncrements => a * g_wdu c i j | _ => g_wdu c i j end%S }.
End Tune.
