(** Independent specification for C84: the same linear control problem written in other state coordinates and in deviations from an operating point. *)
From Coq Require Import Bool Arith ZArith List.
From Verif Require Import Scalar Sums Mat Slice Builder LMPC SpecLMPC.
Import ListNotations.

Section Coord.
  Context {F : Type} {SO : ScalarOps F}.
  Local Open Scope S_scope.
  Local Open Scope nat_scope.
  (** products of matrices (n is the common dimension) and of a matrix with a vector *)
  Definition mm (n : nat) (A B : nat -> nat -> F) (i j : nat) : F := ssum n (fun l => (A i l * B l j)%S).
  Definition mv (n : nat) (A : nat -> nat -> F) (v : nat -> F) (i : nat) : F := ssum n (fun l => (A i l * v l)%S).

  (** new state = T (state - xs), new command = command - us, new output = output - ys *)
  Record coords := mkCoords { co_T : nat -> nat -> F; co_x : nat -> F; co_u : nat -> F; co_y : nat -> F }.
  Variable d : dims.
  Notation nx := (d_nx d). Notation nu := (d_nu d). Notation ndu := (d_ndu d).
  Notation ny := (d_ny d). Notation ph := (d_ph d). Notation ch := (d_ch d).
  Definition new_x (e : coords) (v : nat -> F) : nat -> F := mv nx (co_T e) (fun l => (v l - co_x e l)%S).
  Definition new_u (e : coords) (v : nat -> F) : nat -> F := fun j => (v j - co_u e j)%S.
  Definition new_y (e : coords) (v : nat -> F) : nat -> F := fun j => (v j - co_y e j)%S.
  Definition sub_ext (a : ext F) (b : F) : ext F := match a with Fin x => Fin (x - b)%S | PInf => PInf | MInf => MInf end.

  (** T is invertible *)
  Definition invertible (T : nat -> nat -> F) : Prop :=
    exists Ti, (forall i j, i < nx -> j < nx -> mm nx Ti T i j = if i =? j then s1 else s0) /\ (forall i j, i < nx -> j < nx -> mm nx T Ti i j = if i =? j then s1 else s0).
  (** (xs, us, ys) is an operating point of the plant: it rests there when no disturbance acts *)
  Definition operating_point (e : coords) (p : plant F) : Prop :=
    (forall j, j < nx -> co_x e j = (mv nx (pl_A p) (co_x e) j + mv nu (pl_B p) (co_u e) j)%S) /\ (forall j, j < ny -> co_y e j = mv nx (pl_C p) (co_x e) j).
  (** p' is the plant p in the new coordinates: A' T = T A, B' = T B, C' T = C *)
  Definition plant_at (e : coords) (p p' : plant F) : Prop :=
    (forall i j, i < nx -> j < nx -> mm nx (pl_A p') (co_T e) i j = mm nx (co_T e) (pl_A p) i j) /\
    (forall i j, i < nx -> j < nu -> pl_B p' i j = mm nx (co_T e) (pl_B p) i j) /\
    (forall i j, i < ny -> j < nx -> mm nx (pl_C p') (co_T e) i j = pl_C p i j).
  (** the configuration c' says in the new coordinates what c says in the old ones *)
  Record cfg_at (e : coords) (c c' : cfg F) : Prop := {
    at_Bd : forall i j, i < nx -> j < ndu -> g_Bd c' i j = mm nx (co_T e) (g_Bd c) i j;
    at_Dd : forall i j, i < ny -> j < ndu -> g_Dd c' i j = g_Dd c i j;
    at_d : forall k j, k < ph -> j < ndu -> g_d c' k j = g_d c k j;
    at_wy : forall k j, k < ph -> j < ny -> g_wy c' k j = g_wy c k j; at_wu : forall k j, k < ph -> j < nu -> g_wu c' k j = g_wu c k j; at_wdu : forall k j, k < ph -> j < nu -> g_wdu c' k j = g_wdu c k j;
    at_yr : forall k j, k < ph -> j < ny -> g_yr c' k j = new_y e (g_yr c k) j; at_ur : forall k j, k < ph -> j < nu -> g_ur c' k j = new_u e (g_ur c k) j;
    at_dur : forall k j, k < ph -> j < nu -> g_dur c' k j = g_dur c k j;
    (* the same states are allowed (for example: there are no state bounds, or T only permutes and scales the states and the bounds follow) *)
    at_xb : forall k v, k < ph -> (forall j, j < nx -> within (g_xlo c k j) (g_xhi c k j) (v j)) <-> (forall j, j < nx -> within (g_xlo c' k j) (g_xhi c' k j) (new_x e v j));
    at_yb : forall k j, k < ph -> j < ny -> g_ylo c' k j = sub_ext (g_ylo c k j) (co_y e j) /\ g_yhi c' k j = sub_ext (g_yhi c k j) (co_y e j);
    at_ub : forall k j, k < ph -> j < nu -> g_ulo c' k j = sub_ext (g_ulo c k j) (co_u e j) /\ g_uhi c' k j = sub_ext (g_uhi c k j) (co_u e j);
    at_sX : forall j, j < nx -> ssum nx (fun l => (g_sX c' l * co_T e l j)%S) = g_sX c j; at_sU : forall j, j < nu -> g_sU c' j = g_sU c j;
    at_sb : forall k, k < ph -> let o := (ssum nx (fun l => g_sX c l * co_x e l) + ssum nu (fun l => g_sU c l * co_u e l))%S in
      g_slo c' k = sub_ext (g_slo c k) o /\ g_shi c' k = sub_ext (g_shi c k) o }.
End Coord.
Arguments coords F : clear implicits.
