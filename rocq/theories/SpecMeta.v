(** Independent specification for C71–C73: the same linear control problem written in other units, problems with wider bounds, problems
    without bounds and their superposition. Nothing here refers to the code's matrices; configurations are those of SpecLMPC.v. *)
From Coq Require Import Bool Arith ZArith List.
From Verif Require Import Scalar Sums Mat Slice Builder LMPC SpecLMPC.
Import ListNotations.

Section Meta.
  Context {F : Type} {SO : ScalarOps F}.
  Local Open Scope S_scope.
  Local Open Scope nat_scope.

  (** *** Units *)
  (** one new unit per state, command, output and disturbance component: a quantity q in old units is (factor * q) in new ones; also the unit
      of the scalar constraint and the unit of cost *)
  Record units := mkUnits { un_x : nat -> F; un_u : nat -> F; un_y : nat -> F; un_d : nat -> F; un_s : F; un_cost : F }.
  Definition emul (a : F) (b : ext F) : ext F :=
    match b with
    | Fin x => Fin (a * x)%S
    | PInf => if sltb s0 a then PInf else MInf
    | MInf => if sltb s0 a then MInf else PInf
    end.
  (** a pair of bounds in new units: a negative factor exchanges lower and upper bound *)
  Definition box_in (a : F) (lo hi lo' hi' : ext F) : Prop :=
    if sltb s0 a then lo' = emul a lo /\ hi' = emul a hi else lo' = emul a hi /\ hi' = emul a lo.

  Variable d : dims.
  Notation nx := (d_nx d). Notation nu := (d_nu d). Notation ndu := (d_ndu d).
  Notation ny := (d_ny d). Notation ph := (d_ph d). Notation ch := (d_ch d).

  Definition units_ok (e : units) : Prop :=
    (forall j, j < nx -> un_x e j <> s0) /\ (forall j, j < nu -> un_u e j <> s0) /\ (forall j, j < ny -> un_y e j <> s0) /\
    (forall j, j < ndu -> un_d e j <> s0) /\ un_s e <> s0 /\ (s0 < un_cost e)%S.

  (** the plant p' is p in new units *)
  Definition plant_in (e : units) (p p' : plant F) : Prop :=
    (forall i l, i < nx -> l < nx -> (pl_A p' i l * un_x e l)%S = (un_x e i * pl_A p i l)%S) /\
    (forall i l, i < nx -> l < nu -> (pl_B p' i l * un_u e l)%S = (un_x e i * pl_B p i l)%S) /\
    (forall i l, i < ny -> l < nx -> (pl_C p' i l * un_x e l)%S = (un_y e i * pl_C p i l)%S).

  (** the configuration c' says in new units what c says in old units *)
  Record cfg_in (e : units) (c c' : cfg F) : Prop := {
    in_Bd : forall i l, i < nx -> l < ndu -> (g_Bd c' i l * un_d e l)%S = (un_x e i * g_Bd c i l)%S;
    in_Dd : forall i l, i < ny -> l < ndu -> (g_Dd c' i l * un_d e l)%S = (un_y e i * g_Dd c i l)%S;
    in_d : forall k l, k < ph -> l < ndu -> g_d c' k l = (un_d e l * g_d c k l)%S;
    in_wy : forall k j, k < ph -> j < ny -> (g_wy c' k j * sq (un_y e j))%S = (un_cost e * g_wy c k j)%S;
    in_wu : forall k j, k < ph -> j < nu -> (g_wu c' k j * sq (un_u e j))%S = (un_cost e * g_wu c k j)%S;
    in_wdu : forall k j, k < ph -> j < nu -> (g_wdu c' k j * sq (un_u e j))%S = (un_cost e * g_wdu c k j)%S;
    in_yr : forall k j, k < ph -> j < ny -> g_yr c' k j = (un_y e j * g_yr c k j)%S;
    in_ur : forall k j, k < ph -> j < nu -> g_ur c' k j = (un_u e j * g_ur c k j)%S;
    in_dur : forall k j, k < ph -> j < nu -> g_dur c' k j = (un_u e j * g_dur c k j)%S;
    in_xb : forall k j, k < ph -> j < nx -> box_in (un_x e j) (g_xlo c k j) (g_xhi c k j) (g_xlo c' k j) (g_xhi c' k j);
    in_yb : forall k j, k < ph -> j < ny -> box_in (un_y e j) (g_ylo c k j) (g_yhi c k j) (g_ylo c' k j) (g_yhi c' k j);
    in_ub : forall k j, k < ph -> j < nu -> box_in (un_u e j) (g_ulo c k j) (g_uhi c k j) (g_ulo c' k j) (g_uhi c' k j);
    in_sb : forall k, k < ph -> box_in (un_s e) (g_slo c k) (g_shi c k) (g_slo c' k) (g_shi c' k);
    in_sX : forall l, l < nx -> (g_sX c' l * un_x e l)%S = (un_s e * g_sX c l)%S;
    in_sU : forall l, l < nu -> (g_sU c' l * un_u e l)%S = (un_s e * g_sU c l)%S }.

  (** a vector, a sequence of vectors, in new units *)
  Definition vec_in (a : nat -> F) (v : nat -> F) : nat -> F := fun j => (a j * v j)%S.
  Definition seq_in (a : nat -> F) (v : nat -> nat -> F) : nat -> nat -> F := fun k j => (a j * v k j)%S.

  (** *** Wider bounds *)
  (** every value allowed by the first pair of bounds is allowed by the second *)
  Definition wider (lo hi lo' hi' : ext F) : Prop := forall v, within lo hi v -> within lo' hi' v.
  (** c' differs from c only by bounds, which are wider *)
  Record relaxed (c c' : cfg F) : Prop := {
    rx_model : same_model d c c'; rx_w : same_weights d c c'; rx_mult : same_mult d c c'; rx_refs : same_refs d c c'; rx_dist : same_dist d c c';
    rx_x : forall k j, k < ph -> j < nx -> wider (g_xlo c k j) (g_xhi c k j) (g_xlo c' k j) (g_xhi c' k j);
    rx_y : forall k j, k < ph -> j < ny -> wider (g_ylo c k j) (g_yhi c k j) (g_ylo c' k j) (g_yhi c' k j);
    rx_u : forall k j, k < ph -> j < nu -> wider (g_ulo c k j) (g_uhi c k j) (g_ulo c' k j) (g_uhi c' k j);
    rx_s : forall k, k < ph -> wider (g_slo c k) (g_shi c k) (g_slo c' k) (g_shi c' k) }.

  (** *** Superposition *)
  Definition unbounded (c : cfg F) : Prop :=
    (forall k j, k < ph -> j < nx -> g_xlo c k j = MInf /\ g_xhi c k j = PInf) /\
    (forall k j, k < ph -> j < ny -> g_ylo c k j = MInf /\ g_yhi c k j = PInf) /\
    (forall k j, k < ph -> j < nu -> g_ulo c k j = MInf /\ g_uhi c k j = PInf) /\
    (forall k, k < ph -> g_slo c k = MInf /\ g_shi c k = PInf).
  (** a*v + b*w *)
  Definition mix (a b : F) (v w : nat -> F) : nat -> F := fun j => (a * v j + b * w j)%S.
  Definition mix2 (a b : F) (v w : nat -> nat -> F) : nat -> nat -> F := fun k j => (a * v k j + b * w k j)%S.
  (** the references and disturbances of c3 are a times those of c1 plus b times those of c2; plant model and weights are the same *)
  Record superposed (a b : F) (c1 c2 c3 : cfg F) : Prop := {
    sp_m1 : same_model d c1 c3; sp_m2 : same_model d c2 c3; sp_w1 : same_weights d c1 c3; sp_w2 : same_weights d c2 c3;
    sp_yr : eqm ph ny (g_yr c3) (mix2 a b (g_yr c1) (g_yr c2));
    sp_ur : eqm ph nu (g_ur c3) (mix2 a b (g_ur c1) (g_ur c2));
    sp_dur : eqm ph nu (g_dur c3) (mix2 a b (g_dur c1) (g_dur c2));
    sp_d : eqm ph ndu (g_d c3) (mix2 a b (g_d c1) (g_d c2)) }.
End Meta.
Arguments units F : clear implicits.
