(** The linear control problem as it is printed in the library's manual (docs/source/manual/manual.rst, "Linear MPC"), written down directly (specification for C83).
    The user gives one weight, reference and bound per component; they hold at every step. *)
From Coq Require Import Bool Arith ZArith List.
From Verif Require Import Scalar Sums Mat Slice Builder LMPC SpecLMPC SpecQP.
Import ListNotations.
Local Open Scope nat_scope.

Section Manual.
  Context {F : Type} {SO : ScalarOps F}.
  Record manual := mkManual {
    ma_A : nat -> nat -> F; ma_B : nat -> nat -> F; ma_C : nat -> nat -> F; ma_Bd : nat -> nat -> F; ma_Dd : nat -> nat -> F;
    ma_Wy : nat -> F; ma_Wu : nat -> F; ma_Wdu : nat -> F;      (* diagonals of the three weight matrices *)
    ma_yr : nat -> F; ma_ur : nat -> F; ma_dur : nat -> F;
    ma_xmin : nat -> ext F; ma_xmax : nat -> ext F; ma_ymin : nat -> ext F; ma_ymax : nat -> ext F; ma_umin : nat -> ext F; ma_umax : nat -> ext F;
    ma_smin : ext F; ma_smax : ext F; ma_xs : nat -> F; ma_us : nat -> F;
    ma_d : nat -> nat -> F }.                                   (* d_k *)
  Variable d : dims.
  Notation nx := (d_nx d). Notation nu := (d_nu d). Notation ndu := (d_ndu d). Notation ny := (d_ny d).
  Notation N := (d_ph d).

  (** y_k = C x_k + Dd d_k *)
  Definition ma_y (m : manual) (x : nat -> nat -> F) (k j : nat) : F :=
    (ssum nx (fun l => ma_C m j l * x k l) + ssum ndu (fun l => ma_Dd m j l * ma_d m k l))%S.
  (** the increment of command k; um is the command before the first *)
  Definition ma_du (um : nat -> F) (u : nat -> nat -> F) (k j : nat) : F := match k with O => (u O j - um j)%S | S k' => (u (S k') j - u k' j)%S end.
  (** subject to ... *)
  Definition ma_dynamics (m : manual) (x0 : nat -> F) (x u : nat -> nat -> F) : Prop :=
    (forall j, j < nx -> x 0 j = x0 j) /\
    (forall k j, k < N -> j < nx -> x (S k) j = (ssum nx (fun l => ma_A m j l * x k l) + ssum nu (fun l => ma_B m j l * u k l) + ssum ndu (fun l => ma_Bd m j l * ma_d m k l))%S).
  Definition ma_bounds (m : manual) (x u : nat -> nat -> F) : Prop :=
    (forall k j, k <= N -> j < nx -> within (ma_xmin m j) (ma_xmax m j) (x k j)) /\
    (forall k j, k <= N -> j < ny -> within (ma_ymin m j) (ma_ymax m j) (ma_y m x k j)) /\
    (forall k j, k < N -> j < nu -> within (ma_umin m j) (ma_umax m j) (u k j)).
  Definition ma_scalar (m : manual) (x u : nat -> nat -> F) : Prop :=
    forall k, k < N -> within (ma_smin m) (ma_smax m) (ssum nx (fun l => ma_xs m l * x k l) + ssum nu (fun l => ma_us m l * u k l))%S.
  Definition ma_feasible (m : manual) (x0 : nat -> F) (x u : nat -> nat -> F) : Prop := ma_dynamics m x0 x u /\ ma_bounds m x u /\ ma_scalar m x u.
  (** minimize ... *)
  Definition ma_cost (m : manual) (um : nat -> F) (x u : nat -> nat -> F) : F :=
    (ssum (N + 1) (fun k => ssum ny (fun j => ma_Wy m j * sq (ma_y m x k j - ma_yr m j)))
     + ssum N (fun k => ssum nu (fun j => ma_Wu m j * sq (u k j - ma_ur m j)))
     + ssum N (fun k => ssum nu (fun j => ma_Wdu m j * sq (ma_du um u k j - ma_dur m j))))%S.

  (** the calls made so far configured this problem *)
  Record configured (m : manual) (p : plant F) (c : cfg F) : Prop := {
    cn_A : forall i l, i < nx -> l < nx -> pl_A p i l = ma_A m i l; cn_B : forall i l, i < nx -> l < nu -> pl_B p i l = ma_B m i l; cn_C : forall i l, i < ny -> l < nx -> pl_C p i l = ma_C m i l;
    cn_Bd : forall i l, i < nx -> l < ndu -> g_Bd c i l = ma_Bd m i l; cn_Dd : forall i l, i < ny -> l < ndu -> g_Dd c i l = ma_Dd m i l;
    cn_wy : forall k j, k < N -> j < ny -> g_wy c k j = ma_Wy m j; cn_wu : forall k j, k < N -> j < nu -> g_wu c k j = ma_Wu m j; cn_wdu : forall k j, k < N -> j < nu -> g_wdu c k j = ma_Wdu m j;
    cn_yr : forall k j, k < N -> j < ny -> g_yr c k j = ma_yr m j; cn_ur : forall k j, k < N -> j < nu -> g_ur c k j = ma_ur m j; cn_dur : forall k j, k < N -> j < nu -> g_dur c k j = ma_dur m j;
    cn_x : forall k j, k < N -> j < nx -> g_xlo c k j = ma_xmin m j /\ g_xhi c k j = ma_xmax m j;
    cn_y : forall k j, k < N -> j < ny -> g_ylo c k j = ma_ymin m j /\ g_yhi c k j = ma_ymax m j;
    cn_u : forall k j, k < N -> j < nu -> g_ulo c k j = ma_umin m j /\ g_uhi c k j = ma_umax m j;
    cn_s : forall k, k < N -> g_slo c k = ma_smin m /\ g_shi c k = ma_smax m;
    cn_xs : forall l, l < nx -> g_sX c l = ma_xs m l; cn_us : forall l, l < nu -> g_sU c l = ma_us m l;
    cn_d : forall k l, k < N -> l < ndu -> g_d c k l = ma_d m k l }.

  (** side conditions *)
  Definition no_scalar (m : manual) : Prop := ma_smin m = MInf /\ ma_smax m = PInf.
  (** the disturbance acts on the outputs in the same way at every step (it is constant, or does not act on them) *)
  Definition output_disturbance_constant (m : manual) : Prop :=
    forall k j, k < N -> j < ny -> ssum ndu (fun l => (ma_Dd m j l * ma_d m k l)%S) = ssum ndu (fun l => (ma_Dd m j l * ma_d m (S k) l)%S).
  Definition last_allowed (m : manual) (um : nat -> F) : Prop := forall j, j < nu -> within (ma_umin m j) (ma_umax m j) (um j).
  (** commands after step ch are those of step ch *)
  Definition held (u : nat -> nat -> F) : Prop := forall k j, d_ch d < k -> k < N -> j < nu -> u k j = u (d_ch d) j.
End Manual.
Arguments manual F : clear implicits.
