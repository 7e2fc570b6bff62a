(** What it means that a linear controller continues another one with one step less to go (specification for C91, the principle of optimality).
    Nothing here refers to the code's matrices; configurations and cost are those of SpecLMPC.v. *)
From Coq Require Import Bool Arith ZArith List.
From Verif Require Import Scalar Sums Mat Slice Csc Builder LMPC SpecLMPC SpecQP PropLMPC4.
Import ListNotations.
Local Open Scope nat_scope.

(** one step less to predict and one command less to choose *)
Definition shorter (d : dims) : dims := mkDims (d_nx d) (d_nu d) (d_ndu d) (d_ny d) (d_ph d - 1) (d_ch d - 1).

Section Tail.
  Context {F : Type} {SO : ScalarOps F}.
  Variable d : dims.
  Notation nx := (d_nx d). Notation nu := (d_nu d). Notation ndu := (d_ndu d).
  Notation ny := (d_ny d). Notation ph := (d_ph d).

  (** c' says about step k what c says about step k+1 *)
  Record continues (c c' : cfg F) : Prop := {
    ct_model : same_model d c c';
    ct_mult : same_mult d c c';
    ct_wy : forall k j, S k < ph -> j < ny -> g_wy c' k j = g_wy c (S k) j;
    ct_wu : forall k j, S k < ph -> j < nu -> g_wu c' k j = g_wu c (S k) j;
    ct_wdu : forall k j, S k < ph -> j < nu -> g_wdu c' k j = g_wdu c (S k) j;
    ct_yr : forall k j, S k < ph -> j < ny -> g_yr c' k j = g_yr c (S k) j;
    ct_ur : forall k j, S k < ph -> j < nu -> g_ur c' k j = g_ur c (S k) j;
    ct_dur : forall k j, S k < ph -> j < nu -> g_dur c' k j = g_dur c (S k) j;
    ct_d : forall k j, S k < ph -> j < ndu -> g_d c' k j = g_d c (S k) j;
    ct_xb : forall k j, S k < ph -> j < nx -> g_xlo c' k j = g_xlo c (S k) j /\ g_xhi c' k j = g_xhi c (S k) j;
    ct_yb : forall k j, S k < ph -> j < ny -> g_ylo c' k j = g_ylo c (S k) j /\ g_yhi c' k j = g_yhi c (S k) j;
    ct_ub : forall k j, S k < ph -> j < nu -> g_ulo c' k j = g_ulo c (S k) j /\ g_uhi c' k j = g_uhi c (S k) j;
    ct_sb : forall k, S k < ph -> g_slo c' k = g_slo c (S k) /\ g_shi c' k = g_shi c (S k) }.

  (** the first two steps have the same reference for the command increments *)
  Definition steady_increments (c : cfg F) : Prop := forall j, j < nu -> g_dur c 1 j = g_dur c 0 j.
  (** the first two steps have the same settings, but for input bounds, increment weights and increment references *)
  Record steady_start (c : cfg F) : Prop := {
    ss_wy : forall j, j < ny -> g_wy c 1 j = g_wy c 0 j;
    ss_wu : forall j, j < nu -> g_wu c 1 j = g_wu c 0 j;
    ss_yr : forall j, j < ny -> g_yr c 1 j = g_yr c 0 j;
    ss_ur : forall j, j < nu -> g_ur c 1 j = g_ur c 0 j;
    ss_d : forall j, j < ndu -> g_d c 1 j = g_d c 0 j;
    ss_xb : forall j, j < nx -> g_xlo c 1 j = g_xlo c 0 j /\ g_xhi c 1 j = g_xhi c 0 j;
    ss_yb : forall j, j < ny -> g_ylo c 1 j = g_ylo c 0 j /\ g_yhi c 1 j = g_yhi c 0 j;
    ss_sb : g_slo c 1 = g_slo c 0 /\ g_shi c 1 = g_shi c 0 }.

  (** the cost of the first period: being at state x with last command um, and giving command u *)
  Definition first_cost (p : plant F) (c : cfg F) (x um u : nat -> F) : F :=
    (ssum ny (fun j => g_wy c 0 j * sq (ssum nx (fun l => pl_C p j l * x l) + ssum ndu (fun l => g_Dd c j l * g_d c 0 l) - g_yr c 0 j))
     + ssum nu (fun j => g_wu c 0 j * sq (um j - g_ur c 0 j))
     + ssum nu (fun j => g_wdu c 0 j * sq (u j - um j - g_dur c 0 j)))%S.
End Tail.

Section Shrinking.
  Context {F : Type} {SO : ScalarOps F}.
  (** a task of finite length: the horizon ends when the task does. At period n the controller s n, with n steps less to go than the first, plans optimally (z n) from
      the state x n with last command u n; the first command of its plan is given, and the plant moves on to x (n+1) *)
  Record shrinking_run (d : dims) (junk : nat -> nat -> F) (ejunk : nat -> nat -> ext F) (N : nat) (s : nat -> lmpc F) (h : nat -> list (lop F * ret F)) (p : nat -> plant F)
      (x u : nat -> mat F) (z : nat -> nat -> F) : Prop := {
    sr_reached : forall n, n <= N -> reached junk ejunk (Nat.iter n shorter d) (s n) (h n) /\ g_plant (cfg_run (h n)) = Some (p n) /\ sized (x n) (d_nx d) 1 /\ sized (u n) (d_nu d) 1;
    sr_optimal : forall n, n <= N -> qp_optimal (l_call (Nat.iter n shorter d) (s n) (x n) (u n)) (z n);
    sr_continues : forall n, n < N -> continues (Nat.iter n shorter d) (cfg_run (h n)) (cfg_run (h (S n)));
    sr_steady : forall n, n < N -> steady_start (Nat.iter n shorter d) (cfg_run (h n)) /\ steady_increments (Nat.iter n shorter d) (cfg_run (h n));
    sr_given : forall n j, n < N -> j < d_nu d -> vec (u (S n)) j = z_cmd d (z n) 0 j;
    sr_moves : forall n j, n < N -> j < d_nx d -> vec (x (S n)) j = next_state d (p n) (cfg_run (h n)) 0 (vec (x n)) (vec (u (S n))) j }.
End Shrinking.
