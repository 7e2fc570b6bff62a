(** Model of three of the example programs of the repository as clients of the non-linear controller: examples/vanderpol_ex.cpp,
    examples/networked_oscillators_ex.cpp and examples/ugv_ex.cpp (the fourth, quadrotor_ex.cpp, is in ExampleQuad.v).  The horizons, the number of
    oscillators and of obstacles, the sampling time, the parameters and the initial state, constants of the programs, are arbitrary here.
    Calls of setLoggerLevel and printing have no effect on the controller (C79) and are left out. *)
From Coq Require Import Bool Arith ZArith List BinPos.
From Verif Require Import Scalar Sums Mat Slice Builder LMPC NLMap NLFun NLMPC.
Import ListNotations.

Section Examples.
  Context {F : Type} {SO : ScalarOps F}.
  Local Open Scope S_scope.
  Definition at_ (v : list F) (i : nat) : F := nth i v s0.
  Definition cell (M : rows F) (i j : nat) : F := nth j (nth i M []) s0.

  (** ** vanderpol_ex.cpp *)
  Definition vdp_dims (ph ch : nat) : dims := mkDims 2 1 0 2 ph ch.
  (** stateEq, lines 33-40 *)
  Definition vdp_f : dyn_t F := fun x u _ l =>
    match l with
    | O => (s1 - at_ x 1 * at_ x 1) * at_ x 0 - at_ x 1 + at_ u 0
    | S O => at_ x 0
    | _ => s0 end.
  (** x.array().square().sum(), line 54; the order of the summands differs, which exact arithmetic does not see *)
  Definition sum_sq (M : rows F) : F := fold_left (fun a v => a + v * v) (concat M) s0.
  (** lines 49-54; networked_oscillators_ex.cpp:48-53 *)
  Definition ex_cost : obj_t F := fun X _ U _ => sum_sq X + sum_sq U.
  (** lines 56-65: in_con(i) = u(i, 0) - 0.5; networked_oscillators_ex.cpp:55-64 *)
  Definition ex_half : F := sdec 1%positive 2%positive.
  Definition ex_cap : ieq_t F := fun _ _ U _ k => cell U k 0 - ex_half.
  (** lines 26-65: the calls made once, each accepted by the solver library *)
  Definition vdp_setup (ts : F) (p : nparams F) (tol : F) : list (nop F) :=
    [NSetSampling ts; NSetParams (NPNonLinear p); NSetDynamics vdp_f tol true; NSetObjective ex_cost true; NSetIneq ex_cap tol true].
  (** lines 79-80 (networked_oscillators_ex.cpp:75-76): modelX += modeldX * ts *)
  Definition euler (f : dyn_t F) (ts : F) (x u : list F) (j : nat) : F := at_ x j + f x u 0%nat j * ts.

  (** ** networked_oscillators_ex.cpp *)
  Definition net_dims (N ph ch : nat) : dims := mkDims (2 * N) N 0 (2 * N) ph ch.
  (** oscillatorNetworkDynamics, lines 17-29 *)
  Definition net_f (N : nat) (mu k : F) : dyn_t F := fun x u _ l =>
    let i := (l / 2)%nat in let xi := at_ x (2 * i)%nat in let vi := at_ x (2 * i + 1)%nat in
    if Nat.even l then vi
    else loop N (fun j a => if (i =? j)%nat then a else a + k * (at_ x (2 * j)%nat - xi)) (mu * (s1 - xi * xi) * vi - xi + at_ u i).
  (** lines 39-64 *)
  Definition net_setup (N : nat) (mu k ts tol : F) : list (nop F) :=
    [NSetSampling ts; NSetDynamics (net_f N mu k) tol true; NSetObjective ex_cost true; NSetIneq ex_cap tol true].

  (** ** ugv_ex.cpp *)
  Definition ugv_dims (ph ch : nat) : dims := mkDims 4 2 0 4 ph ch.
  (** Ad * x + Bd * u, lines 59-66 and 69-76 (Cd, Dd).  The matrices are those mpc::discretization returns (line 57); they are arbitrary here *)
  Definition lin_f (A B : nat -> nat -> F) : list F -> list F -> nat -> nat -> F := fun x u _ l =>
    ssum 4 (fun j => A l j * at_ x j) + ssum 2 (fun j => B l j * at_ u j).
  (** objEq, lines 79-95, with the current value v of v_pref, which the lambda captures by reference *)
  Definition ugv_cost (v : nat -> F) : obj_t F := fun X _ U e =>
    loop (length X) (fun i c =>
      let d j := cell X i (2 + j)%nat - v j in
      c + sdec 1000%positive 1%positive * (d 0%nat * d 0%nat + d 1%nat * d 1%nat)
        + sdec 1%positive 100%positive * (cell U i 0 * cell U i 0 + cell U i 1 * cell U i 1)) s0
    + sdec 1%positive 100000%positive * e * e.
  (** conIneq, lines 98-114; [root]: the square root of Eigen's norm().  ineq(index++) over rows i and obstacles j: index = i * n + j *)
  Definition ugv_ieq (root : F -> F) (n : nat) (pos : nat -> nat -> F) (rad : nat -> F) : ieq_t F := fun X _ _ _ k =>
    let i := (k / n)%nat in let j := (k mod n)%nat in
    let d a := cell X i a - pos j a in
    rad j - root (d 0%nat * d 0%nat + d 1%nat * d 1%nat).
  (** lines 67-137 *)
  Definition ugv_setup (A B Cm D : nat -> nat -> F) (root : F -> F) (n : nat) (pos : nat -> nat -> F) (rad : nat -> F) (v : nat -> F) (p : nparams F) (tol : F) : list (nop F) :=
    [NSetDynamics (lin_f A B) tol true; NSetOutput (lin_f Cm D); NSetObjective (ugv_cost v) true;
     NSetIneq (ugv_ieq root n pos rad) tol true; NSetParams (NPNonLinear p)].
  (** line 149: stateEq(m_x_next, m_x, res.cmd, -1) *)
  Definition ugv_plant (A B : nat -> nat -> F) (x u : list F) (j : nat) : F := lin_f A B x u 0 j.
End Examples.
