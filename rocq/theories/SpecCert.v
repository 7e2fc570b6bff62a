(** What a QP solver returns together with its claim: primal/dual points with residuals, and certificates of infeasibility.
    Nothing here refers to the code; [call] is the data handed to the solver (SpecQP). *)
From Coq Require Import Bool Arith ZArith List.
From Verif Require Import Scalar Sums Mat Slice Csc CscProof Builder LMPC SpecLMPC SpecQP.
Import ListNotations.

Section SpecCert.
  Context {F : Type} {SO : ScalarOps F}.

  Definition lo_of (c : call F) (r : nat) : ext F := nth r (cl_l c) PInf.
  Definition hi_of (c : call F) (r : nat) : ext F := nth r (cl_u c) MInf.
  (** gradient of the cost, and the transposed constraint matrix times the multipliers *)
  Definition qp_grad (c : call F) (z : nat -> F) (i : nat) : F :=
    (ssum (cl_n c) (fun j => qp_P c i j * z j) + nth i (cl_q c) s0)%S.
  Definition qp_At (c : call F) (y : nat -> F) (i : nat) : F := ssum (cl_m c) (fun r => (csc_val (cl_A c) r i * y r)%S).
  (** y is a multiplier of l <= v <= u at v: positive only at the upper bound, negative only at the lower bound *)
  Definition multiplier (l u : ext F) (v y : F) : Prop :=
    ((s0 < y)%S -> u = Fin v) /\ ((y < s0)%S -> l = Fin v).

  (** OSQP's optimality conditions up to primal and dual residuals [ep], [ed]: a point w of the box close to Az, multipliers of the
      box at w, and a small gradient of the Lagrangian *)
  Definition kkt (ep ed : F) (c : call F) (z w y : nat -> F) : Prop :=
    (forall r, r < cl_m c -> within (lo_of c r) (hi_of c r) (w r) /\ (sabs (qp_row c r z - w r) <= ep)%S /\ multiplier (lo_of c r) (hi_of c r) (w r) (y r)) /\
    (forall i, i < cl_n c -> (sabs (qp_grad c z i + qp_At c y i) <= ed)%S).

  (** certificate of primal infeasibility: multipliers y with A'y = 0 whose support function on the box is negative *)
  Definition support (l u : ext F) (y : F) : option F :=
    if sltb s0 y then match u with Fin v => Some (v * y)%S | _ => None end
    else if sltb y s0 then match l with Fin v => Some (v * y)%S | _ => None end
    else Some s0.
  Definition primal_certificate (c : call F) (y : nat -> F) : Prop :=
    (forall i, i < cl_n c -> qp_At c y i = s0) /\
    exists t : nat -> F, (forall r, r < cl_m c -> support (lo_of c r) (hi_of c r) (y r) = Some (t r)) /\ (ssum (cl_m c) t < s0)%S.

  (** certificate of dual infeasibility: a direction of the feasible cone without curvature along which the cost decreases *)
  Definition recession (l u : ext F) (v : F) : Prop :=
    (match l with Fin _ => (s0 <= v)%S | _ => True end) /\ (match u with Fin _ => (v <= s0)%S | _ => True end).
  Definition dual_certificate (c : call F) (v : nat -> F) : Prop :=
    (forall i, i < cl_n c -> ssum (cl_n c) (fun j => (qp_P c i j * v j)%S) = s0) /\
    (ssum (cl_n c) (fun i => nth i (cl_q c) s0 * v i)%S < s0)%S /\
    (forall r, r < cl_m c -> recession (lo_of c r) (hi_of c r) (qp_row c r v)).

  (** a value that satisfies bounds up to [e] *)
  Definition nearly (e : F) (l u : ext F) (v : F) : Prop := exists w, within l u w /\ (sabs (v - w) <= e)%S.

  Variable d : dims.
  Notation nx := (d_nx d). Notation nu := (d_nu d). Notation ndu := (d_ndu d).
  Notation ny := (d_ny d). Notation ph := (d_ph d). Notation ch := (d_ch d).
  Definition norm1 (n : nat) (f : nat -> F) : F := ssum n (fun i => sabs (f i)).
  (** what remains of admissibility when every row of the problem holds up to [e] *)
  Definition nearly_admissible (e : F) (p : plant F) (c : cfg F) (x0 um : nat -> F) (x u : nat -> nat -> F) : Prop :=
    (forall j, j < nx -> (sabs (x O j - x0 j) <= e)%S) /\
    (forall k j, k < ph -> j < nx ->
       (sabs (x (S k) j - (ssum nx (fun l => pl_A p j l * x k l) + ssum nu (fun l => pl_B p j l * u k l) + ssum ndu (fun l => g_Bd c j l * g_d c k l)))
        <= e * (s1 + norm1 nu (pl_B p j)))%S) /\
    (forall i j, i <= ph -> j < nx -> nearly e (g_xlo c (stp i) j) (g_xhi c (stp i) j) (x i j)) /\
    (forall i j, i <= ph -> j < ny -> nearly e (g_ylo c (stp i) j) (g_yhi c (stp i) j) (output d p c x i j)) /\
    (forall k j, k < ph -> j < nu -> nearly e (g_ulo c (Nat.min (S k) (ph - 1)) j) (g_uhi c (Nat.min (S k) (ph - 1)) j) (u k j)) /\
    (forall k j, ch < k -> k < ph -> j < nu -> (sabs (u k j - ucmd um u k j) <= s2 * e)%S) /\
    (forall k, k < ph -> nearly e (g_slo c k) (g_shi c k) (ssum nx (fun l => g_sX c l * x (S k) l) + ssum nu (fun l => g_sU c l * u k l))%S).
End SpecCert.
