(** Model of examples/quadrotor_ex.cpp as a client of the linear controller.  The horizon (both are 10 in the program), the entries of the matrices and
    the weights, the references and the bounds, constants of the program, are arbitrary here; PropExamples4.v checks that the constants of the program satisfy
    what the theorems assume.  setLoggerLevel and printing have no effect on the controller and are left out. *)
From Coq Require Import Bool Arith ZArith List.
From Verif Require Import Scalar Sums Mat Slice Builder LMPC.
Import ListNotations.

Section Quad.
  Context {F : Type} {SO : ScalarOps F}.
  Variable H : nat.
  (** lines 5-10 *)
  Definition quad_dims : dims := mkDims 12 4 4 12 H H.
  Definition column {T} (n : nat) (f : nat -> T) : mat T := mkMat n 1 (fun i _ => f i) true.
  Definition matrix (n m : nat) (f : nat -> nat -> F) : mat F := mkMat n m f true.
  Variables (A B : nat -> nat -> F) (Wy Wu Wdu : nat -> F) (xlo xhi : nat -> ext F) (ulo uhi : nat -> F) (yref : nat -> F) (par : lparams F).
  (** {0, Tph}, {0, Tch} *)
  Definition all_steps : slice := mkSlice 0 (Z.of_nat H).
  Definition identity (i j : nat) : F := if i =? j then s1 else s0.
  Definition zero2 (i j : nat) : F := s0.
  (** lines 50-93: the calls before optimize() *)
  Definition quad_setup : list (lop F) :=
    [ LSetModel (matrix 12 12 A) (matrix 12 4 B) (matrix 12 12 identity);                                     (* 50 *)
      LSetWeights (column 12 Wy) (column 4 Wu) (column 4 Wdu) all_steps;                                      (* 59 *)
      LSetStateBounds (column 12 xlo) (column 12 xhi) all_steps;                                              (* 81 *)
      LSetOutputBounds (column 12 (fun _ => MInf)) (column 12 (fun _ => PInf)) all_steps;                     (* 82 *)
      LSetInputBounds (column 4 (fun j => Fin (ulo j))) (column 4 (fun j => Fin (uhi j))) all_steps;          (* 83 *)
      LSetRefsMat (matrix 12 H zero2) (matrix 4 H zero2) (matrix 4 H zero2);                                  (* 85 *)
      LSetRefs (column 12 yref) (column 4 (fun _ => s0)) (column 4 (fun _ => s0)) all_steps;                  (* 89 *)
      LSetParams (PLinear par) ].                                                                             (* 93 *)
  (** optimize(Zero, Zero), line 95 *)
  Definition quad_x0 : mat F := column 12 (fun _ => s0).
  Definition quad_u0 : mat F := column 4 (fun _ => s0).
End Quad.

(** The constants of the program, in units of 1/10000 (M_PI / 6 is written 0.5235; the matrices are those of lines 17-46) *)
From Coq Require Import QArith Qcanon.
Definition dec (z : Z) : Qc := Q2Qc (z # 10000).
Definition table (rows : list (list Z)) (i j : nat) : Qc := dec (nth j (nth i rows []) 0%Z).
Definition quad_A : nat -> nat -> Qc := table
  [ [10000;0;0;0;0;0;1000;0;0;0;0;0]; [0;10000;0;0;0;0;0;1000;0;0;0;0]; [0;0;10000;0;0;0;0;0;1000;0;0;0];
    [488;0;0;10000;0;0;16;0;0;992;0;0]; [0;-488;0;0;10000;0;0;-16;0;0;992;0]; [0;0;0;0;0;10000;0;0;0;0;0;992];
    [0;0;0;0;0;0;10000;0;0;0;0;0]; [0;0;0;0;0;0;0;10000;0;0;0;0]; [0;0;0;0;0;0;0;0;10000;0;0;0];
    [9734;0;0;0;0;0;488;0;0;9846;0;0]; [0;-9734;0;0;0;0;0;-488;0;0;9846;0]; [0;0;0;0;0;0;0;0;0;0;0;9846] ]%Z.
Definition quad_B : nat -> nat -> Qc := table
  [ [0;-726;0;726]; [-726;0;726;0]; [-152;152;-152;152]; [0;-6;0;6]; [6;0;-6;0]; [106;106;106;106];
    [0;-14512;0;14512]; [-14512;0;14512;0]; [-3049;3049;-3049;3049]; [0;-236;0;236]; [236;0;-236;0]; [2107;2107;2107;2107] ]%Z.
(** lines 55-57 *)
Definition quad_Wy (j : nat) : Qc := dec (nth j [0;0;100000;100000;100000;100000;0;0;0;50000;50000;50000]%Z 0%Z).
Definition quad_Wu (j : nat) : Qc := dec 1000.
Definition quad_Wdu (j : nat) : Qc := dec 0.
(** lines 61-79 *)
Definition quad_xlo (j : nat) : ext Qc := if (j <? 2)%nat then Fin (dec (-5235)) else if (j =? 5)%nat then Fin (dec (-10000)) else MInf.
Definition quad_xhi (j : nat) : ext Qc := if (j <? 2)%nat then Fin (dec 5235) else PInf.
Definition quad_ulo (j : nat) : Qc := (dec 96000 - dec 105916)%Qc.
Definition quad_uhi (j : nat) : Qc := (dec 130000 - dec 105916)%Qc.
(** line 88 *)
Definition quad_yref (j : nat) : Qc := if (j =? 2)%nat then dec 10000 else dec 0.
(** lines 91-92 *)
Definition quad_par : lparams Qc :=
  let d := lp_default in mkLP 250 (lp_tlim d) (lp_warm d) (lp_alpha d) (lp_rho d) (lp_eps_rel d) (lp_eps_abs d) (lp_eps_pinf d) (lp_eps_dinf d) (lp_verbose d) (lp_adaptive d) (lp_polish d).
