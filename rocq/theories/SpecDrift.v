(** Evaluation points in double precision: specification.  The points at which the user's functions are called are compared with those of exact
    arithmetic ([obj_points] etc. of [SpecTrace.v], over the real numbers), entry by entry. *)
From Coq Require Import Bool Arith ZArith Reals List.
From Verif Require Import Scalar ScalarR Double DoubleR Builder.
Import ListNotations.

(** [x] is a finite double and the real number it stands for is within [D] of [y] *)
Definition near (D : R) (x : dbl) (y : R) : Prop := is_fin x = true /\ (Rabs (rval x - y) <= D)%R.
(** the real numbers denoted by a table of doubles *)
Definition reals (X : nat -> nat -> dbl) : nat -> nat -> R := fun i j => rval (X i j).
Section D.
  Variable d : dims.
  (** every entry (ph+1 rows of states and of inputs, and the slack) within D *)
  Definition near_pt (D : R) (p : (nat -> nat -> dbl) * (nat -> nat -> dbl) * dbl) (q : (nat -> nat -> R) * (nat -> nat -> R) * R) : Prop :=
    let '(X, U, e) := p in let '(x, u, t) := q in
    (forall i j, i <= d_ph d -> j < d_nx d -> near D (X i j) (x i j)) /\ (forall i j, i <= d_ph d -> j < d_nu d -> near D (U i j) (u i j)) /\ near D e t.
  Definition near_pt2 (D : R) (p : (nat -> nat -> dbl) * (nat -> nat -> dbl)) (q : (nat -> nat -> R) * (nat -> nat -> R)) : Prop :=
    (forall i j, i <= d_ph d -> j < d_nx d -> near D (fst p i j) (fst q i j)) /\ (forall i j, i <= d_ph d -> j < d_nu d -> near D (snd p i j) (snd q i j)).
  Definition near_vecs (D : R) (p : (nat -> dbl) * (nat -> dbl)) (q : (nat -> R) * (nat -> R)) : Prop :=
    (forall j, j < d_nx d -> near D (fst p j) (fst q j)) /\ (forall j, j < d_nu d -> near D (snd p j) (snd q j)).
  (** all entries are doubles of magnitude at most B *)
  Definition small (B : R) (X U : nat -> nat -> dbl) (e : dbl) : Prop :=
    (forall i j, i <= d_ph d -> j < d_nx d -> okd B (X i j)) /\ (forall i j, i <= d_ph d -> j < d_nu d -> okd B (U i j)) /\ okd B e.
End D.
