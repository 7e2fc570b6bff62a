(** Dense matrices with the block operations of Eigen the code uses.

    A matrix carries its sizes, an entry function (only meaningful inside the sizes) and a
    sticky flag [mok].  [mok = false] records that some operation used to compute
    the matrix violated an Eigen size/range precondition: in C++ an `eigen_assert`
    (include/mpc/Types.hpp:20-31) in debug builds, undefined behaviour with NDEBUG.
    Entries of a matrix with [mok = false] carry no meaning. *)
From Coq Require Import Bool Arith Lia.
From Verif Require Import Scalar Sums.

Record mat (T : Type) : Type := mkMat {
  mrows : nat; mcols : nat; ent : nat -> nat -> T; mok : bool }.
Arguments mkMat {T} _ _ _ _. Arguments mrows {T} _. Arguments mcols {T} _.
Arguments ent {T} _ _ _. Arguments mok {T} _.

(** a matrix of given sizes / of given sizes and computed without violating a precondition *)
Definition sized {T} (M : mat T) (r c : nat) : Prop := mrows M = r /\ mcols M = c.
Definition gm {T} (M : mat T) (r c : nat) : Prop := mrows M = r /\ mcols M = c /\ mok M = true.

Section Any.
  Context {T : Type}.
  (** Uninitialised / freshly resized storage: arbitrary contents. *)
  Definition mjunk (g : nat -> nat -> T) (r c : nat) : mat T := mkMat r c g true.
  (** setConstant / setZero *)
  Definition mconst (r c : nat) (v : T) : mat T := mkMat r c (fun _ _ => v) true.
  Definition in_rng (lo n i : nat) : bool := (lo <=? i) && (i <? lo + n).
  (** M.block(r,c,h,w) as an rvalue *)
  Definition block (M : mat T) (r c h w : nat) : mat T :=
    mkMat h w (fun i j => ent M (r + i) (c + j))
      (mok M && (r + h <=? mrows M) && (c + w <=? mcols M)).
  (** M.block(r,c,h,w) = B *)
  Definition set_block (M : mat T) (r c h w : nat) (B : mat T) : mat T :=
    mkMat (mrows M) (mcols M)
      (fun i j => if in_rng r h i && in_rng c w j then ent B (i - r) (j - c) else ent M i j)
      (mok M && mok B && (r + h <=? mrows M) && (c + w <=? mcols M)
       && (mrows B =? h) && (mcols B =? w)).
  (** M.col(j) *)
  Definition mcol (M : mat T) (j : nat) : mat T := block M 0 j (mrows M) 1.
  Definition set_mcol (M : mat T) (j : nat) (V : mat T) : mat T := set_block M 0 j (mrows M) 1 V.
  (** M.row(i) *)
  Definition mrow (M : mat T) (i : nat) : mat T := block M i 0 1 (mcols M).
  Definition set_mrow (M : mat T) (i : nat) (V : mat T) : mat T := set_block M i 0 1 (mcols M) V.
  (** M.middleRows(r,h), V.segment(r,h) *)
  Definition middle_rows (M : mat T) (r h : nat) : mat T := block M r 0 h (mcols M).
  Definition set_middle_rows (M : mat T) (r h : nat) (B : mat T) : mat T :=
    set_block M r 0 h (mcols M) B.
  Definition mtrans (M : mat T) : mat T := mkMat (mcols M) (mrows M) (fun i j => ent M j i) (mok M).
  (** comma initialiser: [dst << A, B] with A above B resp. A left of B *)
  Definition vcat (A B : mat T) : mat T :=
    mkMat (mrows A + mrows B) (mcols A)
      (fun i j => if i <? mrows A then ent A i j else ent B (i - mrows A) j)
      (mok A && mok B && (mcols A =? mcols B)).
  Definition hcat (A B : mat T) : mat T :=
    mkMat (mrows A) (mcols A + mcols B)
      (fun i j => if j <? mcols A then ent A i j else ent B i (j - mcols A))
      (mok A && mok B && (mrows A =? mrows B)).
  (** Eigen::Map<cvec>(M.data(), rows*cols): column-major flattening *)
  Definition mflat (M : mat T) : mat T :=
    mkMat (mrows M * mcols M) 1 (fun i _ => ent M (i mod mrows M) (i / mrows M)) (mok M).
  (** dst(i) = src(j) on column vectors *)
  Definition set_entry (M : mat T) (i j : nat) (v : T) : mat T :=
    set_block M i j 1 1 (mconst 1 1 v).
  Definition mvec (n : nat) (f : nat -> T) : mat T := mkMat n 1 (fun i _ => f i) true.
End Any.

Section Num.
  Context {F} {SO : ScalarOps F}.
  Local Open Scope S_scope.
  Definition mzero (r c : nat) : mat F := mconst r c 0.
  (** setIdentity *)
  Definition mident (r c : nat) : mat F := mkMat r c (fun i j => delta i j) true.
  Definition mmul (A B : mat F) : mat F :=
    mkMat (mrows A) (mcols B)
      (fun i j => ssum (mcols A) (fun k => ent A i k * ent B k j))
      (mok A && mok B && (mcols A =? mrows B)%nat).
  Definition madd (A B : mat F) : mat F :=
    mkMat (mrows A) (mcols A) (fun i j => ent A i j + ent B i j)
      (mok A && mok B && (mrows A =? mrows B)%nat && (mcols A =? mcols B)%nat).
  Definition msub (A B : mat F) : mat F :=
    mkMat (mrows A) (mcols A) (fun i j => ent A i j - ent B i j)
      (mok A && mok B && (mrows A =? mrows B)%nat && (mcols A =? mcols B)%nat).
  Definition mopp (A : mat F) : mat F := mkMat (mrows A) (mcols A) (fun i j => - ent A i j) (mok A).
  Definition mscale (a : F) (A : mat F) : mat F :=
    mkMat (mrows A) (mcols A) (fun i j => a * ent A i j) (mok A).
  (** v.asDiagonal() *)
  Definition mdiag (V : mat F) : mat F :=
    mkMat (mrows V) (mrows V) (fun i j => if (i =? j)%nat then ent V i 0%nat else 0)
      (mok V && (mcols V =? 1)%nat).
  (** kroneckerProduct(A,B) *)
  Definition mkron (A B : mat F) : mat F :=
    mkMat (mrows A * mrows B) (mcols A * mcols B)
      (fun i j => ent A (i / mrows B) (j / mcols B) * ent B (i mod mrows B) (j mod mcols B))
      (mok A && mok B).
  (** bound vector + finite offset vector *)
  Definition meadd (A : mat (ext F)) (B : mat F) : mat (ext F) :=
    mkMat (mrows A) (mcols A) (fun i j => eadd (ent A i j) (ent B i j))
      (mok A && mok B && (mrows A =? mrows B)%nat && (mcols A =? mcols B)%nat).
  (** finite vector stored in a bound vector *)
  Definition mfin (A : mat F) : mat (ext F) :=
    mkMat (mrows A) (mcols A) (fun i j => Fin (ent A i j)) (mok A).
End Num.

Lemma in_rng_true lo n i : in_rng lo n i = true <-> lo <= i < lo + n.
Proof. unfold in_rng. rewrite andb_true_iff, Nat.leb_le, Nat.ltb_lt. lia. Qed.
Lemma in_rng_false lo n i : in_rng lo n i = false <-> i < lo \/ lo + n <= i.
Proof. unfold in_rng. rewrite andb_false_iff, Nat.leb_gt, Nat.ltb_ge. lia. Qed.

Section BlockLemmas.
  Context {T : Type}.
  Implicit Types M B : mat T.
  Lemma ent_set_block_in M r c h w B i j :
    r <= i < r + h -> c <= j < c + w -> ent (set_block M r c h w B) i j = ent B (i - r) (j - c).
  Proof. intros H1 H2. cbn [set_block ent].
    now rewrite (proj2 (in_rng_true r h i)), (proj2 (in_rng_true c w j)) by lia. Qed.
  Lemma ent_set_block_row_out M r c h w B i j :
    i < r \/ r + h <= i -> ent (set_block M r c h w B) i j = ent M i j.
  Proof. intros H1. cbn [set_block ent]. now rewrite (proj2 (in_rng_false r h i)) by lia. Qed.
  Lemma ent_set_block_col_out M r c h w B i j :
    j < c \/ c + w <= j -> ent (set_block M r c h w B) i j = ent M i j.
  Proof. intros H1. cbn [set_block ent]. rewrite (proj2 (in_rng_false c w j)) by lia.
    now rewrite andb_false_r. Qed.
End BlockLemmas.

Lemma divmod_unique a b m : b < m -> (a * m + b) / m = a /\ (a * m + b) mod m = b.
Proof.
  intros H. split.
  - symmetry. apply (Nat.div_unique (a * m + b) m a b); [exact H|lia].
  - symmetry. apply (Nat.mod_unique (a * m + b) m a b); [exact H|lia].
Qed.
