(** Sparse conversion: Problem::getSparse (include/mpc/LMPC/ProblemBuilder.hpp:54-67) and
    LOptimizer::createOsqpSparseMatrix (include/mpc/LMPC/LOptimizer.hpp:425-478). *)
From Coq Require Import Bool Arith List Lia.
From Verif Require Import Scalar Sums Mat.
Import ListNotations.

(** OSQP's compressed-column matrix *)
Record csc (F : Type) := mkCsc {
  c_rows : nat; c_cols : nat; c_p : list nat; c_i : list nat; c_x : list F }.
Arguments mkCsc {F}. Arguments c_rows {F}. Arguments c_cols {F}.
Arguments c_p {F}. Arguments c_i {F}. Arguments c_x {F}.

Section Csc.
  Context {F} {SO : ScalarOps F}.

  (** Eigen sparse matrix (column major): per column the stored (row, value) pairs in increasing row order. *)
  Record smat := mkSmat { sm_rows : nat; sm_cols : list (list (nat * F)) }.

  (** A coefficient is kept by sparseView() iff not `abs(x) <= abs(0)*eps`
      (Eigen SparseView with default reference 0). *)
  Definition kept (x : F) : bool := negb (sleb (sabs x) s0).
  (** M.sparseView() *)
  Definition sparse_view (M : mat F) : smat :=
    mkSmat (mrows M) (map (fun j =>
      filter (fun e => kept (snd e)) (map (fun i => (i, ent M i j)) (seq 0 (mrows M)))) (seq 0 (mcols M))).
  (** S.triangularView<Eigen::Upper>() *)
  Definition upper_view (S : smat) : smat :=
    mkSmat (sm_rows S) (map (fun jc => filter (fun e => fst e <=? fst jc) (snd jc))
                          (combine (seq 0 (length (sm_cols S))) (sm_cols S))).

  (** outerIndexPtr() of a compressed matrix: number of entries stored before each column *)
  Fixpoint outer_from (n : nat) (cols : list (list (nat * F))) : list nat :=
    match cols with [] => [] | c :: cs => n :: outer_from (n + length c) cs end.

  (** createOsqpSparseMatrix: one pass over the columns, copying p, i, x; the final p[cols] is the
      running position. Simplification: the `!isCompressed()` branch is dead, since both
      matrices were compressed (ProblemBuilder.hpp:65-66). *)
  Fixpoint csc_fill (outer : list nat) (cols : list (list (nat * F))) (pos : nat) (acc : csc F) : csc F * nat :=
    match cols, outer with
    | c :: cs, o :: os =>
        csc_fill os cs (pos + length c)
          (mkCsc (c_rows acc) (c_cols acc) (c_p acc ++ [o]) (c_i acc ++ map fst c) (c_x acc ++ map snd c))
    | _, _ => (acc, pos)
    end.
  Definition create_csc (S : smat) : csc F :=
    let cols := sm_cols S in
    let (acc, pos) := csc_fill (outer_from 0 cols) cols 0 (mkCsc (sm_rows S) (length cols) [] [] []) in
    mkCsc (c_rows acc) (c_cols acc) (c_p acc ++ [pos]) (c_i acc) (c_x acc).

  (** getSparse + createOsqpSparseMatrix *)
  Definition csc_full (M : mat F) : csc F := create_csc (sparse_view M).
  Definition csc_upper (M : mat F) : csc F := create_csc (upper_view (sparse_view M)).
End Csc.
Arguments smat F : clear implicits.
