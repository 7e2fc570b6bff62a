(** Dimension arithmetic (include/mpc/Dim.hpp) and its specification; property C36. *)
From Coq Require Import Bool ZArith List Lia.
From Verif Require Import Slice.
Local Open Scope Z_scope.

(** *** Model *)
(** Eigen::Dynamic *)
Definition Dynamic : Z := -1.
(** Types.hpp:215-225 make_dimension *)
Definition make_dimension (n : Z) (c : bool) : Z := if c then n else Dynamic.
(** Dim.hpp:83-86 Size::is_static *)
Definition is_static (a b : Z) : bool := (a >? Dynamic) && (b >? Dynamic).
(** the sum, difference or product is computed with int arithmetic before it is known whether it is needed; an overflow is undefined (in a constant
    expression: ill-formed) *)
Definition dim (v : Z) (c : bool) : outcome Z := if is_int v then Ok (make_dimension v c) else UB.
(** Dim.hpp:24-32 Size + Size, Size + int (the two overloads have the same body) *)
Definition size_add (a v : Z) : outcome Z := dim (a + v) (is_static a v).
(** Dim.hpp:41-49 Size - Size, Size - int *)
Definition size_sub (a v : Z) : outcome Z := dim (a - v) (is_static a v).
(** Dim.hpp:58-66 Size * Size, Size * int *)
Definition size_mul (a v : Z) : outcome Z := dim (a * v) (is_static a v).
(** Dim.hpp:89-102 int + Size, int - Size, int * Size: first argument v, second w *)
Definition int_add_size (v w : Z) : outcome Z := dim (w + v) (is_static w v).
Definition int_sub_size (v w : Z) : outcome Z := dim (w - v) (is_static w v).
Definition int_mul_size (v w : Z) : outcome Z := dim (w * v) (is_static w v).

(** *** Specification: a dimension is known at compile time or not *)
Inductive dimension := Known (n : nat) | Unknown.
Definition code (x : dimension) : Z := match x with Known n => Z.of_nat n | Unknown => -1 end.
Definition lift (f : nat -> nat -> nat) (x y : dimension) : dimension :=
  match x, y with Known a, Known b => Known (f a b) | _, _ => Unknown end.
Definition fits (z : Z) : Prop := -2147483648 <= z <= 2147483647.

Lemma dim_fits v c : fits v -> dim v c = Ok (make_dimension v c).
Proof. unfold fits, dim, is_int, int_min, int_max. intros H. destruct (Z.leb_spec (-2147483648) v), (Z.leb_spec v 2147483647); cbn; auto; lia. Qed.
Lemma static_known a b : is_static (code a) (code b) = match a, b with Known _, Known _ => true | _, _ => false end.
Proof. unfold is_static, Dynamic. rewrite !Z.gtb_ltb. destruct a, b; cbn [code]; repeat (match goal with |- context [?x <? ?y] => destruct (Z.ltb_spec x y) end; try lia); reflexivity. Qed.
Lemma fits_dyn_add a b : fits (code a) -> fits (code b) -> fits (code a + code b) \/ exists n m, a = Known n /\ b = Known m.
Proof. unfold fits. destruct a, b; cbn [code]; try (left; lia). right; eauto. Qed.

(** C36: sums and products of dimensions, in either operand order, are known iff both operands are, and then the ordinary result *)
Theorem C36_sums_and_products a b :
  fits (code a) -> fits (code b) ->
  (fits (code a + code b) -> size_add (code a) (code b) = Ok (code (lift Nat.add a b)) /\ int_add_size (code a) (code b) = Ok (code (lift Nat.add a b))) /\
  (fits (code a * code b) -> size_mul (code a) (code b) = Ok (code (lift Nat.mul a b)) /\ int_mul_size (code a) (code b) = Ok (code (lift Nat.mul a b))).
Proof.
  intros Fa Fb. unfold size_add, int_add_size, size_mul, int_mul_size. split; intros F.
  - rewrite (dim_fits _ _ F), (Z.add_comm (code b)), (dim_fits _ _ F), !static_known. destruct a, b; cbn [lift code make_dimension]; rewrite ?Nat2Z.inj_add; auto.
  - rewrite (dim_fits _ _ F), (Z.mul_comm (code b)), (dim_fits _ _ F), !static_known. destruct a, b; cbn [lift code make_dimension]; rewrite ?Nat2Z.inj_mul; auto.
Qed.
(** an unknown operand makes the result unknown (differences: unless the other operand is the largest int, where the discarded difference overflows) *)
Theorem C36_unknown_propagates a b : a = Unknown \/ b = Unknown -> fits (code a) -> fits (code b) ->
  size_add (code a) (code b) = Ok (-1) /\ size_mul (code a) (code b) = Ok (-1) /\ int_add_size (code a) (code b) = Ok (-1) /\ int_mul_size (code a) (code b) = Ok (-1) /\
  (code a < 2147483647 -> code b < 2147483647 -> size_sub (code a) (code b) = Ok (-1) /\ int_sub_size (code a) (code b) = Ok (-1)).
Proof.
  intros H Fa Fb. unfold size_add, int_add_size, size_mul, int_mul_size, size_sub, int_sub_size, fits in *.
  assert (S1 : is_static (code a) (code b) = false) by (rewrite static_known; destruct H as [->| ->]; [reflexivity|destruct a; reflexivity]).
  assert (S2 : is_static (code b) (code a) = false) by (rewrite static_known; destruct H as [->| ->]; [destruct b; reflexivity|reflexivity]).
  rewrite S1, S2. assert (K : code a = -1 \/ code b = -1) by (destruct H as [->| ->]; auto).
  assert (-1 <= code a /\ -1 <= code b) by (destruct a, b; cbn [code]; lia).
  repeat split; intros; (rewrite dim_fits; [reflexivity|unfold fits; destruct K as [->| ->]; lia]).
Qed.
(** differences: Size - Size and Size - int give n - m for known n >= m; for m = n + 1 the result is the code of Unknown, for larger m it is not a dimension *)
Theorem C36_differences n m : fits (Z.of_nat n) -> fits (Z.of_nat m) ->
  size_sub (Z.of_nat n) (Z.of_nat m) = Ok (Z.of_nat n - Z.of_nat m) /\
  ((m <= n)%nat -> size_sub (Z.of_nat n) (Z.of_nat m) = Ok (code (Known (n - m)))) /\
  (m = n + 1 -> size_sub (Z.of_nat n) (Z.of_nat m) = Ok (code Unknown))%nat.
Proof.
  intros Fn Fm.
  assert (S : forall n m, is_static (Z.of_nat n) (Z.of_nat m) = true) by (intros; apply (static_known (Known _) (Known _))).
  unfold size_sub, fits in *. rewrite !S. rewrite dim_fits by (unfold fits; lia). cbn [make_dimension code]. repeat split; intros; f_equal; lia.
Qed.
(** int - Size subtracts the wrong way round *)
Theorem C36_int_minus_size n m : fits (Z.of_nat n) -> fits (Z.of_nat m) ->
  int_sub_size (Z.of_nat n) (Z.of_nat m) = Ok (Z.of_nat m - Z.of_nat n).
Proof.
  intros Fn Fm. unfold int_sub_size, fits in *. pose proof (static_known (Known m) (Known n)) as S. cbn [code] in S. rewrite S, dim_fits by (unfold fits; lia). reflexivity.
Qed.
(** C36 as intended, for every operator and operand order *)
Theorem C36_intended_refuted :
  ~ (forall n m, fits (Z.of_nat n) -> fits (Z.of_nat m) -> (m <= n)%nat -> int_sub_size (Z.of_nat n) (Z.of_nat m) = Ok (code (Known (n - m)))).
Proof. intros H. specialize (H 5%nat 3%nat). unfold fits in H. cbn in H. specialize (H ltac:(lia) ltac:(lia) ltac:(lia)). discriminate H. Qed.
Example C36_instance : fits (code (Known 3)) /\ fits (code (Known 2)) /\ size_add 3 2 = Ok 5 /\ int_mul_size 3 (-1) = Ok (-1) /\ int_sub_size 5 3 = Ok (-2) /\ size_sub 2 3 = Ok (-1).
Proof. repeat split; cbn; unfold fits; lia. Qed.
