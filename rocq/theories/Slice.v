(** Horizon slices: include/mpc/Types.hpp:57-82 and include/mpc/IMPC.hpp:244-283. *)
From Coq Require Import Bool Arith ZArith List Lia.
Import ListNotations.
Local Open Scope Z_scope.

(** Outcome of an operation: a value, or undefined behaviour. *)
Inductive outcome (A : Type) : Type := Ok (a : A) | UB.
Arguments Ok {A} a. Arguments UB {A}.

(** Types.hpp:57-72; both members are `int`. *)
Record slice := mkSlice { sl_start : Z; sl_end : Z }.
(** HorizonSlice::all(), Types.hpp:79-82 *)
Definition slice_all : slice := mkSlice (-1) (-1).

Definition int_min : Z := -2147483648.
Definition int_max : Z := 2147483647.
Definition is_int (z : Z) : bool := (int_min <=? z) && (z <=? int_max).
Definition slice_int (s : slice) : Prop := is_int (sl_start s) = true /\ is_int (sl_end s) = true.

(** isSliceUnset, IMPC.hpp:244-247 *)
Definition slice_unset (s : slice) : bool := (sl_start s =? -1) && (sl_end s =? -1).

(** isPredictionHorizonSliceValid / isControlHorizonSliceValid, IMPC.hpp:256-283; [H] is
    `(int)ph()` resp. `(int)ch()`.  `||` evaluates left to right; the sum is an `int` addition, whose
    overflow is undefined behaviour. *)
Definition slice_check (H : Z) (s : slice) : outcome bool :=
  if sl_start s >=? sl_end s then Ok false
  else if sl_start s >? H then Ok false
  else if sl_end s >? H then Ok false
  else if is_int (sl_start s + sl_end s)
       then Ok (negb (sl_start s + sl_end s >? H))
       else UB.

(** conversion `(size_t)z` *)
Definition size_t (z : Z) : Z := z mod 18446744073709551616.
(** conversion of a size_t to `unsigned int` *)
Definition uint (z : Z) : Z := z mod 4294967296.

(** [for (size_t i = (size_t)slice.start; i < (size_t)slice.end; i++)], e.g. LMPC.hpp:179.
    [None]: the loop runs with indices whose `unsigned int` value is at least 2^31, i.e. out of range
    of every matrix (lemma [slice_steps_none]). *)
Definition slice_steps (s : slice) : option (list nat) :=
  if sl_start s <? 0 then (if sl_end s <? 0 then None else Some [])
  else Some (seq (Z.to_nat (sl_start s)) (Z.to_nat (sl_end s) - Z.to_nat (sl_start s))).

Lemma size_t_nonneg z : 0 <= z <= int_max -> size_t z = z.
Proof. unfold int_max, size_t. intros H. apply Z.mod_small. lia. Qed.
Lemma size_t_neg z : int_min <= z < 0 -> size_t z = 18446744073709551616 + z.
Proof. unfold int_min, size_t. intros H. symmetry. apply (Z.mod_unique z 18446744073709551616 (-1)); lia. Qed.

(** [slice_steps] lists exactly the iterations of the C++ loop, in increasing order. *)
Lemma slice_steps_some s l : slice_int s -> sl_start s < sl_end s -> slice_steps s = Some l ->
  (forall i, In i l <-> size_t (sl_start s) <= Z.of_nat i < size_t (sl_end s)) /\
  (exists a n, l = seq a n).
Proof.
  unfold slice_int, is_int. rewrite !andb_true_iff, !Z.leb_le. intros [H1 H2] Hlt. unfold slice_steps.
  destruct (Z.ltb_spec (sl_start s) 0) as [A|A].
  - destruct (Z.ltb_spec (sl_end s) 0) as [B|B]; intros E; inversion E; subst; clear E.
    split; [|exists 0%nat, 0%nat; reflexivity].
    intros i. rewrite size_t_neg by lia. rewrite size_t_nonneg by lia. unfold int_min, int_max in *. cbn [In]. lia.
  - intros E; inversion E; subst; clear E. split; [|eexists _, _; reflexivity].
    intros i. rewrite in_seq. rewrite !size_t_nonneg by lia. lia.
Qed.
Lemma slice_steps_none s : slice_int s -> sl_start s < sl_end s -> slice_steps s = None ->
  size_t (sl_start s) < size_t (sl_end s) /\
  forall i, size_t (sl_start s) <= i < size_t (sl_end s) -> 2147483648 <= uint i < 4294967295.
Proof.
  unfold slice_int, is_int. rewrite !andb_true_iff, !Z.leb_le. intros [H1 H2] Hlt. unfold slice_steps.
  destruct (Z.ltb_spec (sl_start s) 0) as [A|A]; [|discriminate].
  destruct (Z.ltb_spec (sl_end s) 0) as [B|B]; [|discriminate]. intros _.
  rewrite !size_t_neg by lia. unfold int_min, int_max in *. split; [lia|].
  intros i Hi. unfold uint.
  assert (E : i mod 4294967296 = i - (18446744073709551616 - 4294967296)).
  { symmetry. apply (Z.mod_unique i (4294967296) (4294967295)); lia. }
  rewrite E. lia.
Qed.
