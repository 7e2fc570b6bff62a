(** Finite sums over an abstract scalar: the meaning of the Eigen dot product. *)
From Coq Require Import Bool Arith Lia Ring Field.
From Verif Require Import Scalar.
Local Open Scope S_scope.

Section Sum.
  Context {F} {SO : ScalarOps F}.
  Fixpoint ssum (n : nat) (f : nat -> F) : F :=
    match n with O => 0 | S k => ssum k f + f k end.

  Lemma ssum_ext n f g : (forall i, (i < n)%nat -> f i = g i) -> ssum n f = ssum n g.
  Proof. induction n as [|n IH]; intros H; [reflexivity|]. simpl. rewrite IH, H; auto. Qed.

  Context {SL : ScalarLaws F}.
  Add Field SF : s_field.

  Lemma ssum_zero n f : (forall i, (i < n)%nat -> f i = 0) -> ssum n f = 0.
  Proof. induction n as [|n IH]; intros H; [reflexivity|]. simpl. rewrite IH, H; auto. ring. Qed.
  Lemma ssum_add n f g : ssum n (fun i => f i + g i) = ssum n f + ssum n g.
  Proof. induction n as [|n IH]; simpl; [ring|]. rewrite IH. ring. Qed.
  Lemma ssum_sub n f g : ssum n (fun i => f i - g i) = ssum n f - ssum n g.
  Proof. induction n as [|n IH]; simpl; [ring|]. rewrite IH. ring. Qed.
  Lemma ssum_opp n f : ssum n (fun i => - f i) = - ssum n f.
  Proof. induction n as [|n IH]; simpl; [ring|]. rewrite IH. ring. Qed.
  Lemma ssum_mul_l n a f : ssum n (fun i => a * f i) = a * ssum n f.
  Proof. induction n as [|n IH]; simpl; [ring|]. rewrite IH. ring. Qed.
  Lemma ssum_mul_r n a f : ssum n (fun i => f i * a) = ssum n f * a.
  Proof. induction n as [|n IH]; simpl; [ring|]. rewrite IH. ring. Qed.
  Lemma ssum_app n m f : ssum (n + m) f = ssum n f + ssum m (fun i => f (n + i)%nat).
  Proof. induction m as [|m IH]; [rewrite Nat.add_0_r; simpl; ring|].
    rewrite Nat.add_succ_r. simpl. rewrite IH. ring. Qed.
  Lemma ssum_blocks n m f :
    ssum (n * m) f = ssum n (fun a => ssum m (fun b => f (a * m + b)%nat)).
  Proof. induction n as [|n IH]; [reflexivity|]. simpl ssum at 2. rewrite <- IH.
    replace (S n * m)%nat with (n * m + m)%nat by lia. apply ssum_app. Qed.
  Lemma ssum_single n i f : (i < n)%nat ->
    (forall j, (j < n)%nat -> j <> i -> f j = 0) -> ssum n f = f i.
  Proof.
    induction n as [|n IH]; intros Hi H; [lia|]. simpl.
    destruct (Nat.eq_dec i n) as [->|N].
    - rewrite ssum_zero; [ring|]. intros j Hj. apply H; lia.
    - rewrite IH; [|lia|intros; apply H; lia]. rewrite (H n); [ring|lia|lia].
  Qed.
  Lemma ssum_swap n m f :
    ssum n (fun i => ssum m (fun j => f i j)) = ssum m (fun j => ssum n (fun i => f i j)).
  Proof. induction n as [|n IH]; simpl.
    - symmetry. now apply ssum_zero.
    - rewrite IH, <- ssum_add. reflexivity. Qed.
  Lemma ssum_nonneg n f : (forall i, (i < n)%nat -> 0 <= f i) -> 0 <= ssum n f.
  Proof. induction n as [|n IH]; intros H; simpl; [apply sle_refl|].
    replace 0 with (0 + 0) by ring. apply sle_add; auto. Qed.
  Lemma ssum_S_l n f : ssum (S n) f = f 0%nat + ssum n (fun i => f (S i)).
  Proof. replace (S n) with (1 + n)%nat by lia. rewrite ssum_app. simpl. ring. Qed.
  (** Kronecker delta. *)
  Definition delta (i j : nat) : F := if Nat.eqb i j then 1 else 0.
  Lemma delta_refl i : delta i i = 1.
  Proof. unfold delta. now rewrite Nat.eqb_refl. Qed.
  Lemma delta_neq i j : i <> j -> delta i j = 0.
  Proof. unfold delta. intros H. apply Nat.eqb_neq in H. now rewrite H. Qed.
  Lemma ssum_delta_l n i f : (i < n)%nat -> ssum n (fun j => delta i j * f j) = f i.
  Proof. intros H. rewrite (ssum_single n i); [rewrite delta_refl; ring|exact H|].
    intros j _ N. rewrite delta_neq by congruence. ring. Qed.
  Lemma ssum_delta_r n i f : (i < n)%nat -> ssum n (fun j => f j * delta i j) = f i.
  Proof. intros H. rewrite (ssum_single n i); [rewrite delta_refl; ring|exact H|].
    intros j _ N. rewrite delta_neq by congruence. ring. Qed.
End Sum.
