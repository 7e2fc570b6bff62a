(** The reals as scalars: every theorem stated over [ScalarLaws] applies to exact real arithmetic.
    Kept in a file of its own, so that only this instance depends on the axioms of Coq's reals. *)
From Coq Require Import Bool Reals RealField Lra.
From Verif Require Import Scalar.

(** ** Instance: the reals. *)
Definition R_leb (x y : R) : bool := if Rle_dec x y then true else false.
Lemma R_leb_iff x y : R_leb x y = true <-> (x <= y)%R.
Proof. unfold R_leb. destruct (Rle_dec x y); split; intros; auto; discriminate. Qed.
#[global] Instance R_ops : ScalarOps R := {
  s0 := 0%R; s1 := 1%R; sadd := Rplus; smul := Rmult; ssub := Rminus; sopp := Ropp;
  sdiv := Rdiv; sinv := Rinv; sleb := R_leb; sltb := fun x y => negb (R_leb y x) }.
#[global] Instance R_laws : ScalarLaws R.
Proof.
  split.
  - exact Rfield.
  - intros x. apply R_leb_iff. lra.
  - intros x y z. simpl. rewrite !R_leb_iff. lra.
  - intros x y. simpl. rewrite !R_leb_iff. lra.
  - intros x y. simpl. rewrite !R_leb_iff. lra.
  - reflexivity.
  - intros x y z. simpl. rewrite !R_leb_iff. lra.
  - intros x y. simpl. rewrite !R_leb_iff. intros. now apply Rmult_le_pos.
Qed.
