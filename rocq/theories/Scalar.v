(** Scalars.  Every numeric definition of the model is written over the class
    [ScalarOps]; theorems that need algebra additionally assume [ScalarLaws]
    (an ordered field), i.e. they are statements about exact arithmetic.
    Models `double` (include/mpc/Types.hpp:41-56, `Eigen::Matrix<double, ..>`).
    Simplification: rounding is not modelled where [ScalarLaws] is assumed; [Double.v] instantiates the operations with IEEE
    doubles, for which every theorem without that assumption holds. *)
From Coq Require Import Bool Arith ZArith QArith Qcanon Ring Field Lia.
From Coq Require Import Ring_theory Field_theory.

Class ScalarOps (F : Type) : Type := {
  s0 : F; s1 : F;
  sadd : F -> F -> F; smul : F -> F -> F; ssub : F -> F -> F; sopp : F -> F;
  sdiv : F -> F -> F; sinv : F -> F;
  sleb : F -> F -> bool;   (** the C++ operator <= *)
  sltb : F -> F -> bool    (** the C++ operator <  *)
}.

Declare Scope S_scope.
Delimit Scope S_scope with S.
Bind Scope S_scope with ScalarOps.
Infix "+" := sadd : S_scope.
Infix "*" := smul : S_scope.
Infix "-" := ssub : S_scope.
Infix "/" := sdiv : S_scope.
Notation "- x" := (sopp x) : S_scope.
Notation "0" := s0 : S_scope.
Notation "1" := s1 : S_scope.
Notation "x <=? y" := (sleb x y) : S_scope.
Notation "x <? y" := (sltb x y) : S_scope.
Definition sle {F} {SO : ScalarOps F} (x y : F) : Prop := sleb x y = true.
Definition slt {F} {SO : ScalarOps F} (x y : F) : Prop := sltb x y = true.
Infix "<=" := sle : S_scope.
Infix "<" := slt : S_scope.

Class ScalarLaws (F : Type) {SO : ScalarOps F} : Prop := {
  s_field : field_theory s0 s1 sadd smul ssub sopp sdiv sinv (@eq F);
  s_le_refl : forall x : F, sleb x x = true;
  s_le_trans : forall x y z : F, sleb x y = true -> sleb y z = true -> sleb x z = true;
  s_le_antisym : forall x y : F, sleb x y = true -> sleb y x = true -> x = y;
  s_le_total : forall x y : F, sleb x y = true \/ sleb y x = true;
  s_lt_le : forall x y : F, sltb x y = negb (sleb y x);
  s_le_add : forall x y z : F, sleb x y = true -> sleb (sadd x z) (sadd y z) = true;
  s_le_mul : forall x y : F, sleb s0 x = true -> sleb s0 y = true -> sleb s0 (smul x y) = true
}.

(** The two facts about constants that bookkeeping theorems of the non-linear controller need: 1/1 = 1 and not 0 < 0.
    They hold in every ordered field and for IEEE doubles ([Double.v]); no other law is assumed there. *)
Class ScalarMild (F : Type) {SO : ScalarOps F} : Prop := {
  sm_div1 : sdiv s1 s1 = s1 :> F;
  sm_lt00 : sltb (s0 : F) s0 = false
}.

(** Small numerals used by the code. *)
Section Numerals.
  Context {F} {SO : ScalarOps F}.
  Fixpoint snat (n : nat) : F := match n with O => s0 | S k => sadd (snat k) s1 end.
  Definition s2 : F := sadd s1 s1.
  Fixpoint spos (p : positive) : F :=
    match p with
    | xH => s1 | xO q => smul s2 (spos q) | xI q => sadd s1 (smul s2 (spos q)) end.
  (** decimal literals: [sdec a b] is a/b *)
  Definition sdec (a b : positive) : F := sdiv (spos a) (spos b).
  Definition sabs (x : F) : F := if sleb s0 x then x else sopp x.
  Definition smax (x y : F) : F := if sltb x y then y else x.
  Definition smin (x y : F) : F := if sltb y x then y else x.
End Numerals.

(** ** Extended scalars, for bounds that may be infinite
    (include/mpc/Types.hpp:221 `constexpr double inf`). *)
Inductive ext (F : Type) : Type := Fin (x : F) | PInf | MInf.
Arguments Fin {F} x. Arguments PInf {F}. Arguments MInf {F}.

Section Ext.
  Context {F} {SO : ScalarOps F}.
  (** `bound + offset` with a finite offset. *)
  Definition eadd (a : ext F) (b : F) : ext F :=
    match a with Fin x => Fin (sadd x b) | PInf => PInf | MInf => MInf end.
  (** lower bound / upper bound satisfied by a finite value. *)
  Definition ge_lo (l : ext F) (v : F) : Prop :=
    match l with Fin x => (x <= v)%S | PInf => False | MInf => True end.
  Definition le_hi (v : F) (u : ext F) : Prop :=
    match u with Fin x => (v <= x)%S | PInf => True | MInf => False end.
  Definition within (l u : ext F) (v : F) : Prop := ge_lo l v /\ le_hi v u.
End Ext.

(** ** Derived order facts. *)
Section Laws.
  Context {F} {SO : ScalarOps F} {SL : ScalarLaws F}.
  Local Open Scope S_scope.

  Lemma s_ring : ring_theory s0 s1 sadd smul ssub sopp (@eq F).
  Proof. exact (F_R s_field). Qed.
  Add Field SF : s_field.

  Lemma s1_neq_0 : s1 <> s0 :> F.
  Proof. exact (F_1_neq_0 s_field). Qed.
  #[export] Instance laws_mild : ScalarMild F.
  Proof. split; [field; exact s1_neq_0|now rewrite s_lt_le, s_le_refl]. Qed.

  Lemma sle_refl x : x <= x. Proof. apply s_le_refl. Qed.
  Lemma sle_trans x y z : x <= y -> y <= z -> x <= z. Proof. apply s_le_trans. Qed.
  Lemma sle_antisym x y : x <= y -> y <= x -> x = y. Proof. apply s_le_antisym. Qed.
  Lemma sle_total x y : x <= y \/ y <= x. Proof. apply s_le_total. Qed.
  Lemma sle_add_r x y z : x <= y -> x + z <= y + z. Proof. apply s_le_add. Qed.
  Lemma sle_add_l x y z : x <= y -> z + x <= z + y.
  Proof. intros H. replace (z + x) with (x + z) by ring. replace (z + y) with (y + z) by ring.
         now apply sle_add_r. Qed.
  Lemma sle_add a b c d : a <= b -> c <= d -> a + c <= b + d.
  Proof. intros H1 H2. eapply sle_trans; [apply sle_add_r, H1|apply sle_add_l, H2]. Qed.
  Lemma sle_sub_0 x y : x <= y <-> 0 <= y - x.
  Proof. split; intros H.
    - replace 0 with (x + - x) by ring. replace (y - x) with (y + - x) by ring. now apply sle_add_r.
    - replace x with (0 + x) by ring. replace y with ((y - x) + x) by ring. now apply sle_add_r. Qed.
  Lemma sle_add_cancel x y z : x + z <= y + z <-> x <= y.
  Proof. split; [|apply sle_add_r]. intros H. apply (sle_add_r _ _ (- z)) in H.
    replace (x + z + - z) with x in H by ring. now replace (y + z + - z) with y in H by ring. Qed.
  Lemma smul_nonneg x y : 0 <= x -> 0 <= y -> 0 <= x * y. Proof. apply s_le_mul. Qed.
  Lemma sle_opp x y : x <= y -> - y <= - x.
  Proof. intros H. apply sle_sub_0 in H. apply sle_sub_0. now replace (- x - - y) with (y - x) by ring. Qed.
  Lemma ssq_nonneg x : 0 <= x * x.
  Proof. destruct (sle_total 0 x) as [H|H]; [now apply smul_nonneg|].
    apply sle_opp in H. replace (- 0) with 0 in H by ring.
    replace (x * x) with ((- x) * (- x)) by ring. now apply smul_nonneg. Qed.
  Lemma s01 : 0 <= 1.
  Proof. replace 1 with (1 * 1) by ring. apply ssq_nonneg. Qed.
  Lemma smul_le_l a x y : 0 <= a -> x <= y -> a * x <= a * y.
  Proof. intros Ha H. apply (proj2 (sle_sub_0 _ _)). replace (a * y - a * x) with (a * (y - x)) by ring.
    apply smul_nonneg; [exact Ha|]. now apply (proj1 (sle_sub_0 x y)). Qed.
  Lemma slt_nle x y : x < y <-> ~ y <= x.
  Proof.
    unfold slt, sle. rewrite s_lt_le. destruct (sleb y x); simpl; split; intros H.
    - discriminate.
    - exfalso. now apply H.
    - discriminate.
    - reflexivity.
  Qed.
  Lemma slt_le x y : x < y -> x <= y.
  Proof. intros H. destruct (sle_total x y) as [A|A]; [exact A|]. apply slt_nle in H. contradiction. Qed.
  Lemma slt_neq x y : x < y -> x <> y.
  Proof. intros H E. subst. apply slt_nle in H. apply H, sle_refl. Qed.
  Lemma slt_iff x y : x < y <-> x <= y /\ x <> y.
  Proof. split; [intros H; split; [now apply slt_le|now apply slt_neq]|].
    intros [H1 H2]. apply slt_nle. intros H3. apply H2. now apply sle_antisym. Qed.
  Lemma s01_lt : 0 < 1.
  Proof. apply slt_iff. split; [apply s01|]. intros E. apply s1_neq_0. now symmetry. Qed.
  Lemma sle_lt_trans x y z : x <= y -> y < z -> x < z.
  Proof. intros H1 H2. apply slt_nle. intros H3. apply slt_nle in H2. apply H2. eapply sle_trans; eauto. Qed.
  Lemma slt_le_trans x y z : x < y -> y <= z -> x < z.
  Proof. intros H1 H2. apply slt_nle. intros H3. apply slt_nle in H1. apply H1. eapply sle_trans; eauto. Qed.
  Lemma slt_add_l_nonneg x y : 0 <= x -> 0 < y -> 0 < x + y.
  Proof. intros Hx Hy. eapply slt_le_trans; [exact Hy|]. replace y with (0 + y) at 1 by ring. now apply sle_add_r. Qed.
  Lemma s2_neq_0 : s2 <> s0 :> F.
  Proof. intros E. assert (H : 0 < 1 + 1) by (apply slt_add_l_nonneg; [apply s01|apply s01_lt]).
    apply slt_neq in H. apply H. now symmetry. Qed.
  Lemma smul_integral x y : x * y = 0 -> x = 0 \/ y = 0.
  Proof.
    intros E. destruct (sle_total x 0) as [A|A]; destruct (sleb 0 x) eqn:B.
    - left. now apply sle_antisym.
    - right. assert (N : x <> 0). { intros ->. unfold sle in *. rewrite s_le_refl in B. discriminate. }
      replace y with (x * y / x) by (field; exact N). rewrite E. field. exact N.
    - destruct (sleb x 0) eqn:C.
      + left. apply sle_antisym; [exact C|exact A].
      + right. assert (N : x <> 0). { intros ->. rewrite s_le_refl in C. discriminate. }
        replace y with (x * y / x) by (field; exact N). rewrite E. field. exact N.
    - unfold sle in A. rewrite A in B. discriminate.
  Qed.

  Lemma s_eq_dec (x y : F) : {x = y} + {x <> y}.
  Proof. destruct (sleb x y) eqn:A; [destruct (sleb y x) eqn:B|].
    - left. now apply s_le_antisym.
    - right. intros ->. rewrite s_le_refl in B. discriminate.
    - right. intros ->. rewrite s_le_refl in A. discriminate. Qed.

  Lemma snat_S n : snat (S n) = snat n + 1 :> F. Proof. reflexivity. Qed.
  Lemma snat_nonneg n : 0 <= (snat n : F).
  Proof. induction n; simpl; [apply sle_refl|]. replace 0 with (0 + 0) by ring. apply sle_add; [exact IHn|apply s01]. Qed.
  Lemma snat_S_pos n : 0 < (snat (S n) : F).
  Proof. simpl. apply slt_add_l_nonneg; [apply snat_nonneg|apply s01_lt]. Qed.
  Lemma snat_S_neq n : snat (S n) <> 0 :> F.
  Proof. intros E. assert (H := snat_S_pos n). rewrite E in H. now apply slt_neq in H. Qed.

  Lemma within_eadd (l u : ext F) (o v : F) :
    within (eadd l o) (eadd u o) v <-> within l u (v - o).
  Proof.
    unfold within. assert (H : forall x y, x + o <= y <-> x <= y - o).
    { intros x y. rewrite <- (sle_add_cancel x (y - o) o). now replace (y - o + o) with y by ring. }
    assert (H2 : forall x y, y <= x + o <-> y - o <= x).
    { intros x y. rewrite <- (sle_add_cancel (y - o) x o). now replace (y - o + o) with y by ring. }
    destruct l, u; simpl; rewrite ?H, ?H2; reflexivity.
  Qed.
End Laws.

(** ** Instance: canonical rationals (executable, axiom free). *)
Definition Qc_leb (x y : Qc) : bool := Qle_bool (this x) (this y).
#[global] Instance Qc_ops : ScalarOps Qc := {
  s0 := 0%Qc; s1 := 1%Qc; sadd := Qcplus; smul := Qcmult; ssub := Qcminus; sopp := Qcopp;
  sdiv := Qcdiv; sinv := Qcinv; sleb := Qc_leb; sltb := fun x y => negb (Qc_leb y x) }.
#[global] Instance Qc_laws : ScalarLaws Qc.
Proof.
  split.
  - exact Qcft.
  - intros x. apply Qle_bool_iff. apply Qle_refl.
  - intros x y z. simpl. unfold Qc_leb. rewrite !Qle_bool_iff. apply Qle_trans.
  - intros x y. simpl. unfold Qc_leb. rewrite !Qle_bool_iff. apply Qcle_antisym.
  - intros x y. simpl. unfold Qc_leb. rewrite !Qle_bool_iff.
    destruct (Qlt_le_dec (this x) (this y)) as [H|H]; [left; now apply Qlt_le_weak|now right].
  - reflexivity.
  - intros x y z. simpl. unfold Qc_leb. rewrite !Qle_bool_iff. intros H.
    apply (Qcplus_le_compat x y z z H (Qcle_refl z)).
  - intros x y. simpl. unfold Qc_leb. rewrite !Qle_bool_iff. intros H1 H2.
    generalize (Qcmult_le_compat_r 0 x y H1 H2). rewrite Qcmult_0_l. auto.
Qed.
