(** The evaluation loops of [NLTrace.v] in IEEE doubles: perturbing and restoring an entry leaves a rounding error behind. *)
From Coq Require Import Bool Arith ZArith Lia Reals Lra List.
From Flocq Require Import Core.
From Verif Require Import Scalar ScalarR Double DoubleR DoubleStep Sums Mat Builder BuilderEnt NLMap NLTraj NLFun SpecNL NLLoop NLGrad NLEval NLDyn NLMPC NLTrace SpecTrace NLTraceEnt NLShape SpecDrift.
Import ListNotations.
Local Open Scope nat_scope.

(** ** loops that append the calls of a list of points *)
Section Loops.
  Context {P Q T M : Type}.
  Variables (shown : P -> list T) (nr : P -> Q -> Prop).
  Lemma walk1 (I : nat -> M -> Prop) (body : nat -> M * list T -> M * list T) (f : nat -> list Q) n :
    (forall j x L, j < n -> I j x -> exists x' ps, body j (x, L) = (x', L ++ flat_map shown ps) /\ Forall2 nr ps (f j) /\ I (S j) x') ->
    forall k x L, k <= n -> I 0 x -> exists x' ps, loop k body (x, L) = (x', L ++ flat_map shown ps) /\ Forall2 nr ps (flat_map f (seq 0 k)) /\ I k x'.
  Proof.
    intros HB. induction k as [|k IH]; intros x L Hk H0; cbn [loop].
    { exists x, []. split; [cbn; now rewrite app_nil_r|]. split; [constructor|exact H0]. }
    destruct (IH x L ltac:(lia) H0) as (x1 & p1 & -> & F1 & I1). destruct (HB k x1 (L ++ flat_map shown p1) ltac:(lia) I1) as (x2 & p2 & -> & F2 & I2).
    exists x2, (p1 ++ p2). split; [now rewrite flat_map_app, app_assoc|]. split; [|exact I2].
    rewrite seq_S, flat_map_app. cbn [flat_map Nat.add]. rewrite app_nil_r. now apply Forall2_app.
  Qed.
  Lemma walk2 (I : nat -> nat -> M -> Prop) (body : nat -> nat -> M * list T -> M * list T) (f : nat -> nat -> list Q) n m x :
    (forall i j x L, i < n -> j < m -> I i j x -> exists x' ps, body i j (x, L) = (x', L ++ flat_map shown ps) /\ Forall2 nr ps (f i j) /\ I i (S j) x') ->
    (forall i x, i < n -> I i m x -> I (S i) 0 x) -> I 0 0 x ->
    exists x' ps, loop n (fun i st => loop m (body i) st) (x, []) = (x', flat_map shown ps) /\ Forall2 nr ps (each n m f) /\ I n 0 x'.
  Proof.
    intros HB HN H0. apply (walk1 (fun i => I i 0) (fun i st => loop m (body i) st) (fun i => flat_map (f i) (seq 0 m)) n) with (L := []); [|exact (le_n _)|exact H0].
    intros i y L Hi Hy. destruct (walk1 (I i) (body i) (f i) m (fun j y' L' Hj Hy' => HB i j y' L' Hi Hj Hy') m y L (le_n _) Hy) as (x' & ps & E & F2 & I2).
    exists x', ps. split; [exact E|]. split; [exact F2|]. now apply HN.
  Qed.
End Loops.

Lemma near_of D x y : nearr D x y -> near D x y.
Proof. intros (_ & a & b). split; [exact a|now apply Rabs_le]. Qed.
Lemma Rabs_s (x : R) : sabs x = Rabs x.
Proof. unfold sabs. cbn [sleb s0 sopp R_ops]. destruct (R_leb 0 x) eqn:E; [apply R_leb_iff in E; now rewrite Rabs_pos_eq|]. assert (~ (0 <= x)%R) by (rewrite <- R_leb_iff; congruence). rewrite Rabs_left; lra. Qed.
Lemma Rmax_s (x y : R) : smax x y = Rmax x y.
Proof.
  unfold smax. cbn [sltb R_ops]. destruct (R_leb y x) eqn:E; cbn [negb].
  - apply R_leb_iff in E. rewrite Rmax_left; lra.
  - assert (~ (y <= x)%R) by (rewrite <- R_leb_iff; congruence). rewrite Rmax_right; lra.
Qed.
Lemma mag_R (x : R) : mag x = Rmax (Rabs x) 1. Proof. unfold mag. now rewrite Rabs_s, Rmax_s. Qed.

Section Tables.
  Variable B : R.
  Hypothesis HB : (1 <= B <= big0)%R.
  Notation D := (4 * (uro * B))%R.
  Variables (R C : nat) (X : nat -> nat -> dbl).
  Hypothesis HX : forall i j, i < R -> j < C -> okd B (X i j).
  Lemma self_near i j : i < R -> j < C -> nearr D (X i j) (rval (X i j)).
  Proof. intros Hi Hj. destruct (HX i j Hi Hj) as (a & b & _). refine (conj a (conj b _)). pose proof (uroB B (proj1 HB)). lra. Qed.

  (** table [x] is the nominal one up to D, exactly where [fresh] *)
  Definition dtab (fresh : nat -> nat -> Prop) (x : mat dbl) : Prop :=
    exists Y, rep x R C Y /\ forall i j, i < R -> j < C -> nearr D (Y i j) (rval (X i j)) /\ (fresh i j -> Y i j = X i j).
  Definition tnear (Y : nat -> nat -> dbl) (y : nat -> nat -> Reals.Rdefinitions.R) : Prop := forall i j, i < R -> j < C -> near D (Y i j) (y i j).

  Lemma dtab_init fresh x : rep x R C X -> dtab fresh x.
  Proof. intros H. exists X. split; [exact H|]. intros i j Hi Hj. split; [now apply self_near|reflexivity]. Qed.
  Lemma dtab_mono (f g : nat -> nat -> Prop) x : (forall i j, i < R -> j < C -> g i j -> f i j) -> dtab f x -> dtab g x.
  Proof. intros H (Y & r & e). exists Y. split; [exact r|]. intros i j Hi Hj. destruct (e i j Hi Hj) as [a b]. split; [exact a|]. intros G. apply b. now apply H. Qed.
  Lemma dtab_near fresh x : dtab fresh x -> exists Y, rep x R C Y /\ tnear Y (reals X) /\ (forall i j, i < R -> j < C -> fresh i j -> Y i j = X i j).
  Proof. intros (Y & r & e). exists Y. split; [exact r|]. split; intros i j Hi Hj; [now apply near_of, e|now apply e]. Qed.

  Variables (a b : nat).
  Hypothesis Ha : a < R.
  Hypothesis Hb : b < C.
  Variables (t : dbl) (tau : Reals.Rdefinitions.R).
  Hypothesis Ht : okd (B / 100) t.
  Hypothesis Et : (- (/100 * (uro * B)) <= rval t - tau <= /100 * (uro * B))%R.
  Notation hit i j := ((i =? a) && (j =? b)).
  Lemma put_near Y (v : dbl) w y : (forall i j, i < R -> j < C -> nearr D (Y i j) (rval (X i j))) -> nearr D v w ->
    (forall i j, y i j = if hit i j then w else rval (X i j)) -> tnear (fun i j => if hit i j then v else Y i j) y.
  Proof. intros H1 H2 E i j Hi Hj. rewrite E. destruct (hit i j); [now apply near_of|now apply near_of, H1]. Qed.
  Lemma dtab_fwd (fresh fresh' : nat -> nat -> Prop) (x : mat dbl) : dtab fresh x -> fresh a b -> (forall i j, fresh' i j -> fresh i j /\ ~ (i = a /\ j = b)) ->
    let x1 := set_entry x a b (sadd (ent x a b) t) in
    (exists Y, rep x1 R C Y /\ tnear Y (pert (reals X) a b tau) /\ (forall i j, i < R -> j < C -> fresh' i j -> Y i j = X i j)) /\
    dtab fresh' (set_entry x1 a b (ssub (ent x1 a b) t)).
  Proof.
    intros (Y & r & e) F HF x1. destruct (e a b Ha Hb) as [_ E]. specialize (E F). destruct (fwd_num B HB (X a b) t tau (HX a b Ha Hb) Ht Et) as [N1 N2].
    assert (E1 : ent x a b = X a b). { destruct r as [_ r]. rewrite r by assumption. exact E. }
    assert (R1 : rep x1 R C (fun i j => if hit i j then sadd (X a b) t else Y i j)). { unfold x1. rewrite E1. now apply rep_set. }
    assert (E2 : ent x1 a b = sadd (X a b) t). { destruct R1 as [_ R1]. rewrite R1 by assumption. now rewrite !Nat.eqb_refl. }
    assert (FH : forall i j, fresh' i j -> hit i j = false).
    { intros i j G. destruct (Nat.eqb_spec i a), (Nat.eqb_spec j b); cbn [andb]; try reflexivity. exfalso. apply (proj2 (HF i j G)). now split. }
    split.
    - eexists. split; [exact R1|]. split.
      + apply (put_near Y (sadd (X a b) t) (rval (X a b) + tau)%R); [intros; now apply e|exact N1|].
        intros i j. unfold pert, reals. destruct (Nat.eqb_spec i a), (Nat.eqb_spec j b); cbn [andb]; subst; reflexivity.
      + intros i j Hi Hj G. rewrite (FH i j G). apply e; [assumption|assumption|]. now apply HF.
    - eexists. split; [apply rep_set; [exact R1|exact Ha|exact Hb]|]. intros i j Hi Hj. cbn beta. rewrite E2. split.
      + destruct (Nat.eqb_spec i a), (Nat.eqb_spec j b); cbn [andb]; subst; try (now apply e). exact N2.
      + intros G. rewrite !(FH i j G). apply e; [assumption|assumption|]. now apply HF.
  Qed.
  Lemma dtab_cen (fresh fresh' : nat -> nat -> Prop) (x : mat dbl) : dtab fresh x -> fresh a b -> (forall i j, fresh' i j -> fresh i j /\ ~ (i = a /\ j = b)) ->
    let x1 := set_entry x a b (sadd (ent x a b) t) in let x2 := set_entry x1 a b (ssub (ent x1 a b) (smul s2 t)) in
    (exists Y, rep x1 R C Y /\ tnear Y (pert (reals X) a b tau) /\ (forall i j, i < R -> j < C -> fresh' i j -> Y i j = X i j)) /\
    (exists Y, rep x2 R C Y /\ tnear Y (pert (reals X) a b (- tau)%R) /\ (forall i j, i < R -> j < C -> fresh' i j -> Y i j = X i j)) /\
    dtab fresh' (set_entry x2 a b (sadd (ent x2 a b) t)).
  Proof.
    intros (Y & r & e) F HF x1 x2. destruct (e a b Ha Hb) as [_ E]. specialize (E F). destruct (cen_num B HB (X a b) t tau (HX a b Ha Hb) Ht Et) as (N1 & N2 & N3).
    assert (E1 : ent x a b = X a b). { destruct r as [_ r]. rewrite r by assumption. exact E. }
    assert (R1 : rep x1 R C (fun i j => if hit i j then sadd (X a b) t else Y i j)). { unfold x1. rewrite E1. now apply rep_set. }
    assert (E2 : ent x1 a b = sadd (X a b) t). { destruct R1 as [_ R1]. rewrite R1 by assumption. now rewrite !Nat.eqb_refl. }
    assert (R2 : rep x2 R C (fun i j => if hit i j then ssub (sadd (X a b) t) (smul s2 t) else if hit i j then sadd (X a b) t else Y i j)).
    { unfold x2. rewrite E2. now apply rep_set. }
    assert (E3 : ent x2 a b = ssub (sadd (X a b) t) (smul s2 t)). { destruct R2 as [_ R2]. rewrite R2 by assumption. now rewrite !Nat.eqb_refl. }
    assert (FH : forall i j, fresh' i j -> hit i j = false).
    { intros i j G. destruct (Nat.eqb_spec i a), (Nat.eqb_spec j b); cbn [andb]; try reflexivity. exfalso. apply (proj2 (HF i j G)). now split. }
    split; [|split].
    - eexists. split; [exact R1|]. split.
      + apply (put_near Y (sadd (X a b) t) (rval (X a b) + tau)%R); [intros; now apply e|exact N1|].
        intros i j. unfold pert, reals. destruct (Nat.eqb_spec i a), (Nat.eqb_spec j b); cbn [andb]; subst; reflexivity.
      + intros i j Hi Hj G. rewrite (FH i j G). apply e; [assumption|assumption|]. now apply HF.
    - eexists. split; [exact R2|]. split.
      + intros i j Hi Hj. unfold pert, reals. destruct (Nat.eqb_spec i a), (Nat.eqb_spec j b); cbn [andb]; subst; try (now apply near_of, e). apply near_of. exact N2.
      + intros i j Hi Hj G. rewrite !(FH i j G). apply e; [assumption|assumption|]. now apply HF.
    - eexists. split; [apply rep_set; [exact R2|exact Ha|exact Hb]|]. intros i j Hi Hj. cbn beta. rewrite E3. split.
      + destruct (Nat.eqb_spec i a), (Nat.eqb_spec j b); cbn [andb]; subst; try (now apply e). exact N3.
      + intros G. rewrite !(FH i j G). apply e; [assumption|assumption|]. now apply HF.
  Qed.
End Tables.

(** two entries of the same column *)
Section Pair.
  Context {R C a1 a2 b : nat}.
  Hypothesis Ha1 : a1 < R.
  Hypothesis Ha2 : a2 < R.
  Hypothesis Hb : b < C.
  Hypothesis Hne : a1 <> a2.
  Definition put2 (v1 v2 : dbl) (Y : nat -> nat -> dbl) : nat -> nat -> dbl := fun i j => if (i =? a2) && (j =? b) then v2 else if (i =? a1) && (j =? b) then v1 else Y i j.
  Lemma set2 x Y (f : dbl -> dbl) : rep x R C Y ->
    let x1 := set_entry x a1 b (f (ent x a1 b)) in rep (set_entry x1 a2 b (f (ent x1 a2 b))) R C (put2 (f (Y a1 b)) (f (Y a2 b)) Y).
  Proof.
    intros r x1. assert (E : ent x a1 b = Y a1 b) by (destruct r as [_ r]; now apply r).
    assert (R1 : rep x1 R C (fun i j => if (i =? a1) && (j =? b) then f (Y a1 b) else Y i j)). { unfold x1. rewrite E. now apply rep_set. }
    assert (E1 : ent x1 a2 b = Y a2 b). { destruct R1 as [_ R1]. rewrite R1 by assumption. destruct (Nat.eqb_spec a2 a1); [congruence|reflexivity]. }
    rewrite E1. now apply rep_set.
  Qed.
  Lemma put2_1 v1 v2 Y : put2 v1 v2 Y a1 b = v1.
  Proof. unfold put2. rewrite !Nat.eqb_refl. destruct (Nat.eqb_spec a1 a2); [contradiction|reflexivity]. Qed.
  Lemma put2_2 v1 v2 Y : put2 v1 v2 Y a2 b = v2.
  Proof. unfold put2. now rewrite !Nat.eqb_refl. Qed.
  Lemma put2_other v1 v2 Y i j : ~ (i = a1 /\ j = b) -> ~ (i = a2 /\ j = b) -> put2 v1 v2 Y i j = Y i j.
  Proof. intros H1 H2. unfold put2. destruct (Nat.eqb_spec i a1), (Nat.eqb_spec i a2), (Nat.eqb_spec j b); cbn [andb]; try reflexivity; exfalso; auto. Qed.
  Lemma where2 (Q : nat -> nat -> Prop) : Q a1 b -> Q a2 b -> (forall i j, ~ (i = a1 /\ j = b) -> ~ (i = a2 /\ j = b) -> Q i j) -> forall i j, Q i j.
  Proof. intros H1 H2 H3 i j. destruct (Nat.eq_dec j b) as [->|N]; [|apply H3; intuition]. destruct (Nat.eq_dec i a1) as [->|N1]; [exact H1|]. destruct (Nat.eq_dec i a2) as [->|N2]; [exact H2|]. apply H3; intuition. Qed.

  Variable B : Reals.Rdefinitions.R.
  Hypothesis HB : (1 <= B <= big0)%R.
  Notation D := (4 * (uro * B))%R.
  Variable X : nat -> nat -> dbl.
  Hypothesis HX : forall i j, i < R -> j < C -> okd B (X i j).
  Variables (t : dbl) (tau : Reals.Rdefinitions.R).
  Hypothesis Ht : okd (B / 100) t.
  Hypothesis Et : (- (/100 * (uro * B)) <= rval t - tau <= /100 * (uro * B))%R.
  Notation pert2R s := (pert (pert (reals X) a1 b s) a2 b s).
  Lemma pert2_1 s : pert2R s a1 b = (rval (X a1 b) + s)%R.
  Proof. unfold pert, reals. rewrite !Nat.eqb_refl. destruct (Nat.eqb_spec a1 a2); [contradiction|reflexivity]. Qed.
  Lemma pert2_2 s : pert2R s a2 b = (rval (X a2 b) + s)%R.
  Proof. unfold pert, reals. rewrite !Nat.eqb_refl. destruct (Nat.eqb_spec a2 a1); [congruence|reflexivity]. Qed.
  Lemma pert2_other s i j : ~ (i = a1 /\ j = b) -> ~ (i = a2 /\ j = b) -> pert2R s i j = rval (X i j).
  Proof. intros H1 H2. unfold pert, reals. destruct (Nat.eqb_spec i a1), (Nat.eqb_spec i a2), (Nat.eqb_spec j b); cbn [andb]; try reflexivity; exfalso; auto. Qed.

  Variables (fresh fresh' : nat -> nat -> Prop) (x : mat dbl).
  Hypothesis HD : dtab B R C X fresh x.
  Hypothesis F1 : fresh a1 b.
  Hypothesis F2 : fresh a2 b.
  Hypothesis HF : forall i j, fresh' i j -> fresh i j /\ ~ (i = a1 /\ j = b) /\ ~ (i = a2 /\ j = b).
  Let fp (v : dbl) := sadd v t.
  Let fm (v : dbl) := ssub v t.
  Let fm2 (v : dbl) := ssub v (smul s2 t).
  Notation mv f y := (set_entry (set_entry y a1 b (f (ent y a1 b))) a2 b (f (ent (set_entry y a1 b (f (ent y a1 b))) a2 b))).

  (** after moving both from values that are near: a table near the doubly perturbed one *)
  Lemma pair_near (Y : nat -> nat -> dbl) v1 v2 s : (forall i j, i < R -> j < C -> nearr D (Y i j) (rval (X i j)) /\ (fresh i j -> Y i j = X i j)) ->
    nearr D v1 (rval (X a1 b) + s)%R -> nearr D v2 (rval (X a2 b) + s)%R ->
    tnear B R C (put2 v1 v2 Y) (pert2R s) /\ (forall i j, i < R -> j < C -> fresh' i j -> put2 v1 v2 Y i j = X i j).
  Proof.
    intros e N1 N2. split.
    - unfold tnear. apply (where2 (fun i j => i < R -> j < C -> near D (put2 v1 v2 Y i j) (pert2R s i j))).
      + intros _ _. rewrite put2_1, pert2_1. now apply near_of.
      + intros _ _. rewrite put2_2, pert2_2. now apply near_of.
      + intros i j H1 H2 Hi Hj. rewrite put2_other, pert2_other by assumption. now apply near_of, e.
    - intros i j Hi Hj G. destruct (HF i j G) as (G0 & G1 & G2). rewrite put2_other by assumption. now apply e.
  Qed.
  Lemma put2_put2 v1 v2 w1 w2 Y i j : put2 v1 v2 (put2 w1 w2 Y) i j = put2 v1 v2 Y i j.
  Proof. unfold put2. destruct ((i =? a2) && (j =? b)); [reflexivity|]. now destruct ((i =? a1) && (j =? b)). Qed.
  Lemma pair_back (Y : nat -> nat -> dbl) v1 v2 y : rep y R C (put2 v1 v2 Y) -> (forall i j, i < R -> j < C -> nearr D (Y i j) (rval (X i j)) /\ (fresh i j -> Y i j = X i j)) ->
    nearr D v1 (rval (X a1 b)) -> nearr D v2 (rval (X a2 b)) -> dtab B R C X fresh' y.
  Proof.
    intros r e N1 N2. eexists. split; [exact r|].
    apply (where2 (fun i j => i < R -> j < C -> nearr D (put2 v1 v2 Y i j) (rval (X i j)) /\ (fresh' i j -> put2 v1 v2 Y i j = X i j))).
    - intros _ _. rewrite put2_1. split; [exact N1|]. intros G. exfalso. apply (proj1 (proj2 (HF a1 b G))). now split.
    - intros _ _. rewrite put2_2. split; [exact N2|]. intros G. exfalso. apply (proj2 (proj2 (HF a2 b G))). now split.
    - intros i j H1 H2 Hi Hj. rewrite put2_other by assumption. destruct (e i j Hi Hj) as [p q]. split; [exact p|]. intros G. apply q. now apply HF.
  Qed.

  Lemma pair_fwd : let y := mv fp x in
    (exists Y, rep y R C Y /\ tnear B R C Y (pert2R tau) /\ (forall i j, i < R -> j < C -> fresh' i j -> Y i j = X i j)) /\ dtab B R C X fresh' (mv fm y).
  Proof.
    intros y. destruct HD as (Y & r & e). pose proof (proj2 (e a1 b Ha1 Hb) F1) as E1. pose proof (proj2 (e a2 b Ha2 Hb) F2) as E2.
    destruct (fwd_num B HB (X a1 b) t tau (HX a1 b Ha1 Hb) Ht Et) as [N1 M1]. destruct (fwd_num B HB (X a2 b) t tau (HX a2 b Ha2 Hb) Ht Et) as [N2 M2].
    pose proof (set2 x Y fp r) as R1. cbn zeta in R1. fold y in R1. rewrite E1, E2 in R1.
    pose proof (set2 y _ fm R1) as R2. cbn zeta in R2. rewrite put2_1, put2_2 in R2. split.
    - eexists. split; [exact R1|]. now apply pair_near.
    - apply (pair_back Y (fm (fp (X a1 b))) (fm (fp (X a2 b)))); [|exact e|exact M1|exact M2]. eapply rep_ext; [exact R2|]. intros i j _ _. apply put2_put2.
  Qed.
  Lemma pair_cen : let y := mv fp x in let w := mv fm2 y in
    (exists Y, rep y R C Y /\ tnear B R C Y (pert2R tau) /\ (forall i j, i < R -> j < C -> fresh' i j -> Y i j = X i j)) /\
    (exists Y, rep w R C Y /\ tnear B R C Y (pert2R (- tau)%R) /\ (forall i j, i < R -> j < C -> fresh' i j -> Y i j = X i j)) /\ dtab B R C X fresh' (mv fp w).
  Proof.
    intros y w. destruct HD as (Y & r & e). pose proof (proj2 (e a1 b Ha1 Hb) F1) as E1. pose proof (proj2 (e a2 b Ha2 Hb) F2) as E2.
    destruct (cen_num B HB (X a1 b) t tau (HX a1 b Ha1 Hb) Ht Et) as (N1 & K1 & M1). destruct (cen_num B HB (X a2 b) t tau (HX a2 b Ha2 Hb) Ht Et) as (N2 & K2 & M2).
    pose proof (set2 x Y fp r) as R1. cbn zeta in R1. fold y in R1. rewrite E1, E2 in R1.
    pose proof (set2 y _ fm2 R1) as R2. cbn zeta in R2. fold w in R2. rewrite put2_1, put2_2 in R2.
    pose proof (set2 w _ fp R2) as R3. cbn zeta in R3. rewrite put2_1, put2_2 in R3. split; [|split].
    - eexists. split; [exact R1|]. now apply pair_near.
    - eexists. split; [eapply rep_ext; [exact R2|]; intros i j _ _; apply put2_put2|]. now apply pair_near.
    - apply (pair_back Y (fp (fm2 (fp (X a1 b)))) (fp (fm2 (fp (X a2 b))))); [|exact e|exact M1|exact M2]. eapply rep_ext; [exact R3|]. intros i j _ _. now rewrite !put2_put2.
  Qed.
End Pair.
