(** Auxiliary facts for the finite-difference loops of [NLFun.v]. *)
From Coq Require Import Bool Arith List Lia Ring Field.
From Verif Require Import Scalar Sums Mat Builder BuilderEnt NLMap NLTraj NLFun SpecNL.
Import ListNotations.

Lemma map_seq_ext {T} (f g : nat -> T) n : (forall i, i < n -> f i = g i) -> map f (seq 0 n) = map g (seq 0 n).
Proof. intros H. apply map_ext_in. intros i Hi. apply in_seq in Hi. apply H. lia. Qed.
Lemma tab_ext {T} n m (X Y : nat -> nat -> T) : (forall i j, i < n -> j < m -> X i j = Y i j) -> tab n m X = tab n m Y.
Proof. intros H. unfold tab. apply map_seq_ext. intros i Hi. apply map_seq_ext. intros j Hj. now apply H. Qed.

Section Rep.
  Context {F : Type} {SO : ScalarOps F} .
  (** the matrix [M] has the given sizes and the entries [X] *)
  Definition rep (M : mat F) (r c : nat) (X : nat -> nat -> F) : Prop :=
    gm M r c /\ forall i j, i < r -> j < c -> ent M i j = X i j.
  Lemma rep_ext M r c X Y : rep M r c X -> (forall i j, i < r -> j < c -> X i j = Y i j) -> rep M r c Y.
  Proof. intros [G E] H. split; [exact G|]. intros i j Hi Hj. rewrite E by assumption. now apply H. Qed.
  Lemma rep_self M r c : gm M r c -> rep M r c (ent M).
  Proof. intros G. split; [exact G|reflexivity]. Qed.
  Lemma rep_rows M r c X : rep M r c X -> rows_of M = tab r c X.
  Proof. intros [(R & C & _) E]. unfold rows_of. rewrite R, C. now apply tab_ext. Qed.
  Lemma set_entry_gm (M : mat F) r c i j v : gm M r c -> i < r -> j < c -> gm (set_entry M i j v) r c.
  Proof.
    intros (R & C & O) Hi Hj. unfold set_entry, set_block. repeat split; cbn [mrows mcols mok mconst]; try assumption.
    rewrite R, C, O. destruct (Nat.leb_spec (i + 1) r), (Nat.leb_spec (j + 1) c); cbn; auto; lia.
  Qed.
  Lemma rep_set M r c X i j v : rep M r c X -> i < r -> j < c ->
    rep (set_entry M i j v) r c (fun a b => if (a =? i) && (b =? j) then v else X a b).
  Proof.
    intros [G E] Hi Hj. split; [now apply set_entry_gm|]. intros a b Ha Hb. rewrite ent_set_entry.
    destruct ((a =? i) && (b =? j)); [reflexivity|]. now apply E.
  Qed.
  (** M(i,j) = M(i,j) + t *)
  Lemma rep_bump M r c X i j t v : rep M r c X -> i < r -> j < c -> v = (X i j + t)%S ->
    rep (set_entry M i j v) r c (pert X i j t).
  Proof.
    intros H Hi Hj ->. eapply rep_ext; [apply rep_set; eassumption|]. intros a b _ _. unfold pert. cbn beta.
    destruct (Nat.eqb_spec a i), (Nat.eqb_spec b j); subst; reflexivity.
  Qed.

  Lemma rep_trow M r c X i : rep M r c X -> i < r -> gm (mtrans (mrow M i)) c 1 /\ lst (mtrans (mrow M i)) = map (X i) (seq 0 c).
  Proof.
    intros [(R & C & O) E] Hi. split.
    - unfold mtrans, mrow, block. repeat split; cbn [mrows mcols mok]; try assumption. rewrite R, C, O, Nat.leb_refl.
      destruct (Nat.leb_spec (i + 1) r); [reflexivity|lia].
    - unfold lst. cbn [mtrans mrow block mrows mcols ent]. rewrite C. apply map_seq_ext. intros j Hj.
      rewrite Nat.add_0_r. cbn. now apply E.
  Qed.

  (** nested loops *)
  Lemma loop2_inv {S} (I : nat -> nat -> S -> Prop) n m (body : nat -> nat -> S -> S) s : I 0 0 s ->
    (forall i j s, i < n -> j < m -> I i j s -> I i (Datatypes.S j) (body i j s)) ->
    (forall i s, i < n -> I i m s -> I (Datatypes.S i) 0 s) ->
    I n 0 (loop n (fun i st => loop m (fun j st => body i j st) st) s).
  Proof.
    intros H0 HS HN. assert (G : forall k, k <= n -> I k 0 (loop k (fun i st => loop m (fun j st => body i j st) st) s)).
    { induction k as [|k IH]; intros Hk; [exact H0|]. cbn [loop]. apply HN; [lia|]. specialize (IH ltac:(lia)).
      set (s' := loop k _ _) in *. clearbody s'.
      assert (G2 : forall l, l <= m -> I k l (loop l (fun j st => body k j st) s')).
      { induction l as [|l IHl]; intros Hl; [exact IH|]. cbn [loop]. apply HS; [lia|lia|]. apply IHl. lia. }
      now apply G2. }
    now apply G.
  Qed.

  Lemma loop_ext {S} n (f g : nat -> S -> S) s : (forall i s, i < n -> f i s = g i s) -> loop n f s = loop n g s.
  Proof. induction n as [|n IH]; intros H; [reflexivity|]. cbn [loop]. rewrite IH by (intros; apply H; lia). apply H. lia. Qed.

  (** columns of block row [i] written one after the other while [x] is perturbed and restored *)
  Lemma fd_inner (R C nr nc w i : nat) (X : nat -> nat -> F) (body : nat -> mat F * mat F -> mat F * mat F) (W : nat -> nat -> F) :
    (forall j x J, j < w -> rep x R C X -> exists x' v,
       body j (x, J) = (x', set_blkcol J w i j v) /\ rep x' R C X /\ gm v nr 1 /\ forall c, c < nr -> ent v c 0 = W j c) ->
    i * w + w <= nc -> forall k x J, k <= w -> rep x R C X -> gm J nr nc ->
    let '(x', J') := loop k body (x, J) in rep x' R C X /\ gm J' nr nc /\
      forall c q, c < nr -> q < nc -> ent J' c q = if (i * w <=? q) && (q <? i * w + k) then W (q - i * w) c else ent J c q.
  Proof.
    intros HB Hnc. induction k as [|k IH]; intros x J Hk HX HJ; cbn [loop].
    - refine (conj HX (conj HJ _)). intros c q Hc Hq. destruct (Nat.leb_spec (i * w) q), (Nat.ltb_spec q (i * w + 0)); cbn; try reflexivity; lia.
    - specialize (IH x J ltac:(lia) HX HJ). destruct (loop k body (x, J)) as [x1 J1]. destruct IH as (HX1 & HJ1 & E1).
      destruct (HB k x1 J1 ltac:(lia) HX1) as (x2 & v & -> & HX2 & (V1 & V2 & V3) & EV).
      destruct HJ1 as (J1r & J1c & J1o). refine (conj HX2 (conj _ _)).
      + unfold set_blkcol, guard, set_mcol, set_block. repeat split; cbn [mrows mcols mok]; try assumption.
        rewrite J1r, J1c, J1o, V1, V2, V3, !Nat.eqb_refl, Nat.add_0_l.
        destruct (Nat.leb_spec nr nr); [|lia]. destruct (Nat.leb_spec (i * w + k + 1) nc); [|lia].
        destruct (Nat.leb_spec (i * w + w) nc); [|lia]. destruct (Nat.ltb_spec k w); [reflexivity|lia].
      + intros c q Hc Hq. unfold set_blkcol, guard. cbn [ent]. unfold set_mcol. rewrite J1r.
        destruct (Nat.eq_dec q (i * w + k)) as [->|N].
        * rewrite ent_set_block_in by lia. rewrite !Nat.sub_0_r, Nat.sub_diag. rewrite EV by exact Hc.
          destruct (Nat.leb_spec (i * w) (i * w + k)), (Nat.ltb_spec (i * w + k) (i * w + S k)); cbn; try lia. f_equal. lia.
        * rewrite ent_set_block_col_out by lia. rewrite E1 by assumption.
          destruct (Nat.leb_spec (i * w) q), (Nat.ltb_spec q (i * w + k)), (Nat.ltb_spec q (i * w + S k)); cbn; try reflexivity; lia.
  Qed.
  Lemma fd_outer (R C nr nc w : nat) (X : nat -> nat -> F) (body : nat -> nat -> mat F * mat F -> mat F * mat F) (W : nat -> nat -> nat -> F) n :
    (forall i j x J, i < n -> j < w -> rep x R C X -> exists x' v,
       body i j (x, J) = (x', set_blkcol J w i j v) /\ rep x' R C X /\ gm v nr 1 /\ forall c, c < nr -> ent v c 0 = W i j c) ->
    n * w <= nc -> forall x J, rep x R C X -> gm J nr nc ->
    let '(x', J') := loop n (fun i st => loop w (body i) st) (x, J) in rep x' R C X /\ gm J' nr nc /\
      forall c i j, c < nr -> i * w + j < nc -> j < w -> ent J' c (i * w + j) = if i <? n then W i j c else ent J c (i * w + j).
  Proof.
    intros HB Hnc x J HX HJ.
    assert (G : forall k, k <= n -> let '(x', J') := loop k (fun i st => loop w (body i) st) (x, J) in rep x' R C X /\ gm J' nr nc /\
      forall c i j, c < nr -> i * w + j < nc -> j < w -> ent J' c (i * w + j) = if i <? k then W i j c else ent J c (i * w + j)).
    { induction k as [|k IH]; intros Hk; cbn [loop]; [refine (conj HX (conj HJ _)); reflexivity|].
      specialize (IH ltac:(lia)). destruct (loop k _ _) as [x1 J1]. destruct IH as (HX1 & HJ1 & E1).
      pose proof (blk_le k n w ltac:(lia)) as Hb.
      pose proof (fd_inner R C nr nc w k X (body k) (W k) (fun j x J Hj H => HB k j x J ltac:(lia) Hj H) ltac:(lia) w x1 J1 (le_n _) HX1 HJ1) as H.
      destruct (loop w (body k) (x1, J1)) as [x2 J2]. destruct H as (HX2 & HJ2 & E2). refine (conj HX2 (conj HJ2 _)).
      intros c i j Hc Hi Hj. rewrite E2 by assumption. rewrite E1 by assumption.
      destruct (Nat.ltb_spec i k), (Nat.ltb_spec i (S k)).
      - pose proof (blk_le i k w ltac:(lia)). destruct (Nat.leb_spec (k * w) (i * w + j)); cbn; [lia|reflexivity].
      - lia.
      - assert (i = k) as -> by lia. destruct (Nat.leb_spec (k * w) (k * w + j)), (Nat.ltb_spec (k * w + j) (k * w + w)); cbn; try lia. f_equal. lia.
      - pose proof (blk_le k i w ltac:(lia)). destruct (Nat.ltb_spec (i * w + j) (k * w + w)); [lia|]. rewrite andb_false_r. reflexivity. }
    now apply G.
  Qed.
  (** the same with J(j, i) written (objective) *)
  Lemma fe_inner (R C nr nc i : nat) (X : nat -> nat -> F) (body : nat -> mat F * mat F -> mat F * mat F) (W : nat -> F) :
    (forall j x J, j < nr -> rep x R C X -> exists x' v,
       body j (x, J) = (x', set_entry J j i v) /\ rep x' R C X /\ v = W j) ->
    i < nc -> forall k x J, k <= nr -> rep x R C X -> gm J nr nc ->
    let '(x', J') := loop k body (x, J) in rep x' R C X /\ gm J' nr nc /\
      forall a b, ent J' a b = if (b =? i) && (a <? k) then W a else ent J a b.
  Proof.
    intros HB Hi. induction k as [|k IH]; intros x J Hk HX HJ; cbn [loop].
    - refine (conj HX (conj HJ _)). intros a b. now rewrite andb_false_r.
    - specialize (IH x J ltac:(lia) HX HJ). destruct (loop k body (x, J)) as [x1 J1]. destruct IH as (HX1 & HJ1 & E1).
      destruct (HB k x1 J1 ltac:(lia) HX1) as (x2 & v & -> & HX2 & ->). refine (conj HX2 (conj _ _)).
      + apply set_entry_gm; [exact HJ1|lia|exact Hi].
      + intros a b. rewrite ent_set_entry, E1. destruct (Nat.eqb_spec a k), (Nat.eqb_spec b i), (Nat.ltb_spec a k), (Nat.ltb_spec a (S k)); cbn; subst; try reflexivity; lia.
  Qed.
  Lemma fe_outer (R C nr nc : nat) (X : nat -> nat -> F) (body : nat -> nat -> mat F * mat F -> mat F * mat F) (W : nat -> nat -> F) n :
    (forall i j x J, i < n -> j < nr -> rep x R C X -> exists x' v,
       body i j (x, J) = (x', set_entry J j i v) /\ rep x' R C X /\ v = W i j) ->
    n <= nc -> forall x J, rep x R C X -> gm J nr nc ->
    let '(x', J') := loop n (fun i st => loop nr (body i) st) (x, J) in rep x' R C X /\ gm J' nr nc /\
      forall a b, a < nr -> ent J' a b = if b <? n then W b a else ent J a b.
  Proof.
    intros HB Hnc x J HX HJ.
    assert (G : forall k, k <= n -> let '(x', J') := loop k (fun i st => loop nr (body i) st) (x, J) in rep x' R C X /\ gm J' nr nc /\
      forall a b, a < nr -> ent J' a b = if b <? k then W b a else ent J a b).
    { induction k as [|k IH]; intros Hk; cbn [loop]; [refine (conj HX (conj HJ _)); reflexivity|].
      specialize (IH ltac:(lia)). destruct (loop k _ _) as [x1 J1]. destruct IH as (HX1 & HJ1 & E1).
      pose proof (fe_inner R C nr nc k X (body k) (W k) (fun j x J Hj H => HB k j x J ltac:(lia) Hj H) ltac:(lia) nr x1 J1 (le_n _) HX1 HJ1) as H.
      destruct (loop nr (body k) (x1, J1)) as [x2 J2]. destruct H as (HX2 & HJ2 & E2). refine (conj HX2 (conj HJ2 _)).
      intros a b Ha. rewrite E2, E1 by assumption.
      destruct (Nat.eqb_spec b k), (Nat.ltb_spec a nr), (Nat.ltb_spec b k), (Nat.ltb_spec b (S k)); cbn; subst; try reflexivity; lia. }
    now apply G.
  Qed.
  (** columns of a matrix written one after the other into a vector *)
  Lemma put_cols_ent (J v : mat F) c nr nc n : gm J nr nc -> gm v n 1 -> c + nc * nr <= n ->
    let '(c', v') := put_cols J c v in c' = c + nc * nr /\ gm v' n 1 /\
      forall p, ent v' p 0 = if (c <=? p) && (p <? c + nc * nr) then ent J ((p - c) mod nr) ((p - c) / nr) else ent v p 0.
  Proof.
    intros (JR & JC & JO) GV Hn. unfold put_cols. rewrite JR, JC.
    pose proof (loop2_inv (fun k l st => (nc * nr <= k * nr + l -> k <= nc) /\ l <= nr /\ k <= nc /\ (k = nc -> l = 0) /\
      let '(c', v') := st in c' = c + (k * nr + l) /\ gm v' n 1 /\
      forall p, ent v' p 0 = if (c <=? p) && (p <? c + (k * nr + l)) then ent J ((p - c) mod nr) ((p - c) / nr) else ent v p 0)
      nc nr (fun j i '(c, v) => (S c, set_entry v c 0 (ent J i j))) (c, v)) as H.
    cbn beta in H.
    assert (X : loop nc (fun i st => loop nr (fun j st => (let '(c, v) := st in (S c, set_entry v c 0 (ent J j i)))) st) (c, v) =
            loop nc (fun j st => loop nr (fun i '(c, v) => (S c, set_entry v c 0 (ent J i j))) st) (c, v)) by reflexivity.
    rewrite X in H. clear X.
    destruct (loop nc _ (c, v)) as [c' v'].
    assert (P : c' = c + (nc * nr + 0) /\ gm v' n 1 /\ forall p, ent v' p 0 = if (c <=? p) && (p <? c + (nc * nr + 0)) then ent J ((p - c) mod nr) ((p - c) / nr) else ent v p 0).
    { apply H; clear H.
      - repeat split; try lia; try apply GV. intros p. destruct (Nat.leb_spec c p), (Nat.ltb_spec p (c + (0 * nr + 0))); cbn; try reflexivity; lia.
      - intros i j [c1 v1] Hi Hj (_ & _ & _ & _ & -> & G & E). pose proof (blk_le i nc nr Hi). repeat split; try lia.
        + apply G. + apply G.
        + apply set_entry_gm with (r := n) (c := 1); [exact G|lia|lia].
        + intros p. rewrite ent_set_entry, Nat.eqb_refl, andb_true_r, E.
          destruct (Nat.eqb_spec p (c + (i * nr + j))) as [->|N].
          * replace (c + (i * nr + j) - c) with (i * nr + j) by lia. destruct (divmod_unique i j nr Hj) as [-> ->].
            destruct (Nat.leb_spec c (c + (i * nr + j))), (Nat.ltb_spec (c + (i * nr + j)) (c + (i * nr + S j))); cbn; try reflexivity; lia.
          * destruct (Nat.leb_spec c p), (Nat.ltb_spec p (c + (i * nr + j))), (Nat.ltb_spec p (c + (i * nr + S j))); cbn; try reflexivity; lia.
      - intros i [c1 v1] Hi (_ & _ & _ & _ & -> & G & E). refine (conj _ (conj _ (conj _ (conj _ (conj _ (conj G _)))))); try lia.
        intros p. rewrite E. replace (S i * nr + 0) with (i * nr + nr) by lia. reflexivity. }
    rewrite !Nat.add_0_r in P. exact P.
  Qed.
End Rep.
