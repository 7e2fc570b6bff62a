(** Convexity of the configured linear optimal control problem: midpoints of admissible trajectories, strict convexity in the commands. *)
From Coq Require Import Bool Arith ZArith List Lia Ring Field.
From Verif Require Import Scalar Sums Mat Slice Builder LMPC SpecLMPC.
Import ListNotations.

Section Uniq.
  Context {F : Type} {SO : ScalarOps F} {SL : ScalarLaws F}.
  Add Field SFuq : (@s_field F SO SL).
  Notation two := (s2 : F).
  Definition mid (a b : F) : F := ((a + b) / s2)%S.
  Definition mid2 (x y : nat -> nat -> F) (i j : nat) : F := mid (x i j) (y i j).
  Local Lemma N2 : (s1 + s1)%S <> (s0 : F). Proof. exact (s2_neq_0 (F := F)). Qed.
  Ltac fld := unfold mid, s2; field; exact N2.

  Lemma two_pos : (s0 < two)%S.
  Proof. unfold s2. apply slt_add_l_nonneg; [apply s01|apply s01_lt]. Qed.
  Lemma le_half (a b : F) : (s2 * a <= s2 * b)%S -> (a <= b)%S.
  Proof.
    intros H. destruct (sle_total a b) as [A|A]; [exact A|]. pose proof (smul_le_l two _ _ (slt_le _ _ two_pos) A) as B.
    pose proof (sle_antisym _ _ H B) as E. assert (E' : a = b); [|rewrite E'; apply sle_refl].
    transitivity (s2 * a / s2)%S; [fld|]. rewrite E. fld.
  Qed.
  Lemma mid_ge (l a b : F) : (l <= a)%S -> (l <= b)%S -> (l <= mid a b)%S.
  Proof.
    intros A B. apply le_half. replace (s2 * mid a b)%S with (a + b)%S by fld. replace (s2 * l)%S with (l + l)%S by (unfold s2; ring). now apply sle_add.
  Qed.
  Lemma mid_le (u a b : F) : (a <= u)%S -> (b <= u)%S -> (mid a b <= u)%S.
  Proof.
    intros A B. apply le_half. replace (s2 * mid a b)%S with (a + b)%S by fld. replace (s2 * u)%S with (u + u)%S by (unfold s2; ring). now apply sle_add.
  Qed.
  Lemma within_mid lo hi (a b : F) : within lo hi a -> within lo hi b -> within lo hi (mid a b).
  Proof.
    intros [A1 A2] [B1 B2]. split.
    - destruct lo; cbn in *; try exact A1. now apply mid_ge.
    - destruct hi; cbn in *; try exact A2. now apply mid_le.
  Qed.
  Lemma ssum_mid n (a f g : nat -> F) : ssum n (fun l => a l * mid (f l) (g l))%S = mid (ssum n (fun l => a l * f l)%S) (ssum n (fun l => a l * g l)%S).
  Proof.
    rewrite (ssum_ext n _ (fun l => (s1 / s2) * (a l * f l + a l * g l))%S) by (intros; fld). rewrite ssum_mul_l, ssum_add. fld.
  Qed.

  (** sums of non-negative terms *)
  Lemma term_le n (f : nat -> F) k : (forall i, i < n -> (s0 <= f i)%S) -> k < n -> (f k <= ssum n f)%S.
  Proof.
    intros H. induction n as [|n IH]; intros Hk; [lia|]. cbn [ssum]. assert (H' : forall i, i < n -> (s0 <= f i)%S) by auto.
    destruct (Nat.eq_dec k n) as [->|N].
    - replace (f n) with (s0 + f n)%S at 1 by ring. apply sle_add_r. now apply ssum_nonneg.
    - apply sle_trans with (ssum n f); [apply IH; [exact H'|lia]|]. replace (ssum n f) with (ssum n f + s0)%S at 1 by ring. apply sle_add_l. auto.
  Qed.
  Lemma sum_zero_terms n (f : nat -> F) k : (forall i, i < n -> (s0 <= f i)%S) -> (ssum n f <= s0)%S -> k < n -> f k = s0.
  Proof. intros H S Hk. apply sle_antisym; [|auto]. apply sle_trans with (ssum n f); [now apply term_le|exact S]. Qed.
  Lemma sum2_zero_terms n m (f : nat -> nat -> F) i j : (forall i j, i < n -> j < m -> (s0 <= f i j)%S) ->
    (ssum n (fun i => ssum m (f i)) <= s0)%S -> i < n -> j < m -> f i j = s0.
  Proof.
    intros H S Hi Hj. assert (E : ssum m (f i) = s0).
    { apply (sum_zero_terms n (fun i => ssum m (f i))); [intros k Hk; apply ssum_nonneg; auto|exact S|exact Hi]. }
    apply (sum_zero_terms m (f i)); [auto|rewrite E; apply sle_refl|exact Hj].
  Qed.
  Lemma sum2_nonneg n m (f : nat -> nat -> F) : (forall i j, i < n -> j < m -> (s0 <= f i j)%S) -> (s0 <= ssum n (fun i => ssum m (f i)))%S.
  Proof. intros H. apply ssum_nonneg. intros i Hi. apply ssum_nonneg. auto. Qed.
  Lemma weight_zero (w a : F) : (s0 < w)%S -> (w * sq a)%S = s0 -> a = s0.
  Proof.
    intros W E. destruct (smul_integral _ _ E) as [E1|E1]; [apply slt_neq in W; congruence|]. unfold sq in E1. destruct (smul_integral _ _ E1); assumption.
  Qed.
  Lemma weight_nonneg (w a : F) : (s0 <= w)%S -> (s0 <= w * sq a)%S.
  Proof. intros W. apply smul_nonneg; [exact W|apply ssq_nonneg]. Qed.

  Variable d : dims.
  Variables (p : plant F) (c : cfg F) (x0 um : nat -> F).
  Notation nx := (d_nx d). Notation nu := (d_nu d). Notation ndu := (d_ndu d).
  Notation ny := (d_ny d). Notation ph := (d_ph d). Notation ch := (d_ch d).
  Notation adm := (admissible d p c x0 um). Notation cost := (tracking_cost d p c um).

  Lemma output_mid x x' i j : output d p c (mid2 x x') i j = mid (output d p c x i j) (output d p c x' i j).
  Proof. unfold output, mid2. rewrite ssum_mid. fld. Qed.
  Lemma ucmd_mid u u' i j : ucmd um (mid2 u u') i j = mid (ucmd um u i j) (ucmd um u' i j).
  Proof. destruct i; cbn [ucmd]; [fld|reflexivity]. Qed.
  Lemma dcmd_mid u u' i j : dcmd um (mid2 u u') i j = mid (dcmd um u i j) (dcmd um u' i j).
  Proof. unfold dcmd. rewrite ucmd_mid. unfold mid2. fld. Qed.

  (** the admissible trajectories form a convex set *)
  Lemma mid_admissible x u x' u' : adm x u -> adm x' u' -> adm (mid2 x x') (mid2 u u').
  Proof.
    intros ((A1 & A2) & A3 & A4 & A5 & A6 & A7) ((B1 & B2) & B3 & B4 & B5 & B6 & B7).
    refine (conj (conj _ _) (conj _ (conj _ (conj _ (conj _ _))))).
    - intros j Hj. unfold mid2. rewrite A1, B1 by exact Hj. fld.
    - intros k j Hk Hj. unfold mid2 at 1. rewrite A2, B2 by assumption. unfold mid2. rewrite !ssum_mid. fld.
    - intros i j Hi Hj. apply within_mid; [now apply A3|now apply B3].
    - intros i j Hi Hj. rewrite output_mid. apply within_mid; [now apply A4|now apply B4].
    - intros i j Hi Hj. rewrite ucmd_mid. apply within_mid; [now apply A5|now apply B5].
    - intros i j Hi Hi' Hj. rewrite ucmd_mid. unfold mid2. rewrite (A6 i j), (B6 i j) by assumption. reflexivity.
    - intros i Hi. specialize (A7 i Hi). specialize (B7 i Hi). pose proof (within_mid _ _ _ _ A7 B7) as M.
      replace (ssum nx (fun l => g_sX c l * mid2 x x' i l) + ssum nu (fun l => g_sU c l * ucmd um (mid2 u u') i l))%S with
        (mid (ssum nx (fun l => g_sX c l * x i l) + ssum nu (fun l => g_sU c l * ucmd um u i l)) (ssum nx (fun l => g_sX c l * x' i l) + ssum nu (fun l => g_sU c l * ucmd um u' i l)))%S; [exact M|].
      unfold mid2. rewrite ssum_mid. rewrite (ssum_ext nu (fun l => (g_sU c l * ucmd um (fun i j => mid (u i j) (u' i j)) i l)%S) (fun l => (g_sU c l * mid (ucmd um u i l) (ucmd um u' i l))%S))
        by (intros l Hl; f_equal; apply ucmd_mid). rewrite ssum_mid. fld.
  Qed.

  (** parallelogram identity *)
  Definition gap x u x' u' : F :=
    (ssum (ph + 1) (fun i => ssum ny (fun j => g_wy c (stp i) j * sq (output d p c x i j - output d p c x' i j)))
     + ssum (ph + 1) (fun i => ssum nu (fun j => g_wu c (stp i) j * sq (ucmd um u i j - ucmd um u' i j)))
     + ssum ph (fun i => ssum nu (fun j => g_wdu c i j * sq (dcmd um u i j - dcmd um u' i j))))%S.
  Lemma sum2_par n m (w a b r g : nat -> nat -> F) : (forall i j, i < n -> j < m -> g i j = mid (a i j) (b i j)) ->
    (ssum n (fun i => ssum m (fun j => w i j * sq (a i j - r i j))) + ssum n (fun i => ssum m (fun j => w i j * sq (b i j - r i j))) =
     s2 * ssum n (fun i => ssum m (fun j => w i j * sq (g i j - r i j))) + (s1 / s2) * ssum n (fun i => ssum m (fun j => w i j * sq (a i j - b i j))))%S.
  Proof.
    intros E. rewrite <- !ssum_mul_l, <- !ssum_add. apply ssum_ext. intros i Hi. rewrite <- !ssum_mul_l, <- !ssum_add. apply ssum_ext. intros j Hj.
    rewrite (E i j Hi Hj). unfold sq. fld.
  Qed.
  Lemma cost_par x u x' u' : (cost x u + cost x' u' = s2 * cost (mid2 x x') (mid2 u u') + (s1 / s2) * gap x u x' u')%S.
  Proof.
    unfold tracking_cost, gap.
    pose proof (sum2_par (ph + 1) ny (fun i j => g_wy c (stp i) j) (output d p c x) (output d p c x') (fun i j => g_yr c (stp i) j) (output d p c (mid2 x x')) (fun i j _ _ => output_mid x x' i j)) as E1.
    pose proof (sum2_par (ph + 1) nu (fun i j => g_wu c (stp i) j) (ucmd um u) (ucmd um u') (fun i j => g_ur c (stp i) j) (ucmd um (mid2 u u')) (fun i j _ _ => ucmd_mid u u' i j)) as E2.
    pose proof (sum2_par ph nu (fun i j => g_wdu c i j) (dcmd um u) (dcmd um u') (fun i j => g_dur c (stp i) j) (dcmd um (mid2 u u')) (fun i j _ _ => dcmd_mid u u' i j)) as E3.
    cbn beta in E1, E2, E3.
    transitivity ((ssum (ph + 1) (fun i => ssum ny (fun j => g_wy c (stp i) j * sq (output d p c x i j - g_yr c (stp i) j))) + ssum (ph + 1) (fun i => ssum ny (fun j => g_wy c (stp i) j * sq (output d p c x' i j - g_yr c (stp i) j))))
      + (ssum (ph + 1) (fun i => ssum nu (fun j => g_wu c (stp i) j * sq (ucmd um u i j - g_ur c (stp i) j))) + ssum (ph + 1) (fun i => ssum nu (fun j => g_wu c (stp i) j * sq (ucmd um u' i j - g_ur c (stp i) j))))
      + (ssum ph (fun i => ssum nu (fun j => g_wdu c i j * sq (dcmd um u i j - g_dur c (stp i) j))) + ssum ph (fun i => ssum nu (fun j => g_wdu c i j * sq (dcmd um u' i j - g_dur c (stp i) j)))))%S; [ring|].
    rewrite E1, E2, E3. ring.
  Qed.

  Hypothesis Wy : forall k j, k < ph -> j < ny -> (s0 <= g_wy c k j)%S.
  Hypothesis Wu : forall k j, k < ph -> j < nu -> (s0 <= g_wu c k j)%S.
  Hypothesis Wd : forall k j, k < ph -> j < nu -> (s0 <= g_wdu c k j)%S.
  Hypothesis P : 0 < ph.

  Lemma cost_nonneg x u : (s0 <= cost x u)%S.
  Proof.
    unfold tracking_cost. replace s0 with (s0 + s0 + s0 : F)%S by ring.
    apply sle_add; [apply sle_add|]; apply sum2_nonneg; intros i j Hi Hj; apply weight_nonneg; [apply Wy|apply Wu|apply Wd]; try assumption; unfold stp; lia.
  Qed.
  Lemma gap_parts x u x' u' : (gap x u x' u' <= s0)%S ->
    (forall i j, i < ph + 1 -> j < nu -> (g_wu c (stp i) j * sq (ucmd um u i j - ucmd um u' i j))%S = s0) /\
    (forall i j, i < ph -> j < nu -> (g_wdu c i j * sq (dcmd um u i j - dcmd um u' i j))%S = s0) /\
    (forall i j, i < ph + 1 -> j < ny -> (g_wy c (stp i) j * sq (output d p c x i j - output d p c x' i j))%S = s0).
  Proof.
    intros G. unfold gap in G.
    assert (NY : forall i j, i < ph + 1 -> j < ny -> (s0 <= g_wy c (stp i) j * sq (output d p c x i j - output d p c x' i j))%S) by (intros; apply weight_nonneg, Wy; [unfold stp; lia|assumption]).
    assert (NU : forall i j, i < ph + 1 -> j < nu -> (s0 <= g_wu c (stp i) j * sq (ucmd um u i j - ucmd um u' i j))%S) by (intros; apply weight_nonneg, Wu; [unfold stp; lia|assumption]).
    assert (ND : forall i j, i < ph -> j < nu -> (s0 <= g_wdu c i j * sq (dcmd um u i j - dcmd um u' i j))%S) by (intros; apply weight_nonneg, Wd; assumption).
    pose proof (sum2_nonneg _ _ _ NY) as SY. pose proof (sum2_nonneg _ _ _ NU) as SU. pose proof (sum2_nonneg _ _ _ ND) as SD.
    assert (Z : forall a b e : F, (s0 <= a)%S -> (s0 <= b)%S -> (s0 <= e)%S -> (a + b + e <= s0)%S -> (a <= s0 /\ b <= s0 /\ e <= s0)%S).
    { intros a b e Ha Hb He Hs. refine (conj _ (conj _ _)); (eapply sle_trans; [|exact Hs]).
      - replace a with (a + s0 + s0)%S at 1 by ring. apply sle_add; [apply sle_add; [apply sle_refl|exact Hb]|exact He].
      - replace b with (s0 + b + s0)%S at 1 by ring. apply sle_add; [apply sle_add; [exact Ha|apply sle_refl]|exact He].
      - replace e with (s0 + s0 + e)%S at 1 by ring. apply sle_add; [apply sle_add; [exact Ha|exact Hb]|apply sle_refl]. }
    destruct (Z _ _ _ SY SU SD G) as (Z1 & Z2 & Z3).
    refine (conj _ (conj _ _)); intros i j Hi Hj.
    - exact (sum2_zero_terms _ _ _ i j NU Z2 Hi Hj).
    - exact (sum2_zero_terms _ _ _ i j ND Z3 Hi Hj).
    - exact (sum2_zero_terms _ _ _ i j NY Z1 Hi Hj).
  Qed.

  (** two optima have no gap between them *)
  Lemma optima_gap x u x' u' : adm x u -> adm x' u' -> (cost x u <= cost (mid2 x x') (mid2 u u'))%S -> (cost x' u' <= cost (mid2 x x') (mid2 u u'))%S ->
    (gap x u x' u' <= s0)%S.
  Proof.
    intros A A' O O'. pose proof (cost_par x u x' u') as E. pose proof (sle_add _ _ _ _ O O') as L. rewrite E in L.
    set (m := cost (mid2 x x') (mid2 u u')) in *. replace (m + m)%S with (s2 * m + s0)%S in L by (unfold s2; ring).
    assert (L' : ((s1 / s2) * gap x u x' u' <= s0)%S).
    { apply (sle_add_cancel _ _ (s2 * m)%S). replace (s1 / s2 * gap x u x' u' + s2 * m)%S with (s2 * m + s1 / s2 * gap x u x' u')%S by ring. replace (s0 + s2 * m)%S with (s2 * m + s0)%S by ring. exact L. }
    pose proof (smul_le_l two _ _ (slt_le _ _ two_pos) L') as Q. replace (s2 * (s1 / s2 * gap x u x' u'))%S with (gap x u x' u') in Q by fld.
    replace (s2 * s0)%S with (s0 : F) in Q by ring. exact Q.
  Qed.

  (** every command is weighted, itself or through its increment, or frozen *)
  Hypothesis W : forall k j, k < ph -> j < nu -> (s0 < g_wu c k j)%S \/ (s0 < g_wdu c k j)%S \/ ch < k.
  Lemma gap_commands x u x' u' : frozen d um u -> frozen d um u' -> (gap x u x' u' <= s0)%S -> forall k j, k < ph -> j < nu -> u k j = u' k j.
  Proof.
    intros Fr Fr' G. destruct (gap_parts x u x' u' G) as (Gu & Gd & _). intros k. induction k as [k IH] using lt_wf_ind. intros j Hk Hj.
    assert (Prev : ucmd um u k j = ucmd um u' k j) by (destruct k as [|k]; [reflexivity|cbn; apply IH; lia]).
    destruct (W k j Hk Hj) as [H|[H|H]].
    - specialize (Gu (S k) j ltac:(lia) Hj). cbn [ucmd stp Nat.pred] in Gu. apply (weight_zero _ _ H) in Gu.
      replace (u k j) with (u k j - u' k j + u' k j)%S by ring. rewrite Gu. ring.
    - specialize (Gd k j Hk Hj). apply (weight_zero _ _ H) in Gd. unfold dcmd in Gd. rewrite Prev in Gd.
      replace (u k j) with (u k j - ucmd um u' k j - (u' k j - ucmd um u' k j) + u' k j)%S by ring. rewrite Gd. ring.
    - rewrite (Fr k j H Hk Hj), (Fr' k j H Hk Hj). exact Prev.
  Qed.
  Lemma same_states x u x' u' : trajectory d p c x0 x u -> trajectory d p c x0 x' u' -> (forall k j, k < ph -> j < nu -> u k j = u' k j) ->
    forall i j, i <= ph -> j < nx -> x i j = x' i j.
  Proof.
    intros [A1 A2] [B1 B2] E i. induction i as [|i IH]; intros j Hi Hj; [rewrite A1, B1 by exact Hj; reflexivity|].
    rewrite A2, B2 by (try exact Hj; lia). f_equal. f_equal; apply ssum_ext; intros l Hl; [rewrite IH by (try exact Hl; lia)|rewrite E by (try exact Hl; lia)]; reflexivity.
  Qed.
  Lemma optimum_unique x u x' u' : adm x u -> adm x' u' ->
    (forall y v, adm y v -> (cost x u <= cost y v)%S) -> (forall y v, adm y v -> (cost x' u' <= cost y v)%S) ->
    (forall k j, k < ph -> j < nu -> u k j = u' k j) /\ (forall i j, i <= ph -> j < nx -> x i j = x' i j).
  Proof.
    intros A A' O O'. pose proof (mid_admissible x u x' u' A A') as M.
    assert (E : forall k j, k < ph -> j < nu -> u k j = u' k j).
    { apply (gap_commands x u x' u'); [apply A|apply A'|]. apply optima_gap; auto. }
    split; [exact E|]. eapply same_states; [apply A|apply A'|exact E].
  Qed.
End Uniq.
