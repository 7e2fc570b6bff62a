(** Determinism: the data handed to the solver are a function of the configuration only - not of the
    history that produced it and not of the contents of uninitialised storage. No scalar laws. *)
From Coq Require Import Bool Arith ZArith List Lia.
From Verif Require Import Scalar Sums Mat Slice Csc CscProof Builder BuilderEnt LMPC SpecLMPC SpecQP LMPCRef LQP.
Import ListNotations.

(** same sizes, same entries in range *)
Definition meq {T} (M M' : mat T) (r c : nat) : Prop :=
  sized M r c /\ sized M' r c /\ forall i j, i < r -> j < c -> ent M i j = ent M' i j.

Section MEQ.
  Context {T : Type}.
  Implicit Types M B : mat T.
  Lemma meq_eq M M' r c r' c' : meq M M' r c -> r = r' -> c = c' -> meq M M' r' c'.
  Proof. now intros H -> ->. Qed.
  Lemma meq_set_block M M' R C r c h w B B' : meq M M' R C -> meq B B' h w ->
    meq (set_block M r c h w B) (set_block M' r c h w B') R C.
  Proof.
    intros ((A1 & A2) & (A3 & A4) & A5) (B1 & B2 & B3). split; [split; assumption|]. split; [split; assumption|].
    intros i j Hi Hj. cbn [set_block ent]. destruct (in_rng r h i) eqn:E1; cbn [andb]; [|auto].
    destruct (in_rng c w j) eqn:E2; cbn [andb]; [|auto]. apply in_rng_true in E1, E2. apply B3; lia.
  Qed.
  Lemma meq_block M M' R C r c h w : meq M M' R C -> r + h <= R -> c + w <= C ->
    meq (block M r c h w) (block M' r c h w) h w.
  Proof. intros (A1 & A2 & A3) H1 H2. split; [split; reflexivity|]. split; [split; reflexivity|].
    intros i j Hi Hj. cbn. apply A3; lia. Qed.
  Lemma meq_mcol M M' R C j : meq M M' R C -> j < C -> meq (mcol M j) (mcol M' j) R 1.
  Proof. intros H Hj. unfold mcol. rewrite (proj1 (proj1 H)), (proj1 (proj1 (proj2 H))).
    eapply meq_block; [exact H|lia|lia]. Qed.
  Lemma meq_set_mcol M M' R C j V V' : meq M M' R C -> meq V V' R 1 -> meq (set_mcol M j V) (set_mcol M' j V') R C.
  Proof. intros H HV. unfold set_mcol. rewrite (proj1 (proj1 H)), (proj1 (proj1 (proj2 H))). now apply meq_set_block. Qed.
  Lemma meq_middle M M' R C r h : meq M M' R C -> r + h <= R -> meq (middle_rows M r h) (middle_rows M' r h) h C.
  Proof. intros H Hj. unfold middle_rows. rewrite (proj2 (proj1 H)), (proj2 (proj1 (proj2 H))).
    eapply meq_block; [exact H|lia|lia]. Qed.
  Lemma meq_set_middle M M' R C r h B B' : meq M M' R C -> meq B B' h C ->
    meq (set_middle_rows M r h B) (set_middle_rows M' r h B') R C.
  Proof. intros H HB. unfold set_middle_rows. rewrite (proj2 (proj1 H)), (proj2 (proj1 (proj2 H))).
    now apply meq_set_block. Qed.
  Lemma meq_trans_ M M' R C : meq M M' R C -> meq (mtrans M) (mtrans M') C R.
  Proof. intros ((A1 & A2) & (A3 & A4) & A5). split; [split; assumption|]. split; [split; assumption|].
    intros i j Hi Hj. cbn. now apply A5. Qed.
  Lemma meq_vcat A A' B B' a b C : meq A A' a C -> meq B B' b C -> meq (vcat A B) (vcat A' B') (a + b) C.
  Proof. intros ((A1 & A2) & (A3 & A4) & A5) ((B1 & B2) & (B3 & B4) & B5).
    split; [split; cbn; congruence|]. split; [split; cbn; congruence|].
    intros i j Hi Hj. cbn [vcat ent]. rewrite A1, A3. destruct (Nat.ltb_spec i a); [apply A5|apply B5]; lia. Qed.
  Lemma meq_flat M M' R C : meq M M' R C -> meq (mflat M) (mflat M') (R * C) 1.
  Proof. intros ((A1 & A2) & (A3 & A4) & A5). split; [split; cbn; congruence|]. split; [split; cbn; congruence|].
    intros i j Hi Hj. cbn [mflat ent]. rewrite A1, A3. assert (R <> 0) by (intros ->; cbn in Hi; lia). apply A5.
    - now apply Nat.mod_upper_bound.
    - apply Nat.div_lt_upper_bound; assumption.
  Qed.
  Lemma meq_const r c (v : T) : meq (mconst r c v) (mconst r c v) r c. Proof. repeat split. Qed.
  Lemma meq_loop n (b b' : nat -> mat T -> mat T) M M' r c :
    meq M M' r c -> (forall i M M', i < n -> meq M M' r c -> meq (b i M) (b' i M') r c) -> meq (loop n b M) (loop n b' M') r c.
  Proof. intros HM. induction n as [|n IH]; intros Hb; cbn [loop]; [exact HM|]. apply Hb; [lia|]. apply IH.
    intros i N N' Hi. apply Hb. lia. Qed.
  Lemma meq_sized2 M M' r c : meq M M' r c -> mrows M = mrows M' /\ mcols M = mcols M'.
  Proof. intros ((A1 & A2) & (A3 & A4) & _). split; congruence. Qed.
End MEQ.
Section MEQN.
  Context {F} {SO : ScalarOps F}.
  Implicit Types A B : mat F.
  Lemma meq_zero r c : meq (mzero r c : mat F) (mzero r c) r c. Proof. repeat split. Qed.
  Lemma meq_ident r c : meq (mident r c : mat F) (mident r c) r c. Proof. repeat split. Qed.
  Lemma meq_mul A A' B B' r k c : meq A A' r k -> meq B B' k c -> meq (mmul A B) (mmul A' B') r c.
  Proof. intros ((A1 & A2) & (A3 & A4) & A5) ((B1 & B2) & (B3 & B4) & B5).
    split; [split; cbn; congruence|]. split; [split; cbn; congruence|].
    intros i j Hi Hj. cbn [mmul ent]. rewrite A2, A4. apply ssum_ext. intros l Hl. f_equal; [apply A5|apply B5]; lia. Qed.
  Lemma meq_add A A' B B' r c : meq A A' r c -> meq B B' r c -> meq (madd A B) (madd A' B') r c.
  Proof. intros ((A1 & A2) & (A3 & A4) & A5) ((B1 & B2) & (B3 & B4) & B5).
    split; [split; cbn; congruence|]. split; [split; cbn; congruence|].
    intros i j Hi Hj. cbn [madd ent]. f_equal; [apply A5|apply B5]; lia. Qed.
  Lemma meq_opp A A' r c : meq A A' r c -> meq (mopp A) (mopp A') r c.
  Proof. intros (A1 & A2 & A3). split; [exact A1|]. split; [exact A2|]. intros i j Hi Hj. cbn. f_equal. now apply A3. Qed.
  Lemma meq_diag A A' r : meq A A' r 1 -> meq (mdiag A) (mdiag A') r r.
  Proof. intros ((A1 & A2) & (A3 & A4) & A5). split; [split; assumption|]. split; [split; assumption|].
    intros i j Hi Hj. cbn. destruct (i =? j); [apply A5; lia|reflexivity]. Qed.
  Lemma meq_kron A A' B B' a b a' b' : meq A A' a b -> meq B B' a' b' -> meq (mkron A B) (mkron A' B') (a * a') (b * b').
  Proof. intros ((A1 & A2) & (A3 & A4) & A5) ((B1 & B2) & (B3 & B4) & B5).
    split; [split; cbn; congruence|]. split; [split; cbn; congruence|].
    intros i j Hi Hj. cbn [mkron ent]. rewrite B1, B2, B3, B4.
    assert (a' <> 0) by (intros ->; lia). assert (b' <> 0) by (intros ->; lia).
    f_equal; [apply A5|apply B5]; try (apply Nat.mod_upper_bound; assumption).
    - apply Nat.div_lt_upper_bound; [assumption|lia].
    - apply Nat.div_lt_upper_bound; [assumption|lia]. Qed.
  Lemma meq_eadd (A A' : mat (ext F)) B B' r c : meq A A' r c -> meq B B' r c -> meq (meadd A B) (meadd A' B') r c.
  Proof. intros ((A1 & A2) & (A3 & A4) & A5) ((B1 & B2) & (B3 & B4) & B5).
    split; [split; cbn; congruence|]. split; [split; cbn; congruence|].
    intros i j Hi Hj. cbn [meadd ent]. f_equal; [apply A5|apply B5]; lia. Qed.
  Lemma meq_fin A A' r c : meq A A' r c -> meq (mfin A) (mfin A') r c.
  Proof. intros (A1 & A2 & A3). split; [exact A1|]. split; [exact A2|]. intros i j Hi Hj. cbn. f_equal. now apply A3. Qed.
End MEQN.

Ltac sdq := first [reflexivity | lia].
Ltac mqt :=
  lazymatch goal with
  | |- meq (set_block _ _ _ _ _ _) _ _ _ => apply meq_set_block; [mqt|mqt]
  | |- meq (set_mcol _ _ _) _ _ _ => apply meq_set_mcol; [mqt|mqt]
  | |- meq (set_middle_rows _ _ _ _) _ _ _ => apply meq_set_middle; [mqt|mqt]
  | |- meq (if ?b then _ else _) _ _ _ => destruct b eqn:?; mqt
  | |- meq (block _ _ _ _ _) _ _ _ => eapply meq_eq; [eapply meq_block; [mqt|try lia|try lia]|sdq|sdq]
  | |- meq (mcol _ _) _ _ _ => eapply meq_eq; [eapply meq_mcol; [mqt|try lia]|sdq|sdq]
  | |- meq (middle_rows _ _ _) _ _ _ => eapply meq_eq; [eapply meq_middle; [mqt|try lia]|sdq|sdq]
  | |- meq (mtrans _) _ _ _ => eapply meq_eq; [eapply meq_trans_; mqt|sdq|sdq]
  | |- meq (vcat _ _) _ _ _ => eapply meq_eq; [eapply meq_vcat; mqt|sdq|sdq]
  | |- meq (mflat _) _ _ _ => eapply meq_eq; [eapply meq_flat; mqt|sdq|sdq]
  | |- meq (mconst _ _ _) _ _ _ => eapply meq_eq; [eapply meq_const|sdq|sdq]
  | |- meq (mzero _ _) _ _ _ => eapply meq_eq; [eapply meq_zero|sdq|sdq]
  | |- meq (mident _ _) _ _ _ => eapply meq_eq; [eapply meq_ident|sdq|sdq]
  | |- meq (mmul _ _) _ _ _ => eapply meq_eq; [eapply meq_mul; mqt|sdq|sdq]
  | |- meq (madd _ _) _ _ _ => eapply meq_eq; [eapply meq_add; mqt|sdq|sdq]
  | |- meq (mopp _) _ _ _ => apply meq_opp; mqt
  | |- meq (mdiag _) _ _ _ => eapply meq_eq; [eapply meq_diag; mqt|sdq|sdq]
  | |- meq (mkron _ _) _ _ _ => eapply meq_eq; [eapply meq_kron; mqt|sdq|sdq]
  | |- meq (meadd _ _) _ _ _ => apply meq_eadd; mqt
  | |- meq (mfin _) _ _ _ => apply meq_fin; mqt
  | |- _ => first [eassumption | eapply meq_eq; [eassumption|sdq|sdq]]
  end.

Section Det.
  Context {F : Type} {SO : ScalarOps F}.
  Variables (junk junk' : nat -> nat -> F) (ejunk ejunk' : nat -> nat -> ext F).
  Variable d : dims.
  Notation nx := (d_nx d). Notation nu := (d_nu d). Notation ndu := (d_ndu d).
  Notation ny := (d_ny d). Notation ph := (d_ph d). Notation ch := (d_ch d).
  Notation w := (nu + nx).
  Notation N1 := ((ph + 1) * (nu + nx)).
  Hypothesis ph_pos : 0 < ph.

  Record sse (ss ss' : ssys F) : Prop := {
    se_A : meq (ssA ss) (ssA ss') w w; se_B : meq (ssB ss) (ssB ss') w nu;
    se_C : meq (ssC ss) (ssC ss') (nu + ny) w;
    se_Bv : meq (ssBv ss) (ssBv ss') w ndu; se_Dv : meq (ssDv ss) (ssDv ss') (nu + ny) ndu }.
  Record we (v v' : weights F) : Prop := {
    se_O : meq (wOutput v) (wOutput v') ny (ph + 1); se_U : meq (wU v) (wU v') nu (ph + 1);
    se_DU : meq (wDeltaU v) (wDeltaU v') nu ph }.
  Record lime (l l' : limits F) : Prop := {
    se_mnX : meq (minX l) (minX l') nx (ph + 1); se_mxX : meq (maxX l) (maxX l') nx (ph + 1);
    se_mnY : meq (minY l) (minY l') ny (ph + 1); se_mxY : meq (maxY l) (maxY l') ny (ph + 1);
    se_mnU : meq (minU l) (minU l') nu ph; se_mxU : meq (maxU l) (maxU l') nu ph;
    se_sMn : meq (sMin l) (sMin l') (ph + 1) 1; se_sMx : meq (sMax l) (sMax l') (ph + 1) 1 }.

  Lemma split_lt (P : nat -> Prop) n m : (forall i, i < n -> P i) -> (forall i, i < m -> P (n + i)) ->
    forall i, i < n + m -> P i.
  Proof. intros H1 H2 i Hi. destruct (Nat.lt_ge_cases i n); [auto|]. replace i with (n + (i - n)) by lia. apply H2. lia. Qed.
  Lemma split4 {T} (M M' : mat T) a b a' b' :
    sized M (a + b) (a' + b') -> sized M' (a + b) (a' + b') ->
    (forall i j, i < a -> j < a' -> ent M i j = ent M' i j) ->
    (forall i j, i < a -> j < b' -> ent M i (a' + j) = ent M' i (a' + j)) ->
    (forall i j, i < b -> j < a' -> ent M (a + i) j = ent M' (a + i) j) ->
    (forall i j, i < b -> j < b' -> ent M (a + i) (a' + j) = ent M' (a + i) (a' + j)) ->
    meq M M' (a + b) (a' + b').
  Proof.
    intros S1 S2 H1 H2 H3 H4. split; [exact S1|]. split; [exact S2|]. intros i j Hi Hj. revert j Hj.
    revert i Hi. apply (split_lt (fun i => forall j, j < a' + b' -> ent M i j = ent M' i j)).
    - intros i Hi. apply split_lt; auto.
    - intros i Hi. apply split_lt; auto.
  Qed.

  Lemma plant_sse ss ss' op : ss_sized d ss -> ss_sized d ss' -> Rplant d ss op -> Rplant d ss' op ->
    RCzero d ss -> RCzero d ss' ->
    meq (ssA ss) (ssA ss') w w /\ meq (ssB ss) (ssB ss') w nu /\ meq (ssC ss) (ssC ss') (nu + ny) w.
  Proof.
    intros (S1 & S2 & S3 & _) (T1 & T2 & T3 & _) P P' [Z1 Z2] [Z1' Z2']. destruct op as [p|]; cbn [Rplant] in *.
    - destruct P as (A1 & A2 & A3 & A4 & A5 & A6 & A7 & A8 & A9 & A10).
      destruct P' as (B1 & B2 & B3 & B4 & B5 & B6 & B7 & B8 & B9 & B10).
      split; [|split].
      + eapply meq_eq; [eapply (split4 _ _ nx nu nx nu)|lia|lia].
        * replace (nx + nu) with (nu + nx) by lia; assumption.
        * replace (nx + nu) with (nu + nx) by lia; assumption.
        * intros; rewrite A1, B1 by assumption; reflexivity.
        * intros; rewrite A2, B2 by assumption; reflexivity.
        * intros; rewrite A3, B3 by assumption; reflexivity.
        * intros; rewrite A4, B4 by assumption; reflexivity.
      + eapply meq_eq; [eapply (split4 _ _ nx nu nu 0)|lia|lia].
        * replace (nx + nu) with (nu + nx) by lia. rewrite Nat.add_0_r; assumption.
        * replace (nx + nu) with (nu + nx) by lia. rewrite Nat.add_0_r; assumption.
        * intros; rewrite A5, B5 by assumption; reflexivity.
        * intros; lia.
        * intros; rewrite A6, B6 by assumption; reflexivity.
        * intros; lia.
      + eapply meq_eq; [eapply (split4 _ _ ny nu nx nu)|lia|lia].
        * replace (nx + nu) with (nu + nx) by lia. replace (ny + nu) with (nu + ny) by lia; assumption.
        * replace (nx + nu) with (nu + nx) by lia. replace (ny + nu) with (nu + ny) by lia; assumption.
        * intros; rewrite A7, B7 by assumption; reflexivity.
        * intros; rewrite A8, B8 by assumption; reflexivity.
        * intros; rewrite A9, B9 by assumption; reflexivity.
        * intros; rewrite A10, B10 by assumption; reflexivity.
    - destruct P as (A1 & A2 & A3), P' as (B1 & B2 & B3).
      split; [|split]; (split; [assumption|]); (split; [assumption|]); intros; rewrite ?A1, ?A2, ?A3, ?B1, ?B2, ?B3; reflexivity.
  Qed.
  Lemma Rplant_same ss a b : Rplant d ss b -> same_plant d a b -> Rplant d ss a.
  Proof.
    unfold same_plant, Rplant. destruct a as [p|], b as [p'|]; try contradiction; [|tauto].
    intros (A1 & A2 & A3 & A4 & A5 & A6 & A7 & A8 & A9 & A10) (E1 & E2 & E3).
    repeat (apply conj; [intros; first [rewrite E1 by assumption; now apply A1|rewrite E2 by assumption; now apply A2
        |rewrite E2 by assumption; now apply A5|rewrite E3 by assumption; now apply A7|auto]|]). auto.
  Qed.
  Lemma R_sse b b' c c' : Rb junk ejunk d b c -> Rb junk' ejunk' d b' c' -> same_model d c c' -> sse (b_ss b) (b_ss b').
  Proof.
    intros [S1 _ P1 Z1 D1 _ _] [S2 _ P2 Z2 D2 _ _] (ce_p & ce_bd & ce_dd).
    apply (Rplant_same _ _ _ P2) in ce_p. clear P2. rename ce_p into P2. destruct (plant_sse _ _ _ (bs_ss _ _ S1) (bs_ss _ _ S2) P1 P2 Z1 Z2) as (H1 & H2 & H3).
    destruct (bs_ss _ _ S1) as (_ & _ & _ & V1 & V2), (bs_ss _ _ S2) as (_ & _ & _ & W1 & W2).
    destruct D1 as (D1 & D2' & D3 & D4), D2 as (E1 & E2 & E3 & E4).
    split; try assumption.
    - eapply meq_eq; [eapply (split4 _ _ nx nu ndu 0)|lia|lia]; rewrite ?Nat.add_0_r; try (rewrite (Nat.add_comm nx nu); assumption);
        try (intros; lia); intros; [rewrite D1, E1 by assumption; now apply ce_bd|rewrite D2', E2 by assumption; reflexivity].
    - eapply meq_eq; [eapply (split4 _ _ ny nu ndu 0)|lia|lia]; rewrite ?Nat.add_0_r; try (rewrite (Nat.add_comm ny nu); assumption);
        try (intros; lia); intros; [rewrite D3, E3 by assumption; now apply ce_dd|rewrite D4, E4 by assumption; reflexivity].
  Qed.
  Lemma steps1_meq {T} (M M' : mat T) n f f' : sized M n (ph + 1) -> sized M' n (ph + 1) ->
    steps1 d M n f -> steps1 d M' n f' -> eqm ph n f f' -> meq M M' n (ph + 1).
  Proof. intros S1 S2 H1 H2 E. split; [exact S1|]. split; [exact S2|]. intros i j Hi Hj.
    rewrite H1, H2 by assumption. apply E; [unfold stp; lia|assumption]. Qed.
  Lemma steps0_meq {T} (M M' : mat T) n f f' : sized M n ph -> sized M' n ph ->
    steps0 d M n f -> steps0 d M' n f' -> eqm ph n f f' -> meq M M' n ph.
  Proof. intros S1 S2 H1 H2 E. split; [exact S1|]. split; [exact S2|]. intros i j Hi Hj.
    rewrite H1, H2 by assumption. now apply E. Qed.
  Lemma R_we b b' c c' : Rb junk ejunk d b c -> Rb junk' ejunk' d b' c' -> same_weights d c c' -> we (b_w b) (b_w b').
  Proof.
    intros [S1 _ _ _ _ (A1 & A2 & A3) _] [S2 _ _ _ _ (B1 & B2 & B3) _] (E1 & E2 & E3).
    destruct (bs_w _ _ S1) as (V1 & V2 & V3), (bs_w _ _ S2) as (W1 & W2 & W3).
    split; eauto using steps1_meq, steps0_meq.
  Qed.
  Lemma R_mult b b' c c' : Rb junk ejunk d b c -> Rb junk' ejunk' d b' c' -> same_mult d c c' ->
    meq (sMultiplier (b_lim b)) (sMultiplier (b_lim b')) (ph + 1) N1.
  Proof.
    intros [S1 _ _ _ _ _ (A1 & A2 & A3 & A4 & A5 & A6 & A7 & A8 & A9)] [S2 _ _ _ _ _ (B1 & B2 & B3 & B4 & B5 & B6 & B7 & B8 & B9)] (EX & EU).
    destruct (bs_lim _ _ S1) as (V1 & V2 & V3 & V4 & V5 & V6 & V7 & V8 & V9), (bs_lim _ _ S2) as (W1 & W2 & W3 & W4 & W5 & W6 & W7 & W8 & W9).
    split; [assumption|]. split; [assumption|]. intros i j Hi Hj.
    assert (w <> 0) by (intros E; rewrite E, Nat.mul_0_r in Hj; lia).
    rewrite (Nat.div_mod j w) by assumption. rewrite Nat.mul_comm.
    assert (j mod w < w) by (now apply Nat.mod_upper_bound). assert (j / w < ph + 1) by (apply Nat.div_lt_upper_bound; [assumption|lia]).
    rewrite A9, B9 by assumption. destruct (i =? j / w); [|reflexivity].
    destruct (Nat.ltb_spec (j mod w) nx); [now apply EX|apply EU; lia].
  Qed.
  Lemma R_lime b b' c c' : Rb junk ejunk d b c -> Rb junk' ejunk' d b' c' ->
    same_xb d c c' -> same_yb d c c' -> same_ub d c c' -> same_sb d c c' -> lime (b_lim b) (b_lim b').
  Proof.
    intros [S1 _ _ _ _ _ (A1 & A2 & A3 & A4 & A5 & A6 & A7 & A8 & A9)] [S2 _ _ _ _ _ (B1 & B2 & B3 & B4 & B5 & B6 & B7 & B8 & B9)]
      (E1 & E2) (E3 & E4) (E5 & E6) (E7 & E8).
    destruct (bs_lim _ _ S1) as (V1 & V2 & V3 & V4 & V5 & V6 & V7 & V8 & V9), (bs_lim _ _ S2) as (W1 & W2 & W3 & W4 & W5 & W6 & W7 & W8 & W9).
    split; eauto using steps1_meq, steps0_meq.
    - split; [assumption|]. split; [assumption|]. intros i j Hi Hj. replace j with 0 by lia. rewrite A7, B7 by assumption.
      apply E7. unfold stp. lia.
    - split; [assumption|]. split; [assumption|]. intros i j Hi Hj. replace j with 0 by lia. rewrite A8, B8 by assumption.
      apply E8. unfold stp. lia.
  Qed.

  Lemma build_P_meq ss ss' v v' : sse ss ss' -> we v v' -> meq (build_P d ss v) (build_P d ss' v') (n_var d) (n_var d).
  Proof.
    intros [] []. unfold build_P.
    assert (G : forall k, k <= ph + 1 ->
      meq (fst (loop k (build_P_body d ss v) (mzero (nu + ny) (nu + ny), mzero (n_var d) (n_var d))))
          (fst (loop k (build_P_body d ss' v') (mzero (nu + ny) (nu + ny), mzero (n_var d) (n_var d)))) (nu + ny) (nu + ny) /\
      meq (snd (loop k (build_P_body d ss v) (mzero (nu + ny) (nu + ny), mzero (n_var d) (n_var d))))
          (snd (loop k (build_P_body d ss' v') (mzero (nu + ny) (nu + ny), mzero (n_var d) (n_var d)))) (n_var d) (n_var d)).
    { induction k as [|k IH]; intros Hk; [cbn [loop fst snd]; split; mqt|]. cbn [loop].
      destruct (IH ltac:(lia)) as [I1 I2]. destruct (loop k (build_P_body d ss v) _) as [wE P], (loop k (build_P_body d ss' v') _) as [wE' P'].
      cbn [fst snd] in *. unfold build_P_body. cbn [fst snd].
      assert (meq (set_block (set_block wE 0 0 ny ny (mdiag (mcol (wOutput v) k))) ny ny nu nu (mdiag (mcol (wU v) k)))
               (set_block (set_block wE' 0 0 ny ny (mdiag (mcol (wOutput v') k))) ny ny nu nu (mdiag (mcol (wU v') k)))
                (nu + ny) (nu + ny)) by mqt.
      split; [assumption|]. destruct (Nat.ltb_spec k ph); mqt. }
    apply (G (ph + 1)). lia.
  Qed.
  Lemma build_Aeq_meq ss ss' : sse ss ss' -> meq (build_Aeq junk d ss) (build_Aeq junk' d ss') N1 (N1 + ph * nu).
  Proof.
    intros []. split; [split; reflexivity|]. split; [split; reflexivity|]. intros i j Hi Hj. unfold build_Aeq.
    set (Q := madd (mkron _ _) (mkron _ (ssA ss))). set (Q' := madd (mkron _ _) (mkron _ (ssA ss'))).
    assert (HQ : meq Q Q' N1 N1) by (unfold Q, Q'; mqt).
    set (V := mkron _ (ssB ss)). set (V' := mkron _ (ssB ss')).
    assert (HV : meq V V' N1 (ph * nu)) by (unfold V, V'; mqt). clearbody Q Q' V V'.
    destruct (Nat.lt_ge_cases j N1).
    - repeat sb. rewrite !Nat.sub_0_r. now apply HQ.
    - repeat sb. apply HV; lia.
  Qed.
  Lemma build_A_meq ss ss' l l' : sse ss ss' -> meq (sMultiplier l) (sMultiplier l') (ph + 1) N1 -> meq (build_A junk d ss l) (build_A junk' d ss' l') (n_con d) (n_var d).
  Proof.
    intros H1 H2. unfold build_A. pose proof (build_Aeq_meq ss ss' H1) as H3.
    assert (meq (build_Aineq d ss l) (build_Aineq d ss' l') (n_ineq d) (N1 + ph * nu)).
    { destruct H1. unfold build_Aineq. change (N1 + ph * nu) with (n_var d). mqt. }
    mqt.
  Qed.

  (** [build_ineq] overwrites everything *)
  Lemma ineq_meq free bX bX' bU bU' bY bY' bS bS' v v' : ineq_ent d free bX bU bY bS v -> ineq_ent d free bX' bU' bY' bS' v' ->
    meq bX bX' nx (ph + 1) -> meq bU bU' nu ph -> meq bY bY' ny (ph + 1) -> meq bS bS' (ph + 1) 1 ->
    meq v v' (n_ineq d) 1.
  Proof.
    intros [] [] (_ & _ & EX) (_ & _ & EU) (_ & _ & EY) (_ & _ & ES).
    split; [assumption|]. split; [assumption|]. intros r j Hr Hj. replace j with 0 by lia.
    pose proof (row_groups d ph_pos (fun q => N1 <= q -> ent v (q - N1) 0 = ent v' (q - N1) 0)) as G.
    destruct G as [_ G]. replace r with (N1 + r - N1) by lia. apply G; [|unfold n_con, n_eq; lia|lia]. clear G.
    assert (AS : forall q, N1 + q - N1 = q) by (intros; lia).
    repeat split; intros; rewrite ?AS.
    - pose proof (blk_lt 0 (ph + 1) w a ltac:(lia) ltac:(lia)). lia.
    - pose proof (blk_lt 0 (ph + 1) w (nx + a) ltac:(lia) ltac:(lia)). lia.
    - pose proof (blk_lt (S i) (ph + 1) w a ltac:(lia) ltac:(lia)). lia.
    - pose proof (blk_lt (S i) (ph + 1) w (nx + a) ltac:(lia) ltac:(lia)). lia.
    - rewrite ie_x, ie_x0 by lia. apply EX; lia.
    - rewrite ie_u, ie_u0 by lia. apply EU; [lia|]. destruct (Nat.eqb_spec i ph); lia.
    - rewrite ie_y, ie_y0 by lia. apply EY; lia.
    - rewrite ie_du, ie_du0 by lia. reflexivity.
    - rewrite ie_s, ie_s0 by lia. apply ES; lia.
  Qed.

  Lemma get_body_meq ss ss' ww ww' yR yR' uR uR' duR duR' um um' : sse ss ss' -> we ww ww' ->
    meq yR yR' ny ph -> meq uR uR' nu ph -> meq duR duR' nu ph -> meq um um' ndu ph ->
    forall k q0 l0 o0 q0' l0' o0', meq q0 q0' (n_var d) 1 -> meq l0 l0' (n_eq d) 1 -> meq o0 o0' (n_ineq d) 1 -> k <= ph + 1 ->
    let st := loop k (get_body d ss ww yR uR duR um) (mzero (ny + nu) (ny + nu), q0, l0, o0) in
    let st' := loop k (get_body d ss' ww' yR' uR' duR' um') (mzero (ny + nu) (ny + nu), q0', l0', o0') in
    meq (fst (fst (fst st))) (fst (fst (fst st'))) (ny + nu) (ny + nu) /\ meq (snd (fst (fst st))) (snd (fst (fst st'))) (n_var d) 1 /\
    meq (snd (fst st)) (snd (fst st')) (n_eq d) 1 /\ meq (snd st) (snd st') (n_ineq d) 1.
  Proof.
    intros [] [] HY HU HDU HM k q0 l0 o0 q0' l0' o0' Q0 L0 O0. induction k as [|k IH]; intros Hk; cbn zeta.
    - cbn [loop fst snd]. split; [mqt|]. split; [assumption|]. split; assumption.
    - cbn [loop]. specialize (IH ltac:(lia)). cbn zeta in IH.
      destruct (loop k (get_body d ss ww yR uR duR um) _) as [[[wE q] leq] off],
        (loop k (get_body d ss' ww' yR' uR' duR' um') _) as [[[wE' q'] leq'] off'].
      cbn [fst snd] in IH. destruct IH as (I1 & I2 & I3 & I4).
      unfold get_body. cbn [fst snd].
      set (c := if k =? 0 then 0 else k - 1).
      assert (Hc : c < ph) by (unfold c; destruct (Nat.eqb_spec k 0); lia).
      set (wF := set_block (set_block wE _ _ _ _ _) _ _ _ _ _).
      set (wF' := set_block (set_block wE' _ _ _ _ _) _ _ _ _ _).
      assert (I1' : meq wF wF' (ny + nu) (ny + nu)) by (unfold wF, wF'; mqt).
      clearbody wF wF'.
      assert (EE : meq (madd (mopp (vcat (mcol yR c) (mcol uR c))) (mmul (ssDv ss) (mcol um c)))
                       (madd (mopp (vcat (mcol yR' c) (mcol uR' c))) (mmul (ssDv ss') (mcol um' c))) (ny + nu) 1).
      { apply meq_add; [mqt|]. eapply meq_eq; [eapply meq_mul; [eassumption|mqt]|lia|lia]. }
      assert (CW : meq (mmul (mtrans (ssC ss)) wF) (mmul (mtrans (ssC ss')) wF') (nx + nu) (ny + nu)).
      { eapply meq_eq; [eapply meq_mul; [apply meq_trans_; eassumption|eapply meq_eq; [exact I1'|lia|reflexivity]]|lia|lia]. }
      assert (Q1 : meq (mmul (mmul (mtrans (ssC ss)) wF) (madd (mopp (vcat (mcol yR c) (mcol uR c))) (mmul (ssDv ss) (mcol um c))))
                  (mmul (mmul (mtrans (ssC ss')) wF') (madd (mopp (vcat (mcol yR' c) (mcol uR' c))) (mmul (ssDv ss') (mcol um' c)))) (nx + nu) 1).
      { eapply meq_mul; eassumption. }
      split; [assumption|]. split; [|split].
      + destruct (Nat.ltb_spec k ph); mqt.
      + destruct (Nat.ltb_spec 0 k); mqt.
      + mqt.
  Qed.

  (** the right-hand sides of the equality rows and the output offsets only depend on the model and the disturbance *)
  Lemma get_leq_meq ss ss' ww ww' yR yR' uR uR' duR duR' um um' : sse ss ss' -> meq um um' ndu ph ->
    forall k wE0 wE0' q0 l0 o0 q0' l0' o0', meq l0 l0' (n_eq d) 1 -> meq o0 o0' (n_ineq d) 1 -> k <= ph + 1 ->
    let st := loop k (get_body d ss ww yR uR duR um) (wE0, q0, l0, o0) in
    let st' := loop k (get_body d ss' ww' yR' uR' duR' um') (wE0', q0', l0', o0') in
    meq (snd (fst st)) (snd (fst st')) (n_eq d) 1 /\ meq (snd st) (snd st') (n_ineq d) 1.
  Proof.
    intros [] HM k wE0 wE0' q0 l0 o0 q0' l0' o0' L0 O0. induction k as [|k IH]; intros Hk; cbn zeta.
    - cbn [loop fst snd]. split; assumption.
    - cbn [loop]. specialize (IH ltac:(lia)). cbn zeta in IH.
      destruct (loop k (get_body d ss ww yR uR duR um) _) as [[[wE q] leq] off],
        (loop k (get_body d ss' ww' yR' uR' duR' um') _) as [[[wE' q'] leq'] off'].
      cbn [fst snd] in IH. destruct IH as (I3 & I4).
      unfold get_body. cbn [fst snd].
      set (c := if k =? 0 then 0 else k - 1).
      assert (Hc : c < ph) by (unfold c; destruct (Nat.eqb_spec k 0); lia).
      split.
      + destruct (Nat.ltb_spec 0 k); mqt.
      + mqt.
  Qed.

  Lemma csc_full_meq (M M' : mat F) r c : meq M M' r c -> csc_full M = csc_full M'.
  Proof.
    intros ((A1 & A2) & (A3 & A4) & A5). unfold csc_full, sparse_view. rewrite A1, A2, A3, A4. f_equal. f_equal.
    apply map_ext_in. intros j Hj. rewrite in_seq in Hj. f_equal. apply map_ext_in. intros i Hi. rewrite in_seq in Hi.
    f_equal. apply A5; lia.
  Qed.
  Lemma csc_upper_meq (M M' : mat F) r c : meq M M' r c -> csc_upper M = csc_upper M'.
  Proof.
    intros ((A1 & A2) & (A3 & A4) & A5). unfold csc_upper. f_equal. f_equal. unfold sparse_view. rewrite A1, A2, A3, A4. f_equal.
    apply map_ext_in. intros j Hj. rewrite in_seq in Hj. f_equal. apply map_ext_in. intros i Hi. rewrite in_seq in Hi.
    f_equal. apply A5; lia.
  Qed.
  Lemma vec_list_meq {T} (M M' : mat T) r : meq M M' r 1 -> vec_list r M = vec_list r M'.
  Proof. intros (_ & _ & A). unfold vec_list. apply map_ext_in. intros j Hj. rewrite in_seq in Hj. apply A; lia. Qed.

  (** *** what each part of the problem depends on *)
  Variables (s s' : lmpc F) (c c' : cfg F) (x0 u0 x0' u0' : mat F).
  Hypothesis HR : R junk ejunk d s c.
  Hypothesis HR' : R junk' ejunk' d s' c'.
  Notation cl := (l_call d s x0 u0).
  Notation cl' := (l_call d s' x0' u0').

  Lemma l_call_sizes : cl_n cl = cl_n cl' /\ cl_m cl = cl_m cl'.
  Proof.
    pose proof (rb_built _ _ _ _ _ (r_b _ _ _ _ _ HR)) as B. pose proof (rb_built _ _ _ _ _ (r_b _ _ _ _ _ HR')) as B'.
    unfold l_call, l_built, get. cbn zeta.
    destruct (loop _ _ _) as [[[? ?] ?] ?], (loop _ _ _) as [[[? ?] ?] ?]. cbn [b_prob pP pA cl_n cl_m].
    rewrite (bt_P _ _ _ _ B), (bt_P _ _ _ _ B'), (bt_A _ _ _ _ B), (bt_A _ _ _ _ B').
    pose proof (build_P_sized d (b_ss (l_b s)) (b_w (l_b s))) as [-> _].
    pose proof (build_P_sized d (b_ss (l_b s')) (b_w (l_b s'))) as [-> _]. split; reflexivity.
  Qed.
  Theorem l_call_P : same_model d c c' -> same_weights d c c' -> cl_P cl = cl_P cl'.
  Proof.
    intros EM EW. pose proof (r_b _ _ _ _ _ HR) as B. pose proof (r_b _ _ _ _ _ HR') as B'.
    pose proof (R_sse _ _ _ _ B B' EM) as ES. pose proof (R_we _ _ _ _ B B' EW) as EWW.
    unfold l_call, l_built, get. cbn zeta.
    destruct (loop _ _ _) as [[[? ?] ?] ?], (loop _ _ _) as [[[? ?] ?] ?]. cbn [b_prob pP cl_P].
    rewrite (bt_P _ _ _ _ (rb_built _ _ _ _ _ B)), (bt_P _ _ _ _ (rb_built _ _ _ _ _ B')).
    eapply csc_upper_meq. now apply build_P_meq.
  Qed.
  Theorem l_call_A : same_model d c c' -> same_mult d c c' -> cl_A cl = cl_A cl'.
  Proof.
    intros EM EW. pose proof (r_b _ _ _ _ _ HR) as B. pose proof (r_b _ _ _ _ _ HR') as B'.
    pose proof (R_sse _ _ _ _ B B' EM) as ES. pose proof (R_mult _ _ _ _ B B' EW) as EMU.
    unfold l_call, l_built, get. cbn zeta.
    destruct (loop _ _ _) as [[[? ?] ?] ?], (loop _ _ _) as [[[? ?] ?] ?]. cbn [b_prob pA cl_A].
    rewrite (bt_A _ _ _ _ (rb_built _ _ _ _ _ B)), (bt_A _ _ _ _ (rb_built _ _ _ _ _ B')).
    eapply csc_full_meq. now apply build_A_meq.
  Qed.
  Lemma o_dist_meq : same_dist d c c' -> meq (o_dist (l_o s)) (o_dist (l_o s')) ndu ph.
  Proof.
    destruct (r_o _ _ _ _ _ HR) as [(Z1 & Z2 & Z3 & Z4) _ Oy Ou Odu Od Op], (r_o _ _ _ _ _ HR') as [(Z1' & Z2' & Z3' & Z4') _ Oy' Ou' Odu' Od' Op'].
    unfold same_dist. eauto using steps0_meq.
  Qed.
  Lemma mzero_meq (M M' : mat F) r k : sized M r k -> sized M' r k -> meq (mzero (mrows M) (mcols M) : mat F) (mzero (mrows M') (mcols M')) r k.
  Proof. intros [-> ->] [-> ->]. apply meq_zero. Qed.
  Theorem l_call_q : same_model d c c' -> same_weights d c c' -> same_refs d c c' -> same_dist d c c' -> cl_q cl = cl_q cl'.
  Proof.
    intros EM EW (E1 & E2 & E3) ED. pose proof (r_b _ _ _ _ _ HR) as B. pose proof (r_b _ _ _ _ _ HR') as B'.
    pose proof (R_sse _ _ _ _ B B' EM) as ES. pose proof (R_we _ _ _ _ B B' EW) as EWW. pose proof (o_dist_meq ED) as Ed.
    destruct (r_o _ _ _ _ _ HR) as [(Z1 & Z2 & Z3 & Z4) _ Oy Ou Odu Od Op], (r_o _ _ _ _ _ HR') as [(Z1' & Z2' & Z3' & Z4') _ Oy' Ou' Odu' Od' Op'].
    assert (Ey : meq (o_yref (l_o s)) (o_yref (l_o s')) ny ph) by eauto using steps0_meq.
    assert (Eu : meq (o_uref (l_o s)) (o_uref (l_o s')) nu ph) by eauto using steps0_meq.
    assert (Edu : meq (o_duref (l_o s)) (o_duref (l_o s')) nu ph) by eauto using steps0_meq.
    pose proof (rb_sz _ _ _ _ _ B) as SZ. pose proof (rb_sz _ _ _ _ _ B') as SZ'.
    unfold l_call, l_built, get. cbn zeta.
    pose proof (get_body_meq (b_ss (l_b s)) (b_ss (l_b s')) (b_w (l_b s)) (b_w (l_b s')) _ _ _ _ _ _ _ _ ES EWW Ey Eu Edu Ed (ph + 1)
      _ _ _ _ _ _ (mzero_meq _ _ _ _ (bs_q _ _ SZ) (bs_q _ _ SZ')) (mzero_meq _ _ _ _ (bs_leq _ _ SZ) (bs_leq _ _ SZ'))
      (mzero_meq _ _ _ _ (bs_off _ _ SZ) (bs_off _ _ SZ')) (le_n _)) as G.
    cbn zeta in G.
    destruct (loop (ph + 1) (get_body d (b_ss (l_b s)) _ _ _ _ _) _) as [[[wE q] leq] off].
    destruct (loop (ph + 1) (get_body d (b_ss (l_b s')) _ _ _ _ _) _) as [[[wE' q'] leq'] off'].
    cbn [fst snd] in G. destruct G as (_ & G2 & _). cbn [b_prob pP pq cl_q].
    rewrite (bt_P _ _ _ _ (rb_built _ _ _ _ _ B)), (bt_P _ _ _ _ (rb_built _ _ _ _ _ B')).
    pose proof (build_P_sized d (b_ss (l_b s)) (b_w (l_b s))) as [-> _].
    pose proof (build_P_sized d (b_ss (l_b s')) (b_w (l_b s'))) as [-> _]. eapply vec_list_meq; eassumption.
  Qed.
  Theorem l_call_lu : same_model d c c' -> same_dist d c c' ->
    same_xb d c c' -> same_yb d c c' -> same_ub d c c' -> same_sb d c c' ->
    meq x0 x0' nx 1 -> meq u0 u0' nu 1 -> cl_l cl = cl_l cl' /\ cl_u cl = cl_u cl'.
  Proof.
    intros EM ED EX EY EU ESB X U. pose proof (r_b _ _ _ _ _ HR) as B. pose proof (r_b _ _ _ _ _ HR') as B'.
    pose proof (R_sse _ _ _ _ B B' EM) as ES. pose proof (R_lime _ _ _ _ B B' EX EY EU ESB) as EL. pose proof (o_dist_meq ED) as Ed.
    pose proof (rb_sz _ _ _ _ _ B) as SZ. pose proof (rb_sz _ _ _ _ _ B') as SZ'.
    destruct (bs_lim _ _ SZ) as (V1 & V2 & V3 & V4 & V5 & V6 & V7 & V8 & V9).
    destruct (bs_lim _ _ SZ') as (V1' & V2' & V3' & V4' & V5' & V6' & V7' & V8' & V9').
    pose proof EL as [].
    assert (ELI : meq (b_lineq (l_b s)) (b_lineq (l_b s')) (n_ineq d) 1).
    { destruct (bt_l _ _ _ _ (rb_built _ _ _ _ _ B)) as (pr & Hpr & ->), (bt_l _ _ _ _ (rb_built _ _ _ _ _ B')) as (pr' & Hpr' & ->).
      eapply ineq_meq; [apply build_ineq_ent|apply build_ineq_ent|..]; assumption. }
    assert (EUI : meq (b_uineq (l_b s)) (b_uineq (l_b s')) (n_ineq d) 1).
    { destruct (bt_u _ _ _ _ (rb_built _ _ _ _ _ B)) as (pr & Hpr & ->), (bt_u _ _ _ _ (rb_built _ _ _ _ _ B')) as (pr' & Hpr' & ->).
      eapply ineq_meq; [apply build_ineq_ent|apply build_ineq_ent|..]; assumption. }
    unfold l_call, l_built, get. cbn zeta.
    pose proof (get_leq_meq (b_ss (l_b s)) (b_ss (l_b s')) (b_w (l_b s)) (b_w (l_b s')) (o_yref (l_o s)) (o_yref (l_o s')) (o_uref (l_o s)) (o_uref (l_o s'))
      (o_duref (l_o s)) (o_duref (l_o s')) _ _ ES Ed (ph + 1) (mzero (ny + nu) (ny + nu)) (mzero (ny + nu) (ny + nu))
      (mzero (mrows (pq (b_prob (l_b s)))) (mcols (pq (b_prob (l_b s))))) _ _ (mzero (mrows (pq (b_prob (l_b s')))) (mcols (pq (b_prob (l_b s'))))) _ _
      (mzero_meq _ _ _ _ (bs_leq _ _ SZ) (bs_leq _ _ SZ')) (mzero_meq _ _ _ _ (bs_off _ _ SZ) (bs_off _ _ SZ')) (le_n _)) as G.
    cbn zeta in G.
    destruct (loop (ph + 1) (get_body d (b_ss (l_b s)) _ _ _ _ _) _) as [[[wE q] leq] off].
    destruct (loop (ph + 1) (get_body d (b_ss (l_b s')) _ _ _ _ _) _) as [[[wE' q'] leq'] off'].
    cbn [fst snd] in G. destruct G as (G3 & G4).
    set (LL := set_middle_rows (set_middle_rows leq 0 nx (mopp x0)) nx nu (mopp u0)).
    set (LL' := set_middle_rows (set_middle_rows leq' 0 nx (mopp x0')) nx nu (mopp u0')).
    assert (EL' : meq LL LL' (n_eq d) 1) by (unfold LL, LL'; mqt).
    assert (NI : N1 + (ph + 1) * ny + ph * nu + (ph + 1) = n_ineq d) by (unfold n_ineq; lia).
    assert (Hpl : meq (set_middle_rows (set_middle_rows (mconst (mrows (pl (b_prob (l_b s)))) (mcols (pl (b_prob (l_b s)))) (Fin s0)) 0 N1 (mfin LL)) N1
        (N1 + (ph + 1) * ny + ph * nu + (ph + 1)) (meadd (b_lineq (l_b s)) off))
      (set_middle_rows (set_middle_rows (mconst (mrows (pl (b_prob (l_b s')))) (mcols (pl (b_prob (l_b s')))) (Fin s0)) 0 N1 (mfin LL')) N1
        (N1 + (ph + 1) * ny + ph * nu + (ph + 1)) (meadd (b_lineq (l_b s')) off')) (n_con d) 1).
    { destruct (bs_l _ _ SZ) as [-> ->], (bs_l _ _ SZ') as [-> ->]. rewrite NI. mqt. }
    assert (Hpu : meq (set_middle_rows (set_middle_rows (mconst (mrows (pu (b_prob (l_b s)))) (mcols (pu (b_prob (l_b s)))) (Fin s0)) 0 N1 (mfin LL)) N1
        (N1 + (ph + 1) * ny + ph * nu + (ph + 1)) (meadd (b_uineq (l_b s)) off))
      (set_middle_rows (set_middle_rows (mconst (mrows (pu (b_prob (l_b s')))) (mcols (pu (b_prob (l_b s')))) (Fin s0)) 0 N1 (mfin LL')) N1
        (N1 + (ph + 1) * ny + ph * nu + (ph + 1)) (meadd (b_uineq (l_b s')) off')) (n_con d) 1).
    { destruct (bs_u _ _ SZ) as [-> ->], (bs_u _ _ SZ') as [-> ->]. rewrite NI. mqt. }
    cbn [b_prob pP pA pq pl pu cl_l cl_u].
    rewrite (bt_A _ _ _ _ (rb_built _ _ _ _ _ B)), (bt_A _ _ _ _ (rb_built _ _ _ _ _ B')).
    split; eapply vec_list_meq; eassumption.
  Qed.
  Theorem l_call_det : ceq d c c' -> meq x0 x0' nx 1 -> meq u0 u0' nu 1 -> same_problem cl cl'.
  Proof.
    intros [] X U. destruct l_call_sizes as [S1 S2]. unfold same_problem. destruct (l_call_lu ce_model ce_dist ce_xb ce_yb ce_ub ce_sb X U) as [L1 L2].
    refine (conj S1 (conj S2 (conj (l_call_P ce_model ce_w) (conj (l_call_q ce_model ce_w ce_refs ce_dist)
      (conj (l_call_A ce_model ce_mult) (conj L1 (conj L2 _))))))).
    unfold l_call. cbn. rewrite (ro_par _ _ _ (r_o _ _ _ _ _ HR)), (ro_par _ _ _ (r_o _ _ _ _ _ HR')). exact ce_par.
  Qed.
End Det.
