(** The constraint data are built without rounding: copies, negations, products with 0 or 1 and sums with 0 only. *)
From Coq Require Import Bool Arith ZArith List Lia Ring Field.
From Verif Require Import Scalar Sums Mat Slice Csc CscProof Builder BuilderEnt BuilderRows LMPC SpecLMPC SpecQP LMPCRef LQP SpecExact.
Import ListNotations.

Section Exact.
  Context {F G : Type} {SOF : ScalarOps F} {SOG : ScalarOps G} {SLG : ScalarLaws G}.
  Add Field SFx : (@s_field G SOG SLG).
  Variable val : F -> G.
  Variable good : F -> Prop.
  Hypothesis val_0 : good s0 /\ val s0 = s0.
  Hypothesis val_1 : good s1 /\ val s1 = s1.
  Hypothesis val_opp : forall x, good x -> good (sopp x) /\ val (sopp x) = sopp (val x).
  Hypothesis val_mul0 : forall x y, good x -> good y -> val x = s0 \/ val y = s0 -> good (smul x y) /\ val (smul x y) = s0.
  Hypothesis val_mul1 : forall y, good y -> good (smul s1 y) /\ val (smul s1 y) = val y.
  Hypothesis val_add0 : forall x y, good x -> good y -> val x = s0 \/ val y = s0 -> good (sadd x y) /\ val (sadd x y) = sadd (val x) (val y).
  Hypothesis val_drop : forall x, kept x = false -> val x = s0.

  Definition rel (x : F) (y : G) : Prop := good x /\ val x = y.
  Lemma rel_0 : rel s0 s0. Proof. exact val_0. Qed.
  Lemma rel_delta i j : rel (delta i j) (delta i j).
  Proof. unfold delta. destruct (i =? j); [exact val_1|exact val_0]. Qed.
  Lemma rel_opp x y : rel x y -> rel (sopp x) (sopp y).
  Proof. intros [H <-]. now apply val_opp. Qed.
  (** product with an entry of an identity-like matrix *)
  Definition rel01 (x : F) (y : G) : Prop := (x = s0 /\ y = s0) \/ (x = s1 /\ y = s1).
  Lemma rel01_delta i j : rel01 (delta i j) (delta i j).
  Proof. unfold delta. destruct (i =? j); [right|left]; auto. Qed.
  Lemma rel_mul01 x y a b : rel01 x y -> rel a b -> rel (smul x a) (smul y b).
  Proof.
    intros [[-> ->]|[-> ->]] [H <-].
    - replace (smul s0 (val a)) with (s0 : G) by ring. destruct val_0 as [G0 V0]. apply val_mul0; auto.
    - replace (smul s1 (val a)) with (val a) by ring. now apply val_mul1.
  Qed.
  Lemma rel_mul00 x a (b : G) : rel x s0 -> rel a b -> rel (smul x a) s0.
  Proof. intros [H E] [H' _]. apply val_mul0; auto. Qed.
  Lemma rel_add_l x y a : rel x y -> rel a s0 -> rel (sadd x a) y.
  Proof. intros [H <-] [H' E']. destruct (val_add0 x a H H' (or_intror E')) as [A B]. split; [exact A|]. rewrite B, E'. ring. Qed.
  Lemma rel_add_r x y a : rel x s0 -> rel a y -> rel (sadd x a) y.
  Proof. intros [H E] [H' <-]. destruct (val_add0 x a H H' (or_introl E)) as [A B]. split; [exact A|]. rewrite B, E. ring. Qed.
  Lemma rel_sum0 n (f : nat -> F) : (forall i, i < n -> rel (f i) s0) -> rel (ssum n f) s0.
  Proof. induction n as [|n IH]; intros H; cbn [ssum]; [exact rel_0|]. apply rel_add_l; [apply IH; intros; apply H; lia|apply H; lia]. Qed.

  Variable junk : nat -> nat -> F. Variable junkG : nat -> nat -> G.
  Variable ejunk : nat -> nat -> ext F. Variable ejunkG : nat -> nat -> ext G.
  Variable d : dims.
  Notation nx := (d_nx d). Notation nu := (d_nu d). Notation ndu := (d_ndu d).
  Notation ny := (d_ny d). Notation ph := (d_ph d). Notation ch := (d_ch d).
  Notation w := (nu + nx).
  Notation N1 := ((ph + 1) * (nu + nx)).

  Definition mmap {S T} (f : S -> T) (M : mat S) : mat T := mkMat (mrows M) (mcols M) (fun i j => f (ent M i j)) (mok M).
  Definition ss_map (ss : ssys F) : ssys G :=
    mkSS (mmap val (ssA ss)) (mmap val (ssB ss)) (mmap val (ssC ss)) (mmap val (ssBv ss)) (mmap val (ssDv ss)).
  Definition lim_map (l : limits F) : limits G :=
    let e := mmap (emap val) in
    mkLim (e (minX l)) (e (maxX l)) (e (minY l)) (e (maxY l)) (e (minU l)) (e (maxU l)) (e (sMin l)) (e (sMax l)) (mmap val (sMultiplier l)).
  Definition w_map (x : weights F) : weights G := mkW (mmap val (wOutput x)) (mmap val (wU x)) (mmap val (wDeltaU x)).

  Definition mgood (M : mat F) (r c : nat) : Prop := forall i j, i < r -> j < c -> good (ent M i j).
  Lemma mgood_rel M r c i j : mgood M r c -> i < r -> j < c -> rel (ent M i j) (ent (mmap val M) i j).
  Proof. intros H Hi Hj. split; [now apply H|reflexivity]. Qed.

  Lemma rel_block (A : mat F) (B : mat G) (SA : mat F) (SB : mat G) r c h k i j :
    (r <= i < r + h -> c <= j < c + k -> rel (ent SA (i - r) (j - c)) (ent SB (i - r) (j - c))) ->
    (~ (r <= i < r + h /\ c <= j < c + k) -> rel (ent A i j) (ent B i j)) ->
    rel (ent (set_block A r c h k SA) i j) (ent (set_block B r c h k SB) i j).
  Proof.
    intros H1 H2. cbn [set_block ent]. destruct (in_rng r h i && in_rng c k j) eqn:E.
    - apply andb_true_iff in E as [E1 E2]. apply in_rng_true in E1, E2. now apply H1.
    - apply H2. intros [A1 A2]. apply in_rng_true in A1, A2. rewrite A1, A2 in E. discriminate E.
  Qed.
  Lemma sub_id n k i j : (k <= i < k + n -> rel01 (delta (i - k) j) (delta (i - k) j)). Proof. intros _. apply rel01_delta. Qed.

  (** the shifted identity of the dynamics rows *)
  Definition shiftF (c : nat) : mat F := set_block (mzero (ph + 1) c) 1 0 ph ph (mident ph ph).
  Definition shiftG (c : nat) : mat G := set_block (mzero (ph + 1) c) 1 0 ph ph (mident ph ph).
  Lemma rel01_shift c i j : rel01 (ent (shiftF c) i j) (ent (shiftG c) i j).
  Proof. unfold shiftF, shiftG. cbn [set_block ent mident mzero mconst]. destruct (in_rng 1 ph i && in_rng 0 ph j); [apply rel01_delta|left; auto]. Qed.
  Lemma shift_diag c i : ent (shiftF c) i i = s0 /\ ent (shiftG c) i i = s0.
  Proof.
    unfold shiftF, shiftG. cbn [set_block ent mident mzero mconst]. destruct (in_rng 1 ph i && in_rng 0 ph i) eqn:E; [|auto].
    apply andb_true_iff in E as [E1 E2]. apply in_rng_true in E1. rewrite !delta_neq by lia. auto.
  Qed.

  Lemma build_Aeq_rel ss r k : ss_sized d ss -> mgood (ssA ss) w w -> mgood (ssB ss) w nu -> r < N1 -> k < N1 + ph * nu ->
    rel (ent (build_Aeq junk d ss) r k) (ent (build_Aeq junkG d (ss_map ss)) r k).
  Proof.
    intros (SA & SB & _) GA GB Hr Hk. unfold build_Aeq. fold (shiftF (ph + 1)). fold (shiftF ph). fold (shiftG (ph + 1)). fold (shiftG ph).
    assert (W : 0 < w) by nia.
    assert (Mw : forall x, x mod w < w) by (intros; apply Nat.mod_upper_bound; lia).
    apply rel_block.
    - intros A1 A2. assert (U0 : 0 < nu) by nia. destruct SB as [B1 B2]. cbn [mkron ent ss_map ssB mmap mrows mcols]. rewrite B1, B2.
      apply rel_mul01; [apply rel01_shift|]. apply (mgood_rel _ _ _ _ _ GB); [apply Mw|apply Nat.mod_upper_bound; lia].
    - intros A. assert (K : k < N1) by lia. apply rel_block; [|intros X; lia]. intros _ _. rewrite !Nat.sub_0_r.
      destruct SA as [A1 A2]. cbn [madd ent]. cbn [mkron ent ss_map ssA mmap mrows mcols mopp mident]. rewrite A1, A2.
      assert (R2 : rel (smul (ent (shiftF (ph + 1)) (r / w) (k / w)) (ent (ssA ss) (r mod w) (k mod w)))
                       (smul (ent (shiftG (ph + 1)) (r / w) (k / w)) (val (ent (ssA ss) (r mod w) (k mod w))))).
      { apply rel_mul01; [apply rel01_shift|]. split; [now apply GA|reflexivity]. }
      assert (R1 : rel (smul (delta (r / w) (k / w)) (sopp (delta (r mod w) (k mod w))))
                       (smul (delta (r / w) (k / w)) (sopp (delta (r mod w) (k mod w))))).
      { apply rel_mul01; [apply rel01_delta|]. apply rel_opp, rel_delta. }
      destruct (Nat.eq_dec (r / w) (k / w)) as [E|E].
      + rewrite E in R2 |- *. destruct (shift_diag (ph + 1) (k / w)) as [-> ->].
        replace (smul s0 (val (ent (ssA ss) (r mod w) (k mod w)))) with (s0 : G) by ring.
        match goal with |- rel _ (sadd ?a s0) => replace (sadd a s0) with a by ring end.
        apply rel_add_l; [rewrite E in R1; exact R1|]. apply (rel_mul00 s0 _ (val (ent (ssA ss) (r mod w) (k mod w)))); [exact rel_0|].
        split; [now apply GA|reflexivity].
      + rewrite (delta_neq (F := G) _ _ E), (delta_neq (F := F) _ _ E).
        match goal with |- rel _ (sadd ?a ?b) => replace (sadd a b) with b by ring end.
        apply rel_add_r; [|exact R2]. eapply rel_mul00; [exact rel_0|]. apply rel_opp, rel_delta.
  Qed.
  Lemma build_Aineq_rel ss lim r k : ss_sized d ss -> mgood (ssC ss) ny w -> mgood (sMultiplier lim) (ph + 1) N1 -> r < n_ineq d -> k < n_var d ->
    rel (ent (build_Aineq d ss lim) r k) (ent (build_Aineq d (ss_map ss) (lim_map lim)) r k).
  Proof.
    intros (_ & _ & SC & _) GC GM Hr Hk. unfold build_Aineq.
    apply rel_block; [intros; split; [apply GM; lia|reflexivity]|intros _].
    apply rel_block; [intros; apply rel_delta|intros _].
    apply rel_block.
    - intros A1 A2. destruct SC as [C1 C2]. cbn [mkron ent ss_map ssC mmap mrows mcols middle_rows block mident]. rewrite C2.
      assert (W : 0 < w) by nia. assert (Y : 0 < ny) by nia. rewrite !Nat.add_0_l.
      apply rel_mul01; [apply rel01_delta|]. split; [|reflexivity]. apply GC; apply Nat.mod_upper_bound; lia.
    - intros _. apply rel_block; [intros; apply rel_delta|intros _]. exact rel_0.
  Qed.
  Lemma build_A_rel ss lim r k : ss_sized d ss -> mgood (ssA ss) w w -> mgood (ssB ss) w nu -> mgood (ssC ss) ny w ->
    mgood (sMultiplier lim) (ph + 1) N1 -> r < n_con d -> k < n_var d ->
    rel (ent (build_A junk d ss lim) r k) (ent (build_A junkG d (ss_map ss) (lim_map lim)) r k).
  Proof.
    intros S GA GB GC GM Hr Hk. unfold build_A. unfold n_con, n_eq in Hr. unfold n_var in Hk. apply rel_block.
    - intros A1 A2. apply build_Aineq_rel; try assumption; unfold n_var; lia.
    - intros A. apply rel_block; [|intros B; exact rel_0]. intros B1 B2. apply build_Aeq_rel; try assumption; lia.
  Qed.

  (** *** compressed columns *)
  Lemma csc_col_map (M : csc F) j : csc_col (csc_map val M) j = map (fun e => (fst e, val (snd e))) (csc_col M j).
  Proof.
    unfold csc_col, csc_map. cbn [c_p c_i c_x]. rewrite <- firstn_map, <- skipn_map. do 2 f_equal.
    generalize (c_x M). induction (c_i M) as [|a l IH]; intros [|x xs]; cbn; [reflexivity..|]. now rewrite IH.
  Qed.
  Lemma csc_val_map (M : mat F) r j : r < mrows M -> j < mcols M -> csc_val (csc_map val (csc_full M)) r j = val (ent M r j).
  Proof.
    intros Hr Hj. unfold csc_val. rewrite csc_col_map, csc_full_col by assumption. unfold kcol, dcol.
    assert (Gn : forall n a, ~ (a <= r < a + n) -> fold_right (fun e acc => if fst e =? r then sadd (snd e) acc else acc) (s0 : G)
               (map (fun e => (fst e, val (snd e))) (filter (fun e => kept (snd e)) (map (fun i => (i, ent M i j)) (seq a n)))) = s0).
    { induction n as [|n IH]; intros a Ha; [reflexivity|]. cbn [seq map filter snd]. destruct (kept (ent M a j)); cbn [map fold_right fst snd].
      - destruct (Nat.eqb_spec a r); [lia|]. apply IH. lia.
      - apply IH. lia. }
    assert (Gr : forall n a, a <= r < a + n -> fold_right (fun e acc => if fst e =? r then sadd (snd e) acc else acc) (s0 : G)
               (map (fun e => (fst e, val (snd e))) (filter (fun e => kept (snd e)) (map (fun i => (i, ent M i j)) (seq a n)))) = val (ent M r j)).
    { induction n as [|n IH]; intros a Ha; [lia|]. cbn [seq map filter snd]. destruct (Nat.eq_dec a r) as [->|N].
      - destruct (kept (ent M r j)) eqn:K; cbn [map fold_right fst snd].
        + rewrite Nat.eqb_refl, Gn by lia. ring.
        + rewrite Gn by lia. symmetry. now apply val_drop.
      - destruct (kept (ent M a j)); cbn [map fold_right fst snd]; [|apply IH; lia].
        destruct (Nat.eqb_spec a r); [lia|]. apply IH. lia. }
    apply Gr. lia.
  Qed.

  (** *** the controller with every number read through [val] *)
  Hypothesis ph_pos : 0 < ph.
  Variables (s : lmpc F) (c : cfg F) (p : plant F) (x0 u0 : mat F).
  Hypothesis HR : R junk ejunk d s c.
  Hypothesis Hpl : g_plant c = Some p.
  Hypothesis Hx0 : sized x0 nx 1.
  Hypothesis Hu0 : sized u0 nu 1.
  Hypothesis Hg : constraints_good good d p c.
  Hypothesis Gx0 : forall j, j < nx -> good (vec x0 j).
  Hypothesis Gu0 : forall j, j < nu -> good (vec u0 j).
  (** the measured disturbance has no effect *)
  Hypothesis HBd : forall k i j, k < ph -> i < nx -> j < ndu -> val (g_Bd c i j) = s0 \/ val (g_d c k j) = s0.
  Hypothesis HDd : forall k i j, k < ph -> i < ny -> j < ndu -> val (g_Dd c i j) = s0 \/ val (g_d c k j) = s0.
  Notation bb := (l_b s).

  Definition bG : builder G :=
    build junkG ejunkG d (mkB (ss_map (b_ss bb)) (w_map (b_w bb)) (lim_map (b_lim bb))
      (mzero (n_eq d) 1) (mzero (n_eq d) 1) (mconst (n_ineq d) 1 (Fin s0)) (mconst (n_ineq d) 1 (Fin s0)) (mzero (n_ineq d) 1)
      (mkPb (mzero (n_var d) (n_var d)) (mzero (n_var d) 1) (mzero (n_con d) (n_var d)) (mconst (n_con d) 1 (Fin s0)) (mconst (n_con d) 1 (Fin s0)))).
  Definition sG : lmpc G :=
    mkL bG (mkOpt (mmap val (o_yref (l_o s))) (mmap val (o_uref (l_o s))) (mmap val (o_duref (l_o s))) (mmap val (o_dist (l_o s)))
      (mkRes 0 false (Fin s0) UNKNOWN (mzero nu 1))
      (mkSeq (mzero (ph + 1) nx) (mzero (ph + 1) ny) (mzero (ph + 1) nu)) [] [] (lp_map val (o_par (l_o s)))).

  Let RB := r_b _ _ _ _ _ HR.
  Let RO := r_o _ _ _ _ _ HR.
  Let SZ := rb_sz _ _ _ _ _ RB.
  Lemma v0 : val s0 = s0. Proof. exact (proj2 val_0). Qed.
  Lemma vdelta i j : val (delta i j) = delta i j. Proof. exact (proj2 (rel_delta i j)). Qed.
  Lemma sized_map {S T} (f : S -> T) (M : mat S) r k : sized M r k -> sized (mmap f M) r k. Proof. auto. Qed.
  Lemma steps1_map {S T} (f : S -> T) (M : mat S) n g : steps1 d M n g -> steps1 d (mmap f M) n (fun i j => f (g i j)).
  Proof. intros H i j Hi Hj. cbn [mmap ent]. now rewrite H. Qed.
  Lemma steps0_map {S T} (f : S -> T) (M : mat S) n g : steps0 d M n g -> steps0 d (mmap f M) n (fun i j => f (g i j)).
  Proof. intros H i j Hi Hj. cbn [mmap ent]. now rewrite H. Qed.

  Lemma RG : R junkG ejunkG d sG (cfg_map val c).
  Proof.
    split.
    - cbn [sG l_b]. unfold bG. apply Rb_build; cbn [b_ss b_w b_lim].
      + destruct SZ as [(S1 & S2 & S3 & S4 & S5) (W1 & W2 & W3) (L1 & L2 & L3 & L4 & L5 & L6 & L7 & L8 & L9) _ _ _ _ _ _ _ _].
        split; cbn [b_ss b_w b_lim b_leq b_ueq b_off b_lineq b_uineq b_prob pq pl pu]; try (split; reflexivity).
        * exact (conj S1 (conj S2 (conj S3 (conj S4 S5)))).
        * exact (conj W1 (conj W2 W3)).
        * exact (conj L1 (conj L2 (conj L3 (conj L4 (conj L5 (conj L6 (conj L7 (conj L8 L9)))))))).
      + pose proof (rb_plant _ _ _ _ _ RB) as H. cbn [cfg_map g_plant]. rewrite Hpl in *. cbn [option_map Rplant].
        destruct H as (A1 & A2 & A3 & A4 & B1 & B2 & C1 & C2 & C3 & C4). unfold Rplant.
        repeat (apply conj; [intros i j Hi Hj; cbn [ss_map ssA ssB ssC mmap ent plant_map pl_A pl_B pl_C];
          first [rewrite A1 by assumption|rewrite A2 by assumption|rewrite A3 by assumption|rewrite A4 by assumption|rewrite B1 by assumption|rewrite B2 by assumption
            |rewrite C1 by assumption|rewrite C2 by assumption|rewrite C3 by assumption]; solve [reflexivity|apply v0|apply vdelta]|]).
        intros i j Hi Hj. cbn [ss_map ssC mmap ent]. rewrite C4 by assumption. apply vdelta.
      + destruct (rb_C0 _ _ _ _ _ RB) as [A B]. split; intros i j Hi Hj; cbn [ss_map ssC mmap ent]; [rewrite A by assumption|rewrite B by assumption]; apply v0.
      + destruct (rb_dist _ _ _ _ _ RB) as (A & B & A' & B'). refine (conj _ (conj _ (conj _ _))); intros i j Hi Hj; cbn [ss_map ssBv ssDv mmap ent cfg_map g_Bd g_Dd].
        * now rewrite A.
        * rewrite B by assumption. apply v0.
        * now rewrite A'.
        * rewrite B' by assumption. apply v0.
      + destruct (rb_w _ _ _ _ _ RB) as (A & B & C). refine (conj _ (conj _ _)); [apply (steps1_map val _ _ _ A)|apply (steps1_map val _ _ _ B)|apply (steps0_map val _ _ _ C)].
      + destruct (rb_lim _ _ _ _ _ RB) as (L1 & L2 & L3 & L4 & L5 & L6 & L7 & L8 & L9).
        refine (conj (steps1_map _ _ _ _ L1) (conj (steps1_map _ _ _ _ L2) (conj (steps1_map _ _ _ _ L3) (conj (steps1_map _ _ _ _ L4)
          (conj (steps0_map _ _ _ _ L5) (conj (steps0_map _ _ _ _ L6) (conj _ (conj _ _)))))))).
        * intros i Hi. cbn [lim_map sMin mmap ent cfg_map g_slo]. now rewrite L7.
        * intros i Hi. cbn [lim_map sMax mmap ent cfg_map g_shi]. now rewrite L8.
        * intros i j b Hi Hj Hb. cbn [lim_map sMultiplier mmap ent cfg_map g_sX g_sU]. rewrite (L9 i j b Hi Hj Hb).
          destruct (i =? j); [destruct (b <? nx); reflexivity|apply v0].
    - destruct RO as [(A & B & C & D) _ E1 E2 E3 E4 E5].
      split; cbn [sG l_o o_yref o_uref o_duref o_dist o_seq o_res o_par q_state q_output q_input r_cmd].
      + exact (conj A (conj B (conj C D))).
      + repeat split.
      + exact (steps0_map val _ _ _ E1).
      + exact (steps0_map val _ _ _ E2).
      + exact (steps0_map val _ _ _ E3).
      + exact (steps0_map val _ _ _ E4).
      + cbn [cfg_map g_par]. now rewrite E5.
  Qed.

  Lemma g0 : good s0. Proof. exact (proj1 val_0). Qed.
  Lemma gdelta i j : good (delta i j). Proof. exact (proj1 (rel_delta i j)). Qed.
  Lemma Rpl' : Rplant d (b_ss bb) (Some p). Proof. rewrite <- Hpl. exact (rb_plant _ _ _ _ _ RB). Qed.
  Lemma good_A : mgood (ssA (b_ss bb)) w w.
  Proof.
    destruct Rpl' as (A1 & A2 & A3 & A4 & _). intros i j Hi Hj.
    destruct (Nat.lt_ge_cases i nx) as [I|I], (Nat.lt_ge_cases j nx) as [J|J].
    - rewrite A1 by assumption. now apply (cg_A _ _ _ _ Hg).
    - replace j with (nx + (j - nx)) by lia. rewrite A2 by lia. apply (cg_B _ _ _ _ Hg); lia.
    - replace i with (nx + (i - nx)) by lia. rewrite A3 by lia. exact g0.
    - replace i with (nx + (i - nx)) by lia. replace j with (nx + (j - nx)) by lia. rewrite A4 by lia. apply gdelta.
  Qed.
  Lemma good_B : mgood (ssB (b_ss bb)) w nu.
  Proof.
    destruct Rpl' as (_ & _ & _ & _ & B1 & B2 & _). intros i j Hi Hj. destruct (Nat.lt_ge_cases i nx) as [I|I].
    - rewrite B1 by assumption. now apply (cg_B _ _ _ _ Hg).
    - replace i with (nx + (i - nx)) by lia. rewrite B2 by lia. apply gdelta.
  Qed.
  Lemma good_C : mgood (ssC (b_ss bb)) ny w.
  Proof.
    destruct Rpl' as (_ & _ & _ & _ & _ & _ & C1 & C2 & _). intros i j Hi Hj. destruct (Nat.lt_ge_cases j nx) as [J|J].
    - rewrite C1 by assumption. now apply (cg_C _ _ _ _ Hg).
    - replace j with (nx + (j - nx)) by lia. rewrite C2 by lia. exact g0.
  Qed.
  Lemma good_M : mgood (sMultiplier (b_lim bb)) (ph + 1) N1.
  Proof.
    destruct (rb_lim _ _ _ _ _ RB) as (_ & _ & _ & _ & _ & _ & _ & _ & L9). intros i k Hi Hk.
    destruct (blk_split k (ph + 1) w Hk) as (j & b & Hj & Hb & ->). rewrite (L9 i j b Hi Hj Hb).
    destruct (i =? j); [|exact g0]. destruct (Nat.ltb_spec b nx); [now apply (cg_sX _ _ _ _ Hg)|apply (cg_sU _ _ _ _ Hg); lia].
  Qed.
  Lemma good_Bv : mgood (ssBv (b_ss bb)) w ndu.
  Proof.
    destruct (rb_dist _ _ _ _ _ RB) as (A & B & _). intros i j Hi Hj. destruct (Nat.lt_ge_cases i nx) as [I|I].
    - rewrite A by assumption. now apply (cg_Bd _ _ _ _ Hg).
    - replace i with (nx + (i - nx)) by lia. rewrite B by lia. exact g0.
  Qed.

  (** the disturbance terms *)
  Lemma dist_eq i a : 0 < i -> i < ph + 1 -> a < w ->
    rel (ssum ndu (fun m => smul (sopp (ent (ssBv (b_ss bb)) a m)) (ent (o_dist (l_o s)) m (cprev i)))) s0 /\
    ssum ndu (fun m => smul (sopp (val (ent (ssBv (b_ss bb)) a m))) (val (ent (o_dist (l_o s)) m (cprev i)))) = (s0 : G).
  Proof.
    intros Hi0 Hi Ha. assert (K : forall m, m < ndu -> good (ent (ssBv (b_ss bb)) a m) /\ good (ent (o_dist (l_o s)) m (cprev i)) /\
        (val (ent (ssBv (b_ss bb)) a m) = s0 \/ val (ent (o_dist (l_o s)) m (cprev i)) = s0)).
    { intros m Hm. assert (Hc : cprev i < ph) by (unfold cprev; destruct (Nat.eqb_spec i 0); lia).
      rewrite (ro_d _ _ _ RO (cprev i) m Hc Hm). refine (conj (good_Bv a m Ha Hm) (conj (cg_d _ _ _ _ Hg _ _ Hc Hm) _)).
      destruct (rb_dist _ _ _ _ _ RB) as (A & B & _). destruct (Nat.lt_ge_cases a nx) as [I|I].
      - rewrite A by assumption. now apply HBd.
      - left. replace a with (nx + (a - nx)) by lia. rewrite B by lia. exact v0. }
    split.
    - apply rel_sum0. intros m Hm. destruct (K m Hm) as (K1 & K2 & K3). destruct (val_opp _ K1) as [O1 O2].
      apply val_mul0; [exact O1|exact K2|]. destruct K3 as [K3|K3]; [left; rewrite O2, K3; ring|right; exact K3].
    - apply ssum_zero. intros m Hm. destruct (K m Hm) as (_ & _ & [-> | ->]); ring.
  Qed.
  Lemma dist_out i a : i < ph + 1 -> a < ny ->
    rel (ssum ndu (fun m => smul (sopp (ent (ssDv (b_ss bb)) a m)) (ent (o_dist (l_o s)) m (cprev i)))) s0 /\
    ssum ndu (fun m => smul (sopp (val (ent (ssDv (b_ss bb)) a m))) (val (ent (o_dist (l_o s)) m (cprev i)))) = (s0 : G).
  Proof.
    intros Hi Ha. assert (K : forall m, m < ndu -> good (ent (ssDv (b_ss bb)) a m) /\ good (ent (o_dist (l_o s)) m (cprev i)) /\
        (val (ent (ssDv (b_ss bb)) a m) = s0 \/ val (ent (o_dist (l_o s)) m (cprev i)) = s0)).
    { intros m Hm. assert (Hc : cprev i < ph) by (unfold cprev; destruct (Nat.eqb_spec i 0); lia).
      destruct (rb_dist _ _ _ _ _ RB) as (_ & _ & A & _). rewrite (ro_d _ _ _ RO (cprev i) m Hc Hm), A by assumption.
      refine (conj (cg_Dd _ _ _ _ Hg _ _ Ha Hm) (conj (cg_d _ _ _ _ Hg _ _ Hc Hm) _)). now apply HDd. }
    split.
    - apply rel_sum0. intros m Hm. destruct (K m Hm) as (K1 & K2 & K3). destruct (val_opp _ K1) as [O1 O2].
      apply val_mul0; [exact O1|exact K2|]. destruct K3 as [K3|K3]; [left; rewrite O2, K3; ring|right; exact K3].
    - apply ssum_zero. intros m Hm. destruct (K m Hm) as (_ & _ & [-> | ->]); ring.
  Qed.
  Lemma eadd_rel (a : ext F) o (og : G) : egood good a -> rel o s0 -> og = s0 -> emap val (eadd a o) = eadd (emap val a) og.
  Proof.
    intros Ha Ho ->. destruct a as [x| |]; cbn [eadd emap]; try reflexivity. f_equal.
    destruct (rel_add_l x (val x) o (conj Ha eq_refl) Ho) as [_ ->]. ring.
  Qed.

  Notation x0G := (mmap val x0). Notation u0G := (mmap val u0).
  Notation pbF := (b_prob (l_built d s x0 u0)).
  Notation pbG := (b_prob (l_built d sG x0G u0G)).

  Lemma bounds_eq r : r < n_con d ->
    emap val (ent (pl pbF) r 0) = ent (pl pbG) r 0 /\ emap val (ent (pu pbF) r 0) = ent (pu pbG) r 0.
  Proof.
    pose proof (Gent junk ejunk d ph_pos s c x0 u0 HR Hx0 Hu0) as GF.
    pose proof (Gent junkG ejunkG d ph_pos sG (cfg_map val c) x0G u0G RG Hx0 Hu0) as GG.
    pose proof (ineqL junk ejunk d s c HR) as ILF. pose proof (ineqU junk ejunk d s c HR) as IUF.
    pose proof (ineqL junkG ejunkG d sG _ RG) as ILG. pose proof (ineqU junkG ejunkG d sG _ RG) as IUG.
    destruct (rb_lim _ _ _ _ _ RB) as (L1 & L2 & L3 & L4 & L5 & L6 & L7 & L8 & L9).
    assert (EQ : forall r, r < N1 -> emap val (ent (pl pbF) r 0) = ent (pl pbG) r 0 ->
      emap val (ent (pl pbF) r 0) = ent (pl pbG) r 0 /\ emap val (ent (pu pbF) r 0) = ent (pu pbG) r 0).
    { intros k Hk E. split; [exact E|]. rewrite (ge_ul _ _ _ _ _ _ _ _ _ GF), (ge_ul _ _ _ _ _ _ _ _ _ GG) by assumption. exact E. }
    assert (IN : forall r, r < n_ineq d -> r < N1 \/ N1 + (ph + 1) * ny <= r ->
       egood good (ent (b_lineq bb) r 0) -> egood good (ent (b_uineq bb) r 0) ->
       emap val (ent (b_lineq bb) r 0) = ent (b_lineq bG) r 0 -> emap val (ent (b_uineq bb) r 0) = ent (b_uineq bG) r 0 ->
       emap val (ent (pl pbF) (N1 + r) 0) = ent (pl pbG) (N1 + r) 0 /\ emap val (ent (pu pbF) (N1 + r) 0) = ent (pu pbG) (N1 + r) 0).
    { intros k Hk O E1 E2 E3 E4. destruct (ge_l _ _ _ _ _ _ _ _ _ GF k Hk) as (o & F1 & F2 & F3 & _).
      destruct (ge_l _ _ _ _ _ _ _ _ _ GG k Hk) as (og & G1 & G2 & G3 & _). rewrite F1, F2, G1, G2.
      cbn [sG l_b]. rewrite <- E3, <- E4. rewrite (F3 O), (G3 O). split; (apply eadd_rel; [assumption|exact rel_0|reflexivity]). }
    revert r. apply (row_groups d ph_pos). refine (conj _ (conj _ (conj _ (conj _ (conj _ (conj _ (conj _ (conj _ _)))))))).
    - intros a Ha. pose proof (blk_lt 0 (ph + 1) w a ltac:(lia) ltac:(lia)). apply EQ; [lia|].
      rewrite (ge_0x _ _ _ _ _ _ _ _ _ GF), (ge_0x _ _ _ _ _ _ _ _ _ GG) by assumption. cbn [emap mmap ent]. f_equal. now apply val_opp, Gx0.
    - intros a Ha. pose proof (blk_lt 0 (ph + 1) w (nx + a) ltac:(lia) ltac:(lia)). apply EQ; [lia|].
      rewrite (ge_0u _ _ _ _ _ _ _ _ _ GF), (ge_0u _ _ _ _ _ _ _ _ _ GG) by assumption. cbn [emap mmap ent]. f_equal. now apply val_opp, Gu0.
    - intros i a Hi Ha. pose proof (blk_lt (S i) (ph + 1) w a ltac:(lia) ltac:(lia)). apply EQ; [lia|].
      rewrite (ge_eq _ _ _ _ _ _ _ _ _ GF), (ge_eq _ _ _ _ _ _ _ _ _ GG) by lia. cbn [emap]. f_equal.
      destruct (dist_eq (S i) a ltac:(lia) ltac:(lia) ltac:(lia)) as [[_ ->] E]. symmetry. exact E.
    - intros i a Hi Ha. pose proof (blk_lt (S i) (ph + 1) w (nx + a) ltac:(lia) ltac:(lia)). apply EQ; [lia|].
      rewrite (ge_eq _ _ _ _ _ _ _ _ _ GF), (ge_eq _ _ _ _ _ _ _ _ _ GG) by lia. cbn [emap]. f_equal.
      destruct (dist_eq (S i) (nx + a) ltac:(lia) ltac:(lia) ltac:(lia)) as [[_ ->] E]. symmetry. exact E.
    - intros i a Hi Ha. pose proof (blk_lt i (ph + 1) w a ltac:(lia) ltac:(lia)). pose proof (stp_lt d ph_pos i Hi).
      apply IN; [unfold n_ineq; lia|left; lia|..].
      + rewrite (ie_x _ _ _ _ _ _ _ ILF) by assumption. rewrite L1 by assumption. now apply (cg_xlo _ _ _ _ Hg).
      + rewrite (ie_x _ _ _ _ _ _ _ IUF) by assumption. rewrite L2 by assumption. now apply (cg_xhi _ _ _ _ Hg).
      + rewrite (ie_x _ _ _ _ _ _ _ ILF), (ie_x _ _ _ _ _ _ _ ILG) by assumption. reflexivity.
      + rewrite (ie_x _ _ _ _ _ _ _ IUF), (ie_x _ _ _ _ _ _ _ IUG) by assumption. reflexivity.
    - intros i a Hi Ha. pose proof (blk_lt i (ph + 1) w (nx + a) ltac:(lia) ltac:(lia)).
      assert (K : (if i =? ph then i - 1 else i) < ph) by (destruct (Nat.eqb_spec i ph); lia).
      apply IN; [unfold n_ineq; lia|left; lia|..].
      + rewrite (ie_u _ _ _ _ _ _ _ ILF) by assumption. rewrite L5 by assumption. now apply (cg_ulo _ _ _ _ Hg).
      + rewrite (ie_u _ _ _ _ _ _ _ IUF) by assumption. rewrite L6 by assumption. now apply (cg_uhi _ _ _ _ Hg).
      + rewrite (ie_u _ _ _ _ _ _ _ ILF), (ie_u _ _ _ _ _ _ _ ILG) by assumption. reflexivity.
      + rewrite (ie_u _ _ _ _ _ _ _ IUF), (ie_u _ _ _ _ _ _ _ IUG) by assumption. reflexivity.
    - intros i a Hi Ha. pose proof (blk_lt i (ph + 1) ny a ltac:(lia) ltac:(lia)). pose proof (stp_lt d ph_pos i Hi) as ST.
      assert (Hk : N1 + (i * ny + a) < n_ineq d) by (unfold n_ineq; lia).
      destruct (ge_l _ _ _ _ _ _ _ _ _ GF _ Hk) as (o & F1 & F2 & _ & F3).
      destruct (ge_l _ _ _ _ _ _ _ _ _ GG _ Hk) as (og & G1 & G2 & _ & G3). rewrite F1, F2, G1, G2.
      specialize (F3 i a Hi Ha eq_refl). specialize (G3 i a Hi Ha eq_refl). cbn [sG l_b l_o o_dist b_ss bG build ss_map ssDv mmap ent] in G3.
      destruct (dist_out i a Hi Ha) as [O1 O2]. rewrite <- F3 in O1. rewrite O2 in G3.
      cbn [sG l_b]. rewrite (ie_y _ _ _ _ _ _ _ ILF), (ie_y _ _ _ _ _ _ _ IUF) by assumption.
      pose proof (ie_y _ _ _ _ _ _ _ ILG i a Hi Ha) as Y1. pose proof (ie_y _ _ _ _ _ _ _ IUG i a Hi Ha) as Y2. cbn [sG l_b] in Y1, Y2. rewrite Y1, Y2.
      cbn [bG build b_lim lim_map minY maxY mmap ent]. split; (apply eadd_rel; [|exact O1|exact G3]).
      + rewrite L3 by assumption. now apply (cg_ylo _ _ _ _ Hg).
      + rewrite L4 by assumption. now apply (cg_yhi _ _ _ _ Hg).
    - intros i a Hi Ha. pose proof (blk_lt i ph nu a ltac:(lia) ltac:(lia)).
      apply IN; [unfold n_ineq; lia|right; lia|..].
      + rewrite (ie_du _ _ _ _ _ _ _ ILF) by assumption. destruct (ch <? i); [exact g0|exact I].
      + rewrite (ie_du _ _ _ _ _ _ _ IUF) by assumption. destruct (ch <? i); [exact g0|exact I].
      + rewrite (ie_du _ _ _ _ _ _ _ ILF), (ie_du _ _ _ _ _ _ _ ILG) by assumption. destruct (ch <? i); cbn [emap]; [now rewrite v0|reflexivity].
      + rewrite (ie_du _ _ _ _ _ _ _ IUF), (ie_du _ _ _ _ _ _ _ IUG) by assumption. destruct (ch <? i); cbn [emap]; [now rewrite v0|reflexivity].
    - intros i Hi. pose proof (stp_lt d ph_pos i Hi) as ST.
      apply IN; [unfold n_ineq; lia|right; lia|..].
      + rewrite (ie_s _ _ _ _ _ _ _ ILF) by assumption. rewrite L7 by assumption. now apply (cg_slo _ _ _ _ Hg).
      + rewrite (ie_s _ _ _ _ _ _ _ IUF) by assumption. rewrite L8 by assumption. now apply (cg_shi _ _ _ _ Hg).
      + rewrite (ie_s _ _ _ _ _ _ _ ILF), (ie_s _ _ _ _ _ _ _ ILG) by assumption. reflexivity.
      + rewrite (ie_s _ _ _ _ _ _ _ IUF), (ie_s _ _ _ _ _ _ _ IUG) by assumption. reflexivity.
  Qed.

  Lemma rows_agree r z : r < n_con d -> row_holds (call_map val (l_call d s x0 u0)) r z <-> row_holds (l_call d sG x0G u0G) r z.
  Proof.
    intros Hr. destruct (cl_dims junk ejunk d ph_pos s c x0 u0 HR Hx0 Hu0) as [N M].
    destruct (cl_dims junkG ejunkG d ph_pos sG _ x0G u0G RG Hx0 Hu0) as [N' M'].
    unfold row_holds.
    assert (EL : nth r (cl_l (call_map val (l_call d s x0 u0))) PInf = nth r (cl_l (l_call d sG x0G u0G)) PInf).
    { rewrite (cl_l_eq junkG ejunkG d ph_pos sG _ x0G u0G RG Hx0 Hu0 r Hr), <- (proj1 (bounds_eq r Hr)), <- (cl_l_eq junk ejunk d ph_pos s c x0 u0 HR Hx0 Hu0 r Hr).
      cbn [call_map cl_l]. change PInf with (emap val PInf) at 1. apply map_nth. }
    assert (EU : nth r (cl_u (call_map val (l_call d s x0 u0))) MInf = nth r (cl_u (l_call d sG x0G u0G)) MInf).
    { rewrite (cl_u_eq junkG ejunkG d ph_pos sG _ x0G u0G RG Hx0 Hu0 r Hr), <- (proj2 (bounds_eq r Hr)), <- (cl_u_eq junk ejunk d ph_pos s c x0 u0 HR Hx0 Hu0 r Hr).
      cbn [call_map cl_u]. change MInf with (emap val MInf) at 1. apply map_nth. }
    assert (ER : qp_row (call_map val (l_call d s x0 u0)) r z = qp_row (l_call d sG x0G u0G) r z).
    { unfold qp_row. cbn [call_map cl_n]. rewrite N, N'. apply ssum_ext. intros j Hj. f_equal.
      cbn [call_map l_call cl_A]. rewrite (pA_eq junk ejunk d ph_pos s c x0 u0 HR Hx0 Hu0), (pA_eq junkG ejunkG d ph_pos sG _ x0G u0G RG Hx0 Hu0).
      rewrite csc_val_map by assumption. rewrite csc_full_val by assumption.
      cbn [sG l_b bG build b_ss b_lim]. apply build_A_rel; try assumption; [exact (bs_ss _ _ SZ)|exact good_A|exact good_B|exact good_C|exact good_M]. }
    now rewrite EL, EU, ER.
  Qed.

  Theorem exact_feasible z : qp_feasible (call_map val (l_call d s x0 u0)) z <->
    admissible d (plant_map val p) (cfg_map val c) (fun j => val (vec x0 j)) (fun j => val (vec u0 j)) (z_state d z) (z_cmd d z) /\
    z_tail d (fun j => val (vec u0 j)) z.
  Proof.
    assert (PG : g_plant (cfg_map val c) = Some (plant_map val p)) by (cbn [cfg_map g_plant]; now rewrite Hpl).
    pose proof (qp_feasible_iff junkG ejunkG d ph_pos sG _ _ x0G u0G RG PG Hx0 Hu0 z) as K.
    destruct (cl_dims junk ejunk d ph_pos s c x0 u0 HR Hx0 Hu0) as [N M].
    destruct (cl_dims junkG ejunkG d ph_pos sG _ x0G u0G RG Hx0 Hu0) as [N' M'].
    transitivity (qp_feasible (l_call d sG x0G u0G) z); [|exact K].
    unfold qp_feasible. cbn [call_map cl_m]. rewrite M, M'. split; intros H r Hr; apply (rows_agree r z Hr); now apply H.
  Qed.
End Exact.
