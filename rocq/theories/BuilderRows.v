(** Rows of the constraint matrix applied to a decision vector, and the quadratic form. *)
From Coq Require Import Bool Arith List Lia Ring Field.
From Verif Require Import Scalar Sums Mat Builder BuilderEnt.

Section Rows.
  Context {F : Type} {SO : ScalarOps F} {SL : ScalarLaws F}.
  Add Field SF2 : s_field.
  Variable junk : nat -> nat -> F.
  Variable ejunk : nat -> nat -> ext F.
  Variable d : dims.
  Notation nx := (d_nx d). Notation nu := (d_nu d). Notation ndu := (d_ndu d).
  Notation ny := (d_ny d). Notation ph := (d_ph d). Notation ch := (d_ch d).
  Notation w := (nu + nx).
  Notation N1 := ((ph + 1) * (nu + nx)).
  Local Open Scope S_scope.
  Local Open Scope nat_scope.

  (** row r of M times z, over the n_var d variables *)
  Definition row (M : mat F) (r : nat) (z : nat -> F) : F :=
    ssum (n_var d) (fun c => smul (ent M r c) (z c)).
  Definition zx (z : nat -> F) (i a : nat) : F := z (i * w + a).
  Definition zdu (z : nat -> F) (i a : nat) : F := z (N1 + (i * nu + a)).

  Lemma row_split M r z :
    row M r z =
      sadd (ssum (ph + 1) (fun j => ssum w (fun b => smul (ent M r (j * w + b)) (zx z j b))))
           (ssum ph (fun j => ssum nu (fun b => smul (ent M r (N1 + (j * nu + b))) (zdu z j b)))).
  Proof.
    unfold row, n_var. rewrite ssum_app, ssum_blocks. f_equal.
    rewrite (ssum_blocks ph nu). reflexivity.
  Qed.

  Lemma row_ext M M' r r' z :
    (forall c, c < n_var d -> ent M r c = ent M' r' c) -> row M r z = row M' r' z.
  Proof. intros H. apply ssum_ext. intros c Hc. now rewrite H. Qed.

  (** *** equality rows *)
  Lemma augId_ent n m i j : i < S n -> j < m -> m <= S n ->
    ent (set_block (mzero (n + 1) m) 1 0 n n (mident n n)) i j =
      (if (j <? n) && (i =? S j) then s1 else s0 : F).
  Proof.
    intros Hi Hj Hm. destruct (Nat.ltb_spec j n) as [A|A].
    - destruct (Nat.lt_ge_cases i 1) as [B|B].
      + rewrite ent_set_block_row_out by lia. destruct (Nat.eqb_spec i (S j)); [lia|reflexivity].
      + rewrite ent_set_block_in by lia. cbn [mident ent]. unfold delta.
        destruct (Nat.eqb_spec (i - 1) (j - 0)), (Nat.eqb_spec i (S j)); try lia; reflexivity.
    - rewrite ent_set_block_col_out by lia. reflexivity.
  Qed.

  Lemma Aeq_xx ss i j a b : ss_sized d ss -> i < ph + 1 -> j < ph + 1 -> a < w -> b < w ->
    ent (build_Aeq junk d ss) (i * w + a) (j * w + b) =
      sadd (smul (delta i j) (sopp (delta a b)))
           (smul (if (j <? ph) && (i =? S j) then s1 else s0) (ent (ssA ss) a b)).
  Proof.
    intros (HA & HB & HC & _) Hi Hj Ha Hb. destruct HA as [HAr HAc].
    pose proof (blk_lt i (ph + 1) w a Hi Ha). pose proof (blk_lt j (ph + 1) w b Hj Hb).
    unfold build_Aeq. rewrite ent_set_block_col_out by lia. rewrite ent_set_block_in by lia.
    rewrite !Nat.sub_0_r. cbn [madd ent mkron mident mopp mrows mcols]. rewrite HAr, HAc.
    destruct (divmod_unique i a w Ha) as [-> ->]. destruct (divmod_unique j b w Hb) as [-> ->].
    f_equal. f_equal. apply augId_ent; lia.
  Qed.
  Lemma Aeq_xu ss i j a b : ss_sized d ss -> i < ph + 1 -> j < ph -> a < w -> b < nu ->
    ent (build_Aeq junk d ss) (i * w + a) (N1 + (j * nu + b)) =
      smul (if i =? S j then s1 else s0) (ent (ssB ss) a b).
  Proof.
    intros (HA & [HBr HBc] & HC & _) Hi Hj Ha Hb.
    pose proof (blk_lt i (ph + 1) w a Hi Ha). pose proof (blk_lt j ph nu b Hj Hb).
    unfold build_Aeq. rewrite ent_set_block_in by lia. rewrite !Nat.sub_0_r.
    replace (N1 + (j * nu + b) - N1) with (j * nu + b) by lia.
    cbn [ent mkron mrows mcols]. rewrite HBr, HBc.
    destruct (divmod_unique i a w Ha) as [-> ->]. destruct (divmod_unique j b nu Hb) as [-> ->].
    f_equal. rewrite augId_ent by lia. destruct (Nat.ltb_spec j ph); [reflexivity|lia].
  Qed.

  Lemma row_eq_0 ss a z : ss_sized d ss -> a < w ->
    row (build_Aeq junk d ss) a z = sopp (zx z 0 a).
  Proof.
    intros Hss Ha. rewrite row_split.
    assert (Ea : forall j b, ent (build_Aeq junk d ss) a (j * w + b) =
                 ent (build_Aeq junk d ss) (0 * w + a) (j * w + b)) by reflexivity.
    rewrite (ssum_zero ph).
    2:{ intros j Hj. apply ssum_zero. intros b Hb. change a with (0 * w + a).
        rewrite Aeq_xu by (assumption || lia). cbn [Nat.eqb]. ring. }
    rewrite (ssum_single (ph + 1) 0); [|lia|].
    - rewrite (ssum_single w a); [|exact Ha|].
      + rewrite Ea, Aeq_xx by (assumption || lia). rewrite !delta_refl.
        rewrite andb_comm. cbn [Nat.eqb andb]. ring.
      + intros b Hb N. rewrite Ea, Aeq_xx by (assumption || lia).
        rewrite (delta_neq a b) by congruence. rewrite andb_comm. cbn [Nat.eqb andb]. ring.
    - intros j Hj N. apply ssum_zero. intros b Hb. rewrite Ea, Aeq_xx by (assumption || lia).
      rewrite (delta_neq 0 j) by congruence. rewrite andb_comm. cbn [Nat.eqb andb]. ring.
  Qed.

  Lemma row_eq_S ss i a z : ss_sized d ss -> i < ph -> a < w ->
    row (build_Aeq junk d ss) (S i * w + a) z =
      sadd (sadd (sopp (zx z (S i) a)) (ssum w (fun b => smul (ent (ssA ss) a b) (zx z i b))))
           (ssum nu (fun b => smul (ent (ssB ss) a b) (zdu z i b))).
  Proof.
    intros Hss Hi Ha. rewrite row_split. f_equal.
    - transitivity (ssum (ph + 1) (fun j => sadd
         (smul (delta (S i) j) (sopp (zx z j a)))
         (smul (delta i j) (ssum w (fun b => smul (ent (ssA ss) a b) (zx z j b)))))).
      + apply ssum_ext. intros j Hj.
        transitivity (ssum w (fun b => sadd
          (smul (delta a b) (smul (delta (S i) j) (sopp (zx z j b))))
          (smul (delta i j) (smul (ent (ssA ss) a b) (zx z j b))))).
        * apply ssum_ext. intros b Hb. rewrite Aeq_xx by (assumption || lia).
          unfold delta. destruct (Nat.ltb_spec j ph).
          -- destruct (Nat.eqb_spec (S i) (S j)), (Nat.eqb_spec i j); try lia; cbn [andb]; ring.
          -- destruct (Nat.eqb_spec i j); [lia|]. cbn [andb]. ring.
        * rewrite ssum_add. f_equal.
          -- now rewrite ssum_delta_l.
          -- now rewrite ssum_mul_l.
      + rewrite ssum_add. rewrite ssum_delta_l by lia. rewrite ssum_delta_l by lia. reflexivity.
    - rewrite (ssum_single ph i); [|exact Hi|].
      + apply ssum_ext. intros b Hb. rewrite Aeq_xu by (assumption || lia).
        rewrite Nat.eqb_refl. ring.
      + intros j Hj N. apply ssum_zero. intros b Hb. rewrite Aeq_xu by (assumption || lia).
        destruct (Nat.eqb_spec (S i) (S j)); [lia|]. ring.
  Qed.

  (** *** inequality rows *)
  Notation Ai ss lim := (build_Aineq d ss lim).

  Lemma row_in_x ss lim i a z : i < ph + 1 -> a < w ->
    row (Ai ss lim) (i * w + a) z = zx z i a.
  Proof.
    intros Hi Ha. pose proof (blk_lt i (ph + 1) w a Hi Ha).
    unfold row. rewrite (ssum_single _ (i * w + a)).
    - unfold build_Aineq. rewrite ent_set_block_row_out, ent_set_block_row_out, ent_set_block_row_out by lia.
      rewrite ent_set_block_in by lia. cbn [mident ent]. rewrite delta_refl. unfold zx. ring.
    - unfold n_var. lia.
    - intros c Hc N.
      unfold build_Aineq. rewrite ent_set_block_row_out, ent_set_block_row_out, ent_set_block_row_out by lia.
      destruct (Nat.lt_ge_cases c N1) as [C|C].
      + rewrite ent_set_block_in by lia. cbn [mident ent]. rewrite delta_neq by lia. ring.
      + rewrite ent_set_block_col_out by lia. cbn [mzero mconst ent]. ring.
  Qed.

  Lemma row_in_y ss lim i a z : ss_sized d ss -> i < ph + 1 -> a < ny ->
    row (Ai ss lim) (N1 + (i * ny + a)) z = ssum w (fun b => smul (ent (ssC ss) a b) (zx z i b)).
  Proof.
    intros (_ & _ & [HCr HCc] & _) Hi Ha. pose proof (blk_lt i (ph + 1) ny a Hi Ha).
    assert (E : forall c, c < n_var d -> ent (Ai ss lim) (N1 + (i * ny + a)) c =
       if c <? N1 then smul (delta i (c / w)) (ent (ssC ss) a (c mod w)) else s0).
    { intros c Hc. unfold build_Aineq. rewrite ent_set_block_row_out, ent_set_block_row_out by lia.
      destruct (Nat.ltb_spec c N1).
      - rewrite ent_set_block_in by lia. replace (N1 + (i * ny + a) - N1) with (i * ny + a) by lia.
        cbn [mkron ent middle_rows block mident mrows mcols]. rewrite HCc, Nat.sub_0_r.
        destruct (divmod_unique i a ny Ha) as [-> ->]. reflexivity.
      - rewrite ent_set_block_col_out by lia. rewrite ent_set_block_col_out by lia. reflexivity. }
    rewrite row_split. rewrite (ssum_zero ph).
    2:{ intros j Hj. apply ssum_zero. intros b Hb. pose proof (blk_lt j ph nu b Hj Hb).
        rewrite E by (unfold n_var; lia). destruct (Nat.ltb_spec (N1 + (j * nu + b)) N1); [lia|]. ring. }
    rewrite (ssum_single (ph + 1) i); [|exact Hi|].
    - match goal with |- sadd ?a _ = _ => transitivity a; [ring|] end.
      apply ssum_ext. intros b Hb. pose proof (blk_lt i (ph + 1) w b Hi Hb).
      rewrite E by (unfold n_var; lia). destruct (Nat.ltb_spec (i * w + b) N1); [|lia].
      destruct (divmod_unique i b w Hb) as [-> ->]. rewrite delta_refl. ring.
    - intros j Hj N. apply ssum_zero. intros b Hb. pose proof (blk_lt j (ph + 1) w b Hj Hb).
      rewrite E by (unfold n_var; lia). destruct (Nat.ltb_spec (j * w + b) N1); [|lia].
      destruct (divmod_unique j b w Hb) as [-> ->]. rewrite delta_neq by congruence. ring.
  Qed.

  Lemma row_in_du ss lim i a z : i < ph -> a < nu ->
    row (Ai ss lim) (N1 + (ph + 1) * ny + (i * nu + a)) z = zdu z i a.
  Proof.
    intros Hi Ha. pose proof (blk_lt i ph nu a Hi Ha).
    unfold row. rewrite (ssum_single _ (N1 + (i * nu + a))).
    - unfold build_Aineq. rewrite ent_set_block_row_out by lia.
      rewrite ent_set_block_in by lia. cbn [mident ent].
      replace (N1 + (ph + 1) * ny + (i * nu + a) - (N1 + (ph + 1) * ny)) with (i * nu + a) by lia.
      replace (N1 + (i * nu + a) - N1) with (i * nu + a) by lia.
      rewrite delta_refl. unfold zdu. ring.
    - unfold n_var. lia.
    - intros c Hc N. unfold n_var in Hc.
      unfold build_Aineq. rewrite ent_set_block_row_out by lia.
      destruct (Nat.lt_ge_cases c N1) as [C|C].
      + rewrite ent_set_block_col_out by lia. rewrite ent_set_block_row_out by lia.
        rewrite ent_set_block_row_out by lia. cbn [mzero mconst ent]. ring.
      + rewrite ent_set_block_in by lia. cbn [mident ent]. rewrite delta_neq by lia. ring.
  Qed.

  Lemma row_in_s ss lim i z : i < ph + 1 ->
    row (Ai ss lim) (N1 + (ph + 1) * ny + ph * nu + i) z =
      ssum (ph + 1) (fun j => ssum w (fun b => smul (ent (sMultiplier lim) i (j * w + b)) (zx z j b))).
  Proof.
    intros Hi.
    assert (E : forall c, c < n_var d -> ent (Ai ss lim) (N1 + (ph + 1) * ny + ph * nu + i) c =
       if c <? N1 then ent (sMultiplier lim) i c else s0).
    { intros c Hc. unfold build_Aineq. destruct (Nat.ltb_spec c N1).
      - rewrite ent_set_block_in by lia. f_equal; lia.
      - rewrite ent_set_block_col_out by lia.
        rewrite ent_set_block_row_out, ent_set_block_row_out, ent_set_block_row_out by lia. reflexivity. }
    rewrite row_split. rewrite (ssum_zero ph).
    2:{ intros j Hj. apply ssum_zero. intros b Hb. pose proof (blk_lt j ph nu b Hj Hb).
        rewrite E by (unfold n_var; lia). destruct (Nat.ltb_spec (N1 + (j * nu + b)) N1); [lia|]. ring. }
    match goal with |- sadd ?a _ = _ => transitivity a; [ring|] end.
    apply ssum_ext. intros j Hj. apply ssum_ext. intros b Hb. pose proof (blk_lt j (ph + 1) w b Hj Hb).
    rewrite E by (unfold n_var; lia). destruct (Nat.ltb_spec (j * w + b) N1); [|lia]. reflexivity.
  Qed.

  (** *** rows of the full constraint matrix *)
  Lemma build_A_eq ss lim r z : r < N1 ->
    row (build_A junk d ss lim) r z = row (build_Aeq junk d ss) r z.
  Proof. intros Hr. apply row_ext. intros c Hc. unfold n_var in Hc. unfold build_A.
    rewrite ent_set_block_row_out by lia. rewrite ent_set_block_in by lia. f_equal; lia. Qed.
  Lemma build_A_in ss lim r z : r < n_ineq d ->
    row (build_A junk d ss lim) (N1 + r) z = row (Ai ss lim) r z.
  Proof. intros Hr. apply row_ext. intros c Hc. unfold n_var in Hc. unfold build_A.
    rewrite ent_set_block_in by lia. f_equal; lia. Qed.

  (** *** quadratic and linear forms *)
  Definition quad (P : mat F) (z : nat -> F) : F :=
    ssum (n_var d) (fun r => smul (z r) (row P r z)).
  Definition lin (q : mat F) (z : nat -> F) : F :=
    ssum (n_var d) (fun r => smul (ent q r 0) (z r)).

  (** value of the extended output row l at stage i *)
  Definition eout (ss : ssys F) (z : nat -> F) (i l : nat) : F :=
    ssum w (fun b => smul (ent (ssC ss) l b) (zx z i b)).

  Lemma row_P_x ss ww i a z : ss_sized d ss -> w_sized d ww -> i < ph + 1 -> a < w ->
    row (build_P d ss ww) (i * w + a) z =
      ssum (nu + ny) (fun l => smul (smul (wE_diag d ww i l) (ent (ssC ss) l a)) (eout ss z i l)).
  Proof.
    intros Hs Hw Hi Ha. pose proof (blk_lt i (ph + 1) w a Hi Ha).
    rewrite row_split. rewrite (ssum_zero ph).
    2:{ intros j Hj. apply ssum_zero. intros b Hb. pose proof (blk_lt j ph nu b Hj Hb).
        rewrite (build_P_xu d) by (assumption || lia). ring. }
    rewrite (ssum_single (ph + 1) i); [|exact Hi|].
    - match goal with |- sadd ?a _ = _ => transitivity a; [ring|] end.
      transitivity (ssum w (fun b => ssum (nu + ny) (fun l =>
        smul (smul (smul (wE_diag d ww i l) (ent (ssC ss) l a)) (ent (ssC ss) l b)) (zx z i b)))).
      + apply ssum_ext. intros b Hb. rewrite (build_P_xx d) by (assumption || lia).
        rewrite Nat.eqb_refl. unfold P_blk. rewrite <- ssum_mul_r. apply ssum_ext. intros k Hk.
        rewrite (ssum_single (nu + ny) k).
        * rewrite Nat.eqb_refl. ring.
        * exact Hk.
        * intros l Hl N. destruct (Nat.eqb_spec l k); [contradiction|]. ring.
      + rewrite ssum_swap. apply ssum_ext. intros l Hl. unfold eout. rewrite <- ssum_mul_l.
        apply ssum_ext. intros b Hb. ring.
    - intros j Hj N. apply ssum_zero. intros b Hb. pose proof (blk_lt j (ph + 1) w b Hj Hb).
      rewrite (build_P_xx d) by (assumption || lia). destruct (Nat.eqb_spec i j); [congruence|]. ring.
  Qed.

  Lemma row_P_u ss ww i a z : ss_sized d ss -> w_sized d ww -> i < ph -> a < nu ->
    row (build_P d ss ww) (N1 + (i * nu + a)) z = smul (ent (wDeltaU ww) a i) (zdu z i a).
  Proof.
    intros Hs Hw Hi Ha. pose proof (blk_lt i ph nu a Hi Ha).
    rewrite row_split. rewrite (ssum_zero (ph + 1)).
    2:{ intros j Hj. apply ssum_zero. intros b Hb. pose proof (blk_lt j (ph + 1) w b Hj Hb).
        rewrite (build_P_ux d) by (assumption || lia). ring. }
    rewrite (ssum_single ph i); [|exact Hi|].
    - rewrite (ssum_single nu a); [|exact Ha|].
      + rewrite (build_P_uu d) by (assumption || lia). rewrite !Nat.eqb_refl. cbn [andb]. ring.
      + intros b Hb N. rewrite (build_P_uu d) by (assumption || lia).
        destruct (Nat.eqb_spec a b); [congruence|]. rewrite andb_false_r. ring.
    - intros j Hj N. apply ssum_zero. intros b Hb. rewrite (build_P_uu d) by (assumption || lia).
      destruct (Nat.eqb_spec i j); [congruence|]. cbn [andb]. ring.
  Qed.

  Lemma quad_P ss ww z : ss_sized d ss -> w_sized d ww ->
    quad (build_P d ss ww) z =
      sadd (ssum (ph + 1) (fun i => ssum (nu + ny) (fun l =>
              smul (wE_diag d ww i l) (smul (eout ss z i l) (eout ss z i l)))))
           (ssum ph (fun i => ssum nu (fun a => smul (ent (wDeltaU ww) a i) (smul (zdu z i a) (zdu z i a))))).
  Proof.
    intros Hs Hw. unfold quad, n_var. rewrite ssum_app, ssum_blocks. f_equal.
    - apply ssum_ext. intros i Hi.
      transitivity (ssum w (fun a => ssum (nu + ny) (fun l =>
         smul (smul (wE_diag d ww i l) (eout ss z i l)) (smul (ent (ssC ss) l a) (zx z i a))))).
      + apply ssum_ext. intros a Ha. rewrite row_P_x by assumption. rewrite <- ssum_mul_l.
        apply ssum_ext. intros l Hl. unfold zx. ring.
      + rewrite ssum_swap. apply ssum_ext. intros l Hl. rewrite ssum_mul_l. fold (eout ss z i l). ring.
    - rewrite (ssum_blocks ph nu). apply ssum_ext. intros i Hi. apply ssum_ext. intros a Ha.
      rewrite row_P_u by assumption. unfold zdu. ring.
  Qed.

  (** constant vector of stage i: -eRef + ssDv d *)
  Definition eoff (ss : ssys F) (yRef uRef uMeas : mat F) (i k : nat) : F :=
    sadd (sopp (if k <? ny then ent yRef k (cprev i) else ent uRef (k - ny) (cprev i)))
         (ssum ndu (fun m => smul (ent (ssDv ss) k m) (ent uMeas m (cprev i)))).

  Lemma q_blk_sum ss ww yRef uRef uMeas i a :
    q_blk d ss ww yRef uRef uMeas i a =
      ssum (nu + ny) (fun k => smul (smul (wE_diag d ww i k) (ent (ssC ss) k a)) (eoff ss yRef uRef uMeas i k)).
  Proof.
    unfold q_blk. apply ssum_ext. intros k Hk. fold (eoff ss yRef uRef uMeas i k). f_equal.
    rewrite (ssum_single (nu + ny) k).
    - rewrite Nat.eqb_refl. ring.
    - exact Hk.
    - intros l Hl N. destruct (Nat.eqb_spec l k); [contradiction|]. ring.
  Qed.

  Lemma lin_q ss ww yRef uRef duRef uMeas q z :
    (forall i a, i < ph + 1 -> a < w -> ent q (i * w + a) 0 = q_blk d ss ww yRef uRef uMeas i a) ->
    (forall i a, i < ph -> a < nu -> ent q (N1 + (i * nu + a)) 0 =
        sopp (ssum nu (fun l => smul (if a =? l then ent (wDeltaU ww) a i else s0) (ent duRef l (cprev i))))) ->
    lin q z =
      sadd (ssum (ph + 1) (fun i => ssum (nu + ny) (fun l =>
              smul (wE_diag d ww i l) (smul (eout ss z i l) (eoff ss yRef uRef uMeas i l)))))
           (ssum ph (fun i => ssum nu (fun a => smul (ent (wDeltaU ww) a i)
              (smul (zdu z i a) (sopp (ent duRef a (cprev i))))))).
  Proof.
    intros Hx Hu. unfold lin, n_var. rewrite ssum_app, ssum_blocks. f_equal.
    - apply ssum_ext. intros i Hi.
      transitivity (ssum w (fun a => ssum (nu + ny) (fun l =>
         smul (smul (wE_diag d ww i l) (eoff ss yRef uRef uMeas i l)) (smul (ent (ssC ss) l a) (zx z i a))))).
      + apply ssum_ext. intros a Ha. rewrite Hx, q_blk_sum by assumption. rewrite <- ssum_mul_r.
        apply ssum_ext. intros l Hl. unfold zx. ring.
      + rewrite ssum_swap. apply ssum_ext. intros l Hl. rewrite ssum_mul_l. fold (eout ss z i l). ring.
    - rewrite (ssum_blocks ph nu). apply ssum_ext. intros i Hi. apply ssum_ext. intros a Ha.
      rewrite Hu by assumption. rewrite (ssum_single nu a); [|exact Ha|].
      + rewrite Nat.eqb_refl. unfold zdu. ring.
      + intros l Hl N. destruct (Nat.eqb_spec a l); [congruence|]. ring.
  Qed.
End Rows.
