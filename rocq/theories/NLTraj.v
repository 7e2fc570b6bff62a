(** Closed form of the trajectories produced by [NLMap.v], and their safety. *)
From Coq Require Import Bool Arith List Lia Ring Field.
From Verif Require Import Scalar Sums Mat Builder BuilderEnt NLMap.
Import ListNotations.

Section Traj.
  Context {F : Type} {SO : ScalarOps F} {SM : ScalarMild F} {SL : ScalarLaws F}.
  Variable d : dims.
  Notation nx := (d_nx d). Notation nu := (d_nu d). Notation ny := (d_ny d).
  Notation ph := (d_ph d). Notation ch := (d_ch d).
  Add Field SFt : (@s_field F SO SL).

  (** a mapping object whose current scaling vectors are [su] and [sx] *)
  Record map_is (m : mapping F) (su sx : nat -> F) : Prop := {
    mi_st : gm (mp_st m) nx 1; mi_inv : gm (mp_inv m) nx 1; mi_in : gm (mp_in m) nu 1;
    mi_z2u : gm (mp_z2u m) (ph * nu) (nu * ch); mi_u2z : gm (mp_u2z m) (nu * ch) (ph * nu);
    mi_sx : forall j, j < nx -> ent (mp_st m) j 0 = sx j;
    mi_sxi : forall j, j < nx -> ent (mp_inv m) j 0 = sdiv s1 (sx j);
    mi_su : forall j, j < nu -> ent (mp_in m) j 0 = su j;
    mi_z2u_e : forall a b p q, a < ph -> b < ch -> p < nu -> q < nu -> ent (mp_z2u m) (a * nu + p) (b * nu + q) =
       if (b =? Nat.min a (ch - 1)) && (p =? q) then su p else s0;
    mi_u2z_e : forall a b p q, a < ph -> b < ch -> p < nu -> q < nu -> ent (mp_u2z m) (b * nu + q) (a * nu + p) =
       if (b =? a) && (p =? q) then sdiv s1 (su p) else s0 }.

  Lemma map_init_is : 0 < ch -> ch <= ph -> map_is (map_init d) (fun _ => s1) (fun _ => s1).
  Proof.
    intros C0 C. unfold map_init. pose proof (compute_mapping_ent d (mones nu) C0 C) as H.
    destruct (compute_mapping d (mones nu)) as [z2u u2z]. destruct H as (G1 & G2 & E1 & E2).
    split; cbn [mp_in mp_st mp_inv mp_z2u mp_u2z]; try (repeat split; fail); try assumption; try reflexivity.
    intros j Hj. cbn. symmetry. apply sm_div1.
  Qed.
  Lemma set_input_is m su sx sc : 0 < ch -> ch <= ph -> gm sc nu 1 -> map_is m su sx ->
    map_is (set_input_scaling d sc m) (fun j => ent sc j 0) sx.
  Proof.
    intros C0 C G H. unfold set_input_scaling. pose proof (compute_mapping_ent d sc C0 C) as HH.
    destruct (compute_mapping d sc) as [z2u u2z]. destruct HH as (G1 & G2 & E1 & E2). destruct H.
    split; cbn [mp_in mp_st mp_inv mp_z2u mp_u2z]; try assumption; try reflexivity.
  Qed.
  Lemma set_state_is m su sx sc : gm sc nx 1 -> map_is m su sx ->
    map_is (set_state_scaling sc m) su (fun j => ent sc j 0).
  Proof.
    intros (G1 & G2 & G3) H. destruct H.
    split; cbn [set_state_scaling mp_in mp_st mp_inv mp_z2u mp_u2z minverse]; try assumption; try reflexivity; repeat split; cbn; assumption.
  Qed.

  (** ** State trajectory *)
  Lemma set_mrow_ent (M V : mat F) i a b : b < mcols M -> ent (set_mrow M i V) a b = if a =? i then ent V 0 b else ent M a b.
  Proof.
    intros Hb. unfold set_mrow. destruct (Nat.eqb_spec a i) as [->|N].
    - rewrite ent_set_block_in by lia. f_equal; lia.
    - rewrite ent_set_block_row_out by lia. reflexivity.
  Qed.
  Lemma set_mrow_gm (M V : mat F) i R C : gm M R C -> gm V 1 C -> i < R -> gm (set_mrow M i V) R C.
  Proof.
    intros (M1 & M2 & M3) (V1 & V2 & V3) Hi. unfold set_mrow, set_block. repeat split; cbn [mrows mcols mok]; try assumption.
    rewrite M1, M2, M3, V1, V2, V3, !Nat.eqb_refl. destruct (Nat.leb_spec (i + 1) R); [|lia]. cbn. now rewrite Nat.leb_refl.
  Qed.

  Section Pt.
    Variables (m : mapping F) (su sx : nat -> F) (x x0 : mat F).
    Hypothesis HM : map_is m su sx.
    Hypothesis HX : gm x (n_dec d) 1.
    Hypothesis HX0 : gm x0 nx 1.
    Hypothesis P : 0 < ph.
    Hypothesis C0 : 0 < ch.
    Hypothesis C : ch <= ph.

    Lemma rows_loop k : k <= ph ->
      let X := loop k (fun i' X => set_mrow X (S i') (mtrans (middle_rows x ((S i' - 1) * nx) nx))) (set_mrow (mzero (ph + 1) nx) 0 (mtrans x0)) in
      gm X (ph + 1) nx /\ forall a b, b < nx -> ent X a b = if a =? 0 then ent x0 b 0 else if a <=? k then ent x ((a - 1) * nx + b) 0 else s0.
    Proof.
      destruct HX0 as (R0 & K0 & O0). destruct HX as (R1 & K1 & O1).
      induction k as [|k IH]; intros Hk; cbn [loop].
      - split.
        + apply set_mrow_gm; [repeat split|repeat split; cbn; congruence|lia].
        + intros a b Hb. rewrite set_mrow_ent by exact Hb. destruct (Nat.eqb_spec a 0) as [->|]; [reflexivity|].
          destruct (Nat.leb_spec a 0); [lia|reflexivity].
      - destruct (IH ltac:(lia)) as [G E]. set (X := loop k _ _) in *. clearbody X. cbn zeta. split.
        + apply set_mrow_gm; [exact G| |lia]. unfold mtrans, middle_rows, block. repeat split; cbn [mrows mcols mok]; [exact K1|].
          rewrite O1, R1, K1. unfold n_dec. pose proof (blk_le k ph nx ltac:(lia)).
          destruct (Nat.leb_spec ((S k - 1) * nx + nx) (ph * nx + nu * ch + 1)); [reflexivity|].
          replace (S k - 1) with k in * by lia. lia.
        + intros a b Hb. destruct G as (GR & GC & _). rewrite set_mrow_ent by (rewrite GC; exact Hb).
          rewrite E by exact Hb. destruct (Nat.eqb_spec a (S k)) as [->|N].
          * cbn [Nat.eqb mtrans middle_rows block ent]. destruct (Nat.leb_spec (S k) (S k)); [|lia]. reflexivity.
          * destruct (Nat.eqb_spec a 0), (Nat.leb_spec a k), (Nat.leb_spec a (S k)); try reflexivity; lia.
    Qed.
    Lemma scale_loop (X : mat F) k : gm X (ph + 1) nx -> k <= nx ->
      let Y := loop k (fun i X => scale_col (mp_st m) i X) X in
      gm Y (ph + 1) nx /\ forall a b, a <= ph -> ent Y a b = if b <? k then sdiv (ent X a b) (sdiv s1 (sx b)) else ent X a b.
    Proof.
      intros GX. induction k as [|k IH]; intros Hk; cbn [loop].
      - split; [exact GX|]. reflexivity.
      - destruct (IH ltac:(lia)) as [G E]. set (Y := loop k _ _) in *. clearbody Y. cbn zeta. destruct G as (GR & GC & GO). split.
        + unfold scale_col, set_mcol, mcol, set_block, block. repeat split; cbn [mrows mcols mok]; try assumption.
          rewrite GO, GR, GC. cbn. destruct (Nat.leb_spec (ph + 1) (ph + 1)); [|lia]. destruct (Nat.leb_spec (k + 1) nx); [|lia].
          cbn. now rewrite Nat.eqb_refl.
        + intros a b Ha. unfold scale_col, set_mcol, mcol. rewrite GR.
          destruct (Nat.eqb_spec b k) as [->|N].
          * rewrite ent_set_block_in by lia. cbn [ent block]. replace (0 + (a - 0)) with a by lia. replace (k + (k - k)) with k by lia.
            rewrite E by exact Ha. destruct (Nat.ltb_spec k k); [lia|]. destruct (Nat.ltb_spec k (S k)); [|lia].
            rewrite (mi_sx m su sx HM) by lia. reflexivity.
          * rewrite ent_set_block_col_out by lia. rewrite E by exact Ha.
            destruct (Nat.ltb_spec b k), (Nat.ltb_spec b (S k)); try reflexivity; lia.
    Qed.
    Lemma unwrap_X_ent : gm (unwrap_X d m x x0) (ph + 1) nx /\
      forall a b, a <= ph -> b < nx -> ent (unwrap_X d m x x0) a b =
        sdiv (if a =? 0 then ent x0 b 0 else ent x ((a - 1) * nx + b) 0) (sdiv s1 (sx b)).
    Proof.
      unfold unwrap_X. destruct (rows_loop ph (le_n _)) as [G1 E1]. set (X := loop ph _ _) in *. clearbody X.
      destruct (scale_loop X nx G1 (le_n _)) as [G2 E2]. split; [exact G2|]. intros a b Ha Hb. rewrite E2 by exact Ha.
      destruct (Nat.ltb_spec b nx); [|lia]. rewrite E1 by exact Hb. destruct (Nat.leb_spec a ph); [|lia]. reflexivity.
    Qed.

    (** ** Input trajectory *)
    Lemma z2u_mul (v : nat -> F) a p : a < ph -> p < nu ->
      ssum (nu * ch) (fun c => (ent (mp_z2u m) (a * nu + p) c * v c)%S) = (su p * v (Nat.min a (ch - 1) * nu + p)%nat)%S.
    Proof.
      intros Ha Hp. rewrite (Nat.mul_comm nu ch). rewrite ssum_blocks.
      rewrite (ssum_single ch (Nat.min a (ch - 1))); [|lia|].
      - rewrite (ssum_single nu p); [|exact Hp|].
        + rewrite (mi_z2u_e m su sx HM) by lia. now rewrite !Nat.eqb_refl.
        + intros q Hq N. rewrite (mi_z2u_e m su sx HM) by lia. destruct (Nat.eqb_spec p q); [lia|]. rewrite andb_false_r. ring.
      - intros b Hb N. apply ssum_zero. intros q Hq. rewrite (mi_z2u_e m su sx HM) by lia.
        destruct (Nat.eqb_spec b (Nat.min a (ch - 1))); [lia|]. cbn [andb]. ring.
    Qed.
    Lemma u2z_mul (v : nat -> F) b q : b < ch -> q < nu ->
      ssum (ph * nu) (fun r => (ent (mp_u2z m) (b * nu + q) r * v r)%S) = (sdiv s1 (su q) * v (b * nu + q)%nat)%S.
    Proof.
      intros Hb Hq. rewrite ssum_blocks. rewrite (ssum_single ph b); [|lia|].
      - rewrite (ssum_single nu q); [|exact Hq|].
        + rewrite (mi_u2z_e m su sx HM) by lia. now rewrite !Nat.eqb_refl.
        + intros p Hp N. rewrite (mi_u2z_e m su sx HM) by lia. destruct (Nat.eqb_spec p q); [lia|]. rewrite andb_false_r. ring.
      - intros a Ha N. apply ssum_zero. intros p Hp. rewrite (mi_u2z_e m su sx HM) by lia.
        destruct (Nat.eqb_spec b a); [lia|]. cbn [andb]. ring.
    Qed.

    (** no law of arithmetic is used: the matrix-vector product as the code computes it *)
    Lemma unwrap_U_sum : gm (unwrap_U d m x) (ph + 1) nu /\
      forall a b, a <= ph -> b < nu -> ent (unwrap_U d m x) a b =
        ssum (nu * ch) (fun c => (ent (mp_z2u m) (Nat.min a (ph - 1) * nu + b)%nat c * ent x (ph * nx + c)%nat 0%nat)%S).
    Proof.
      destruct HX as (R1 & K1 & O1). pose proof (mi_z2u m su sx HM) as (Z1 & Z2 & Z3).
      unfold unwrap_U.
      set (uv := middle_rows x (ph * nx) (nu * ch)).
      assert (Guv : gm uv (nu * ch) 1).
      { unfold uv, middle_rows, block. repeat split; cbn [mrows mcols mok]; [exact K1|]. rewrite O1, R1, K1. unfold n_dec.
        destruct (Nat.leb_spec (ph * nx + nu * ch) (ph * nx + nu * ch + 1)); [reflexivity|lia]. }
      assert (Euv : forall r, ent uv r 0 = ent x (ph * nx + r) 0) by reflexivity.
      clearbody uv. destruct Guv as (U1 & U2 & U3).
      set (tm := mmul (mp_z2u m) uv).
      assert (Gtm : gm tm (ph * nu) 1).
      { unfold tm, mmul. repeat split; cbn [mrows mcols mok]; try assumption. rewrite Z2, Z3, U1, U3. cbn. now rewrite Nat.eqb_refl. }
      assert (Etm : forall r, ent tm r 0 = ssum (nu * ch) (fun c => (ent (mp_z2u m) r c * ent x (ph * nx + c)%nat 0%nat)%S)).
      { intros r. unfold tm, mmul. cbn [ent]. rewrite Z2. apply ssum_ext. intros c _. now rewrite Euv. }
      clearbody tm. destruct Gtm as (T1 & T2 & T3).
      set (tt := mtrans (unflat nu ph tm)).
      assert (Gtt : gm tt ph nu).
      { unfold tt, mtrans, unflat. repeat split; cbn [mrows mcols mok]. rewrite T1, T3. rewrite (Nat.mul_comm nu ph), Nat.leb_refl. reflexivity. }
      assert (Ett : forall a b, ent tt a b = ent tm (a * nu + b) 0) by reflexivity.
      clearbody tt. destruct Gtt as (Q1 & Q2 & Q3).
      set (M1 := set_middle_rows (mzero (ph + 1) nu) 0 ph tt).
      assert (G1 : gm M1 (ph + 1) nu).
      { unfold M1, set_middle_rows, set_block. repeat split; cbn [mrows mcols mok mzero mconst]. rewrite Q1, Q2, Q3, !Nat.eqb_refl, Nat.leb_refl.
        destruct (Nat.leb_spec (0 + ph) (ph + 1)); [reflexivity|lia]. }
      assert (E1 : forall a b, a < ph -> b < nu -> ent M1 a b = ent tt a b).
      { intros a b Ha Hb. unfold M1, set_middle_rows. cbn [mcols mzero mconst]. rewrite ent_set_block_in by lia. f_equal; lia. }
      clearbody M1. destruct G1 as (V1 & V2 & V3).
      set (M2 := set_mrow M1 ph (mrow M1 (ph - 1))).
      assert (G2 : gm M2 (ph + 1) nu).
      { apply set_mrow_gm; [repeat split; assumption| |lia]. unfold mrow, block. repeat split; cbn [mrows mcols mok]; try assumption.
        rewrite V1, V2, V3. destruct (Nat.leb_spec (ph - 1 + 1) (ph + 1)); [|lia]. now rewrite Nat.leb_refl. }
      assert (E2 : forall a b, a <= ph -> b < nu -> ent M2 a b = ent tt (Nat.min a (ph - 1)) b).
      { intros a b Ha Hb. unfold M2. rewrite set_mrow_ent by (rewrite V2; exact Hb). destruct (Nat.eqb_spec a ph) as [->|N].
        - cbn [mrow block ent]. replace (ph - 1 + 0) with (ph - 1) by lia. rewrite E1 by lia. f_equal; lia.
        - rewrite E1 by lia. f_equal. lia. }
      clearbody M2. destruct G2 as (W1 & W2 & W3). split.
      - unfold set_block. repeat split; cbn [mrows mcols mok mzero mconst]. rewrite W1, W2, W3, !Nat.eqb_refl, !Nat.leb_refl. reflexivity.
      - intros a b Ha Hb. rewrite ent_set_block_in by lia. rewrite !Nat.sub_0_r. rewrite E2, Ett, Etm by lia. reflexivity.
    Qed.
    Lemma unwrap_U_gm : gm (unwrap_U d m x) (ph + 1) nu.
    Proof. exact (proj1 unwrap_U_sum). Qed.
    Lemma unwrap_U_ent : gm (unwrap_U d m x) (ph + 1) nu /\
      forall a b, a <= ph -> b < nu -> ent (unwrap_U d m x) a b =
        (su b * ent x (ph * nx + (Nat.min a (ch - 1) * nu + b))%nat 0%nat)%S.
    Proof.
      destruct unwrap_U_sum as [G E]. split; [exact G|]. intros a b Ha Hb. rewrite E by assumption.
      rewrite (z2u_mul (fun c => ent x (ph * nx + c) 0)) by lia.
      replace (Nat.min (Nat.min a (ph - 1)) (ch - 1)) with (Nat.min a (ch - 1)) by lia. reflexivity.
    Qed.
    Lemma unwrap_e_ent : unwrap_e x = ent x (ph * nx + nu * ch) 0.
    Proof. destruct HX as (R1 & _ & _). unfold unwrap_e. rewrite R1. unfold n_dec. f_equal. lia. Qed.
  End Pt.
End Traj.
