(** Closed forms of the vectors handed to the solver: assembly of the gradients (Objective.hpp:102-139,
    Constraints.hpp:461-485). *)
From Coq Require Import Bool Arith List Lia Ring Field BinPos.
From Verif Require Import Scalar Sums Mat Builder BuilderEnt NLMap NLTraj NLFun SpecNL NLLoop NLGrad.
Import ListNotations.

Section Eval.
  Context {F : Type} {SO : ScalarOps F} {SL : ScalarLaws F}.
  Variable junk : nat -> nat -> F.
  Variable d : dims.
  Variables ni ne : nat.
  Notation nx := (d_nx d). Notation nu := (d_nu d). Notation ny := (d_ny d).
  Notation ph := (d_ph d). Notation ch := (d_ch d).
  Add Field SFe : s_field.
  Variables (m : mapping F) (su sx : nat -> F).
  Hypothesis HM : map_is d m su sx.
  Hypothesis P : 0 < ph.
  Hypothesis C0 : 0 < ch.
  Hypothesis C : ch <= ph.

  (** transposed input map: Iz2u^T v *)
  Lemma z2u_tmul (v : nat -> F) b q : b < ch -> q < nu ->
    ssum (ph * nu) (fun r => (v r * ent (mp_z2u m) r (b * nu + q)%nat)%S) = (su q * over_block d b (fun a => v (a * nu + q)%nat))%S.
  Proof.
    intros Hb Hq. rewrite ssum_blocks. unfold over_block. rewrite <- ssum_mul_l. apply ssum_ext. intros a Ha.
    rewrite (ssum_single nu q); [|exact Hq|].
    - rewrite (mi_z2u_e d m su sx HM) by lia. rewrite Nat.eqb_refl, andb_true_r. unfold held. rewrite (Nat.eqb_sym b).
      destruct (Nat.min a (ch - 1) =? b); ring.
    - intros p Hp N. rewrite (mi_z2u_e d m su sx HM) by lia. destruct (Nat.eqb_spec p q); [lia|]. rewrite andb_false_r. ring.
  Qed.

  Lemma glue_ent n Jres Jst Jman Jcon : gm Jres (n_dec d) n -> gm Jst n (ph * nx) -> gm Jman n (ph * nu) -> gm Jcon n 1 ->
    let G := glue junk d m n Jres Jst Jman Jcon in
    gm G (n_dec d) n /\
    (forall i j c, i < ph -> j < nx -> c < n -> ent G (i * nx + j) c = ent Jst c (i * nx + j)) /\
    (forall b j c, b < ch -> j < nu -> c < n -> ent G (ph * nx + (b * nu + j)) c = (su j * over_block d b (fun a => ent Jman c (a * nu + j)%nat))%S) /\
    (forall c, c < n -> ent G (ph * nx + nu * ch) c = ent Jcon c 0).
  Proof.
    intros GR GS GM GC. unfold glue.
    assert (L1 : forall k, k <= ph -> let J := loop k (fun i J => set_middle_rows J (i * nx) nx (mtrans (block Jst 0 (i * nx) (mrows Jst) nx))) Jres in
      gm J (n_dec d) n /\ forall i j c, i < k -> j < nx -> c < n -> ent J (i * nx + j) c = ent Jst c (i * nx + j)).
    { destruct GS as (S1 & S2 & S3). induction k as [|k IH]; intros Hk; cbn [loop]; [split; [exact GR|lia]|].
      destruct (IH ltac:(lia)) as [(J1 & J2 & J3) E]. set (J := loop k _ _) in *. clearbody J. cbn zeta.
      pose proof (blk_le k ph nx ltac:(lia)) as Hb. split.
      - unfold set_middle_rows, set_block, mtrans, block. repeat split; cbn [mrows mcols mok]; try assumption.
        rewrite J1, J2, J3, S1, S2, S3, !Nat.eqb_refl, !Nat.add_0_l, !Nat.leb_refl. unfold n_dec.
        destruct (Nat.leb_spec (k * nx + nx) (ph * nx)), (Nat.leb_spec (k * nx + nx) (ph * nx + nu * ch + 1)); try lia; reflexivity.
      - intros i j c Hi Hj Hc. unfold set_middle_rows. rewrite J2. destruct (Nat.eq_dec i k) as [->|N].
        + rewrite ent_set_block_in by lia. cbn [mtrans block ent]. f_equal; lia.
        + pose proof (blk_le i k nx ltac:(lia)). rewrite ent_set_block_row_out by lia. apply E; lia. }
    destruct (L1 ph (le_n _)) as [(J1 & J2 & J3) EJ]. set (J := loop ph _ Jres) in *. clearbody J. clear L1.
    rewrite J2.
    assert (L2 : forall k, k <= ph -> let M := loop k (fun i M => set_block M 0 (i * nu) n nu (block Jman 0 (i * nu) (mrows Jman) nu)) (mjunk junk n (ph * nu)) in
      gm M n (ph * nu) /\ forall i j c, i < k -> j < nu -> c < n -> ent M c (i * nu + j) = ent Jman c (i * nu + j)).
    { destruct GM as (S1 & S2 & S3). induction k as [|k IH]; intros Hk; cbn [loop]; [split; [repeat split|lia]|].
      destruct (IH ltac:(lia)) as [(M1 & M2 & M3) E]. set (M := loop k _ _) in *. clearbody M. cbn zeta.
      pose proof (blk_le k ph nu ltac:(lia)) as Hb. split.
      - unfold set_block, block. repeat split; cbn [mrows mcols mok]; try assumption.
        rewrite M1, M2, M3, S1, S2, S3, !Nat.eqb_refl, !Nat.add_0_l, !Nat.leb_refl.
        destruct (Nat.leb_spec (k * nu + nu) (ph * nu)); [reflexivity|lia].
      - intros i j c Hi Hj Hc. destruct (Nat.eq_dec i k) as [->|N].
        + rewrite ent_set_block_in by lia. cbn [block ent]. f_equal; lia.
        + pose proof (blk_le i k nu ltac:(lia)). rewrite ent_set_block_col_out by lia. apply E; lia. }
    destruct (L2 ph (le_n _)) as [(M1 & M2 & M3) EM]. set (Jm := loop ph _ (mjunk junk n (ph * nu))) in *. clearbody Jm. clear L2.
    destruct (mi_z2u d m su sx HM) as (Z1 & Z2 & Z3).
    set (T := mtrans (mmul Jm (mp_z2u m))).
    assert (GT : gm T (nu * ch) n).
    { unfold T, mtrans, mmul. repeat split; cbn [mrows mcols mok]; try assumption. rewrite M2, M3, Z1, Z3, Nat.eqb_refl. reflexivity. }
    assert (ET : forall b j c, b < ch -> j < nu -> c < n -> ent T (b * nu + j) c = (su j * over_block d b (fun a => ent Jman c (a * nu + j)%nat))%S).
    { intros b j c Hb Hj Hc. unfold T, mtrans, mmul. cbn [ent]. rewrite M2. rewrite (z2u_tmul (fun r => ent Jm c r)) by assumption.
      f_equal. unfold over_block. apply ssum_ext. intros a Ha. destruct (held d a =? b); [|reflexivity]. now apply EM. }
    clearbody T. destruct GT as (T1 & T2 & T3). destruct GC as (K1 & K2 & K3).
    set (G1 := set_middle_rows J (ph * nx) (nu * ch) T).
    assert (H1 : mrows G1 = n_dec d) by exact J1. assert (H2 : mcols G1 = n) by exact J2.
    assert (H3 : mok G1 = true).
    { unfold G1, set_middle_rows, set_block. cbn [mok]. rewrite J1, J2, J3, T1, T2, T3, !Nat.eqb_refl, !Nat.add_0_l, !Nat.leb_refl. unfold n_dec.
      destruct (Nat.leb_spec (ph * nx + nu * ch) (ph * nx + nu * ch + 1)); [reflexivity|lia]. }
    assert (E1 : forall r c, c < n -> ent G1 r c = if (ph * nx <=? r) && (r <? ph * nx + nu * ch) then ent T (r - ph * nx) c else ent J r c).
    { intros r c Hc. unfold G1, set_middle_rows. rewrite J2. destruct (Nat.leb_spec (ph * nx) r), (Nat.ltb_spec r (ph * nx + nu * ch)); cbn [andb].
      - rewrite ent_set_block_in by lia. f_equal; lia.
      - apply ent_set_block_row_out. lia.
      - apply ent_set_block_row_out. lia.
      - apply ent_set_block_row_out. lia. }
    clearbody G1. cbn zeta. unfold set_middle_rows. rewrite H1, H2.
    replace (n_dec d - 1) with (ph * nx + nu * ch) by (unfold n_dec; lia).
    refine (conj _ (conj _ (conj _ _))).
    - unfold set_block, mtrans. repeat split; cbn [mrows mcols mok]; try assumption.
      rewrite H1, H2, H3, K1, K2, K3, !Nat.eqb_refl, !Nat.add_0_l, !Nat.leb_refl. unfold n_dec.
      destruct (Nat.leb_spec (ph * nx + nu * ch + 1) (ph * nx + nu * ch + 1)); [reflexivity|lia].
    - intros i j c Hi Hj Hc. pose proof (blk_lt i ph nx j Hi Hj). rewrite ent_set_block_row_out by lia. rewrite E1 by exact Hc.
      destruct (Nat.leb_spec (ph * nx) (i * nx + j)); [lia|]. cbn [andb]. now apply EJ.
    - intros b j c Hb Hj Hc. pose proof (blk_lt b ch nu j Hb Hj). rewrite ent_set_block_row_out by lia. rewrite E1 by exact Hc.
      destruct (Nat.leb_spec (ph * nx) (ph * nx + (b * nu + j))), (Nat.ltb_spec (ph * nx + (b * nu + j)) (ph * nx + nu * ch)); try lia. cbn [andb].
      replace (ph * nx + (b * nu + j) - ph * nx) with (b * nu + j) by lia. now apply ET.
    - intros c Hc. rewrite ent_set_block_in by lia. cbn [mtrans ent]. f_equal; lia.
  Qed.

  (** one column of [scale_rows] *)
  Lemma scale_rows_ent n J : gm J (n_dec d) n ->
    gm (scale_rows d m J) (n_dec d) n /\
    (forall i j c, i < ph -> j < nx -> c < n -> ent (scale_rows d m J) (i * nx + j) c = (ent J (i * nx + j)%nat c * sx j)%S) /\
    (forall r c, ph * nx <= r -> c < n -> ent (scale_rows d m J) r c = ent J r c).
  Proof.
    intros GJ. unfold scale_rows. assert (JC := proj1 (proj2 GJ)). rewrite JC.
    assert (In : forall col k ioff (M : mat F), k <= nx -> gm M (n_dec d) n -> col < n -> ioff + nx <= n_dec d ->
      let M' := loop k (fun ix J => set_entry J (ioff + ix) col (smul (ent J (ioff + ix) col) (ent (mp_st m) ix 0))) M in
      gm M' (n_dec d) n /\ forall r c, ent M' r c = if (c =? col) && (ioff <=? r) && (r <? ioff + k) then (ent M r c * sx (r - ioff)%nat)%S else ent M r c).
    { intros col k ioff M Hk GM Hcol Hio. induction k as [|k IH]; cbn [loop].
      - split; [exact GM|]. intros r c. destruct (Nat.leb_spec ioff r), (Nat.ltb_spec r (ioff + 0)); try lia; rewrite ?andb_false_r; reflexivity.
      - destruct (IH ltac:(lia)) as [GI EI]. set (M1 := loop k _ _) in *. clearbody M1. cbn zeta. split.
        + apply set_entry_gm; [exact GI|lia|exact Hcol].
        + intros r c. rewrite ent_set_entry, !EI. rewrite (mi_sx d m su sx HM) by lia.
          destruct (Nat.eqb_spec r (ioff + k)) as [->|N]; cbn [andb].
          * replace (ioff + k - ioff) with k by lia. rewrite Nat.eqb_refl.
            destruct (Nat.leb_spec ioff (ioff + k)), (Nat.ltb_spec (ioff + k) (ioff + k)), (Nat.ltb_spec (ioff + k) (ioff + S k)); try lia.
            rewrite !andb_true_r, !andb_false_r. destruct (Nat.eqb_spec c col); [now subst|reflexivity].
          * destruct (Nat.leb_spec ioff r), (Nat.ltb_spec r (ioff + k)), (Nat.ltb_spec r (ioff + S k)); try lia; reflexivity. }
    assert (Co : forall col k (M : mat F), k <= ph -> gm M (n_dec d) n -> col < n ->
      let '(io, M') := loop k (fun _ '(ioff, J) => (ioff + nx, loop nx (fun ix J => set_entry J (ioff + ix) col (smul (ent J (ioff + ix) col) (ent (mp_st m) ix 0))) J)) (0, M) in
      io = k * nx /\ gm M' (n_dec d) n /\ (forall i j c, j < nx -> ent M' (i * nx + j) c = if (c =? col) && (i <? k) then (ent M (i * nx + j)%nat c * sx j)%S else ent M (i * nx + j) c) /\
      (forall r c, k * nx <= r -> ent M' r c = ent M r c)).
    { intros col k M Hk GM Hcol. induction k as [|k IH]; cbn [loop].
      - refine (conj eq_refl (conj GM (conj _ _))); [|reflexivity]. intros i j c Hj. now rewrite andb_false_r.
      - specialize (IH ltac:(lia)). destruct (loop k _ _) as [io M1]. destruct IH as (-> & GI & EI & EO).
        pose proof (blk_le k ph nx ltac:(lia)) as Hb.
        destruct (In col nx (k * nx) M1 (le_n _) GI Hcol ltac:(unfold n_dec; lia)) as [G2 E2].
        set (M2 := loop nx _ M1) in *. clearbody M2. refine (conj _ (conj G2 (conj _ _))); [lia| |].
        + intros i j c Hj. rewrite E2. destruct (Nat.eqb_spec c col) as [->|]; cbn [andb]; [|rewrite EI by exact Hj; destruct (Nat.eqb_spec c col); [lia|reflexivity]].
          rewrite EI by exact Hj. rewrite Nat.eqb_refl. cbn [andb].
          destruct (Nat.ltb_spec i k), (Nat.ltb_spec i (S k)).
          * pose proof (blk_le i k nx ltac:(lia)). destruct (Nat.leb_spec (k * nx) (i * nx + j)); [lia|]. reflexivity.
          * lia.
          * assert (i = k) as -> by lia. destruct (Nat.leb_spec (k * nx) (k * nx + j)), (Nat.ltb_spec (k * nx + j) (k * nx + nx)); try lia. cbn [andb].
            f_equal. f_equal. lia.
          * pose proof (blk_le k i nx ltac:(lia)). destruct (Nat.ltb_spec (i * nx + j) (k * nx + nx)); [lia|]. rewrite andb_false_r. reflexivity.
        + intros r c Hr. rewrite E2. destruct (Nat.ltb_spec r (k * nx + nx)); [lia|]. rewrite andb_false_r. apply EO. lia. }
    assert (Al : forall k, k <= n -> let M := loop k (fun j J => snd (loop ph (fun _ '(ioff, J) => (ioff + nx, loop nx (fun ix J => set_entry J (ioff + ix) j (smul (ent J (ioff + ix) j) (ent (mp_st m) ix 0))) J)) (0, J))) J in
      gm M (n_dec d) n /\ (forall i j c, i < ph -> j < nx -> ent M (i * nx + j) c = if c <? k then (ent J (i * nx + j)%nat c * sx j)%S else ent J (i * nx + j) c) /\
      (forall r c, ph * nx <= r -> ent M r c = ent J r c)).
    { induction k as [|k IH]; intros Hk; cbn [loop]; [refine (conj GJ (conj _ _)); reflexivity|].
      destruct (IH ltac:(lia)) as (GI & EI & EO). set (M1 := loop k _ _) in *. clearbody M1. cbn zeta.
      pose proof (Co k ph M1 (le_n _) GI ltac:(lia)) as HC. destruct (loop ph _ (0, M1)) as [io M2]. cbn [snd]. destruct HC as (_ & G2 & E2 & O2).
      refine (conj G2 (conj _ _)).
      - intros i j c Hi Hj. rewrite E2, EI by assumption. destruct (Nat.ltb_spec i ph); [|lia]. rewrite andb_true_r.
        destruct (Nat.eqb_spec c k), (Nat.ltb_spec c k), (Nat.ltb_spec c (S k)); try reflexivity; lia.
      - intros r c Hr. rewrite O2 by exact Hr. now apply EO. }
    destruct (Al n (le_n _)) as (A1 & A2 & A3). refine (conj A1 (conj _ _)).
    - intros i j c Hi Hj Hc. rewrite A2 by assumption. destruct (Nat.ltb_spec c n); [reflexivity|lia].
    - intros r c Hr _. now apply A3.
  Qed.

  Lemma mflat_ent (J : mat F) R n r c : gm J R n -> r < R -> ent (mflat J) (c * R + r) 0 = ent J r c.
  Proof. intros (J1 & _ & _) Hr. unfold mflat. cbn [ent]. rewrite J1. destruct (divmod_unique c r R Hr) as [-> ->]. reflexivity. Qed.

  (** ** The evaluation functions *)
  Section Pt.
    Variables (x x0 : mat F) (z xi : nat -> F).
    Hypothesis HX : gm x (n_dec d) 1.
    Hypothesis HX0 : gm x0 nx 1.
    Hypothesis HZ : forall k, k < n_dec d -> ent x k 0 = z k.
    Hypothesis Sx0 : forall j, j < nx -> sx j <> s0.
    Hypothesis Hxi : forall j, j < nx -> xi j = (sx j * ent x0 j 0)%S.

    Lemma traj_X : rep (unwrap_X d m x x0) (ph + 1) nx (st_traj d sx xi z).
    Proof.
      destruct (unwrap_X_ent d m su sx x x0 HM HX HX0 P C0 C) as [G E]. split; [exact G|]. intros a b Ha Hb.
      rewrite E by lia. unfold st_traj, v_state. destruct (Nat.eqb_spec a 0).
      - rewrite Hxi by exact Hb. field; repeat split; (apply s1_neq_0 || (apply Sx0; exact Hb)).
      - rewrite HZ; [field; repeat split; (apply s1_neq_0 || (apply Sx0; exact Hb))|]. unfold n_dec. pose proof (blk_lt (a - 1) ph nx b ltac:(lia) Hb). lia.
    Qed.
    Lemma traj_U : rep (unwrap_U d m x) (ph + 1) nu (in_traj d su z).
    Proof.
      destruct (unwrap_U_ent d m su sx x HM HX P C0 C) as [G E]. split; [exact G|]. intros a b Ha Hb.
      rewrite E by lia. unfold in_traj, v_input, held. rewrite HZ; [reflexivity|].
      unfold n_dec. pose proof (blk_lt (Nat.min a (ch - 1)) ch nu b ltac:(lia) Hb). lia.
    Qed.
    Lemma traj_e : unwrap_e x = z (v_slack d).
    Proof. rewrite (unwrap_e_ent d x HX P C0 C). apply HZ. unfold n_dec, v_slack. lia. Qed.

    Notation Xt := (st_traj d sx xi z). Notation Ut := (in_traj d su z). Notation et := (z (v_slack d)).

    Lemma obj_evaluate_ent f og : let '(v, g) := obj_evaluate junk d m f og x0 x in
      v = obj_at d f og Xt Ut et /\ gm g (n_dec d) 1 /\
      (forall i j, i < ph -> j < nx -> ent g (i * nx + j) 0 = let dx := (dv_obj * lstep (ph + 1) Xt j)%S in fwd (obj_at d f og (pert Xt (i + 1) j dx) Ut et) v dx) /\
      (forall b j, b < ch -> j < nu -> ent g (ph * nx + (b * nu + j)) 0 = (su j * over_block d b (fun a =>
          let du := (dv_obj * lstep (ph + 1) Ut j)%S in
          fwd (obj_at d f og Xt (if (a =? ph - 1)%nat then pert_last d Ut j du else pert Ut a j du) et) v du))%S) /\
      ent g (ph * nx + nu * ch) 0 = let de := (smax (sdec 1%positive 1000000%positive) (sabs et) * dv_obj)%S in
          ctr (obj_at d f og Xt Ut (et + de)%S) (obj_at d f og Xt Ut (et - de)%S) de.
    Proof.
      unfold obj_evaluate. rewrite traj_e.
      pose proof traj_X as TX. pose proof traj_U as TU. set (X := unwrap_X d m x x0) in *. set (U := unwrap_U d m x) in *. clearbody X U.
      rewrite (obj_call_at d f og X U _ _ et TX TU). unfold obj_jacobian.
      pose proof (obj_jx_ent d X U Xt Ut et TX TU P f og (obj_at d f og Xt Ut et)) as H.
      destruct (obj_jx d f og X U et _) as [X' Jx]. destruct H as (RX' & GJx & EJx).
      pose proof (obj_ju_ent d X' U Xt Ut et RX' TU P f og (obj_at d f og Xt Ut et)) as H.
      destruct (obj_ju_inner d f og (abs1 U) X' U _ et _) as [U1 J1]. destruct (obj_ju_last d f og (abs1 U) X' U1 J1 et _) as [U' Jmv].
      destruct H as (RU' & GJu & EJu).
      pose proof (put_cols_ent Jx (mjunk junk (n_dec d) 1) 0 nx ph (n_dec d) GJx ltac:(repeat split) ltac:(unfold n_dec; lia)) as H.
      destruct (put_cols Jx 0 _) as [c g1]. destruct H as (-> & G1 & E1).
      pose proof (put_cols_ent Jmv (mjunk junk (ph * nu) 1) 0 nu ph (ph * nu) GJu ltac:(repeat split) ltac:(lia)) as H.
      destruct (put_cols Jmv 0 _) as [c jv]. destruct H as (_ & (V1 & V2 & V3) & E2).
      destruct (mi_z2u d m su sx HM) as (Z1 & Z2 & Z3).
      set (res := mmul (mtrans (mp_z2u m)) jv).
      assert (Gr : gm res (nu * ch) 1).
      { unfold res, mmul, mtrans. repeat split; cbn [mrows mcols mok]; try assumption. rewrite Z1, Z3, V1, V3, Nat.eqb_refl. reflexivity. }
      assert (Er : forall b j, b < ch -> j < nu -> ent res (b * nu + j) 0 = (su j * over_block d b (fun a => ent Jmv j a))%S).
      { intros b j Hb Hj. unfold res, mmul, mtrans. cbn [ent mcols]. rewrite Z1.
        rewrite (ssum_ext _ _ (fun r => (ent jv r 0 * ent (mp_z2u m) r (b * nu + j)%nat)%S)) by (intros; ring).
        rewrite (z2u_tmul (fun r => ent jv r 0)) by assumption. f_equal. unfold over_block. apply ssum_ext. intros a Ha.
        destruct (held d a =? b); [|reflexivity]. rewrite E2. pose proof (blk_lt a ph nu j Ha Hj).
        destruct (Nat.leb_spec 0 (a * nu + j)), (Nat.ltb_spec (a * nu + j) (0 + ph * nu)); try lia. cbn [andb]. rewrite Nat.sub_0_r.
        destruct (divmod_unique a j nu Hj) as [-> ->]. reflexivity. }
      clearbody res. destruct Gr as (Q1 & Q2 & Q3).
      assert (L : forall k, k <= ch * nu -> let '(c', g') := loop k (fun j '(c, g) => (S c, set_entry g c 0 (ent res j 0))) (0 + ph * nx, g1) in
        c' = ph * nx + k /\ gm g' (n_dec d) 1 /\ forall p, ent g' p 0 = if (ph * nx <=? p) && (p <? ph * nx + k) then ent res (p - ph * nx) 0 else ent g1 p 0).
      { induction k as [|k IH]; intros Hk; cbn [loop].
        - refine (conj _ (conj G1 _)); [lia|]. intros p. destruct (Nat.leb_spec (ph * nx) p), (Nat.ltb_spec p (ph * nx + 0)); try lia; reflexivity.
        - specialize (IH ltac:(lia)). destruct (loop k _ _) as [c' g']. destruct IH as (-> & G' & E'). refine (conj _ (conj _ _)); [lia| |].
          + apply set_entry_gm; [exact G'|unfold n_dec; lia|lia].
          + intros p. rewrite ent_set_entry, Nat.eqb_refl, andb_true_r, E'. destruct (Nat.eqb_spec p (ph * nx + k)) as [->|N].
            * replace (ph * nx + k - ph * nx) with k by lia. destruct (Nat.leb_spec (ph * nx) (ph * nx + k)), (Nat.ltb_spec (ph * nx + k) (ph * nx + S k)); try lia; reflexivity.
            * destruct (Nat.leb_spec (ph * nx) p), (Nat.ltb_spec p (ph * nx + k)), (Nat.ltb_spec p (ph * nx + S k)); try lia; reflexivity. }
      specialize (L (ch * nu) (le_n _)). destruct (loop (ch * nu) _ _) as [c' g2]. destruct L as (_ & G2 & E3).
      refine (conj eq_refl (conj _ (conj _ (conj _ _)))).
      - assert (GG : gm (set_entry g2 (n_dec d - 1) 0 (obj_je d f og X' U' et)) (n_dec d) 1) by (apply set_entry_gm; [exact G2|unfold n_dec; lia|lia]).
        destruct GG as (W1 & W2 & W3). unfold guard. repeat split; cbn [mrows mcols mok]; try assumption. now rewrite W3, Q3.
      - intros i j Hi Hj. pose proof (blk_lt i ph nx j Hi Hj). unfold guard. cbn [ent]. rewrite ent_set_entry.
        destruct (Nat.eqb_spec (i * nx + j) (n_dec d - 1)); [unfold n_dec in *; lia|]. cbn [andb]. rewrite E3.
        destruct (Nat.leb_spec (ph * nx) (i * nx + j)); [lia|]. cbn [andb]. rewrite E1, Nat.sub_0_r.
        destruct (Nat.leb_spec 0 (i * nx + j)), (Nat.ltb_spec (i * nx + j) (0 + ph * nx)); try lia. cbn [andb].
        destruct (divmod_unique i j nx Hj) as [-> ->]. now apply EJx.
      - intros b j Hb Hj. pose proof (blk_lt b ch nu j Hb Hj). unfold guard. cbn [ent]. rewrite ent_set_entry.
        destruct (Nat.eqb_spec (ph * nx + (b * nu + j)) (n_dec d - 1)); [unfold n_dec in *; lia|]. cbn [andb]. rewrite E3.
        destruct (Nat.leb_spec (ph * nx) (ph * nx + (b * nu + j))), (Nat.ltb_spec (ph * nx + (b * nu + j)) (ph * nx + ch * nu)); try lia. cbn [andb].
        replace (ph * nx + (b * nu + j) - ph * nx) with (b * nu + j) by lia. rewrite Er by assumption. f_equal. unfold over_block. apply ssum_ext.
        intros a Ha. destruct (held d a =? b); [|reflexivity]. now apply EJu.
      - unfold guard. cbn [ent]. rewrite ent_set_entry. destruct (Nat.eqb_spec (ph * nx + nu * ch) (n_dec d - 1)); [|unfold n_dec in *; lia].
        cbn [andb Nat.eqb]. unfold obj_je. rewrite !(obj_call_at d f og X' U' Xt Ut _ RX' RU'). reflexivity.
    Qed.

    Lemma ieq_evaluate_ent c og : let '(v, g) := ieq_evaluate junk d ni m c og x0 x in
      gm v ni 1 /\ (forall k, ent v k 0 = ieq_at d c og k Xt Ut et) /\ gm g (n_dec d * ni) 1 /\
      (forall k i j, k < ni -> i < ph -> j < nx -> ent g (k * n_dec d + (i * nx + j)) 0 = ((let dx := (dv_con * lstep (ph + 1) Xt j)%S in
          ctr (ieq_at d c og k (pert Xt (i + 1) j dx) Ut et) (ieq_at d c og k (pert Xt (i + 1) j (- dx)%S) Ut et) dx) * sx j)%S) /\
      (forall k b j, k < ni -> b < ch -> j < nu -> ent g (k * n_dec d + (ph * nx + (b * nu + j))) 0 = (su j * over_block d b (fun a =>
          let du := (dv_con * lstep (ph + 1) Ut j)%S in
          ctr (ieq_at d c og k Xt (pert Ut a j du) et) (ieq_at d c og k Xt (pert Ut a j (- du)%S) et) du))%S) /\
      (forall k, k < ni -> ent g (k * n_dec d + (ph * nx + nu * ch)) 0 = let de := (smax dv_con (sabs et) * dv_con)%S in
          ctr (ieq_at d c og k Xt Ut (et + de)%S) (ieq_at d c og k Xt Ut (et - de)%S) de).
    Proof.
      unfold ieq_evaluate. rewrite traj_e.
      pose proof traj_X as TX. pose proof traj_U as TU. set (X := unwrap_X d m x x0) in *. set (U := unwrap_U d m x) in *. clearbody X U.
      pose proof (ieq_jx_ent d ni X U Xt Ut et TX TU P c og) as H.
      destruct (ieq_jx d ni c og X U et) as [X' Jx]. destruct H as (RX' & GJx & EJx).
      pose proof (ieq_ju_ent d ni X' U Xt Ut et RX' TU P c og) as H.
      destruct (ieq_ju d ni c og X' U et) as [U' Ju]. destruct H as (RU' & GJu & EJu).
      pose proof (ieq_je_ent d ni X' U' Xt Ut et RX' RU' c og) as He.
      destruct (glue_ent ni (mjunk junk (n_dec d) ni) Jx Ju (ieq_je d ni c og X' U' et) ltac:(repeat split) GJx GJu (proj1 (He 0))) as (GG & EGx & EGu & EGe).
      set (G := glue _ _ _ _ _ _ _ _) in *. clearbody G.
      destruct (scale_rows_ent ni G GG) as (GS & ES & EO). set (S := scale_rows d m G) in *. clearbody S.
      assert (Hl : forall i j, i < ph -> j < nx -> i * nx + j < n_dec d) by (intros i j Hi Hj; pose proof (blk_lt i ph nx j Hi Hj); unfold n_dec; lia).
      assert (Hl2 : forall b j, b < ch -> j < nu -> ph * nx + (b * nu + j) < n_dec d) by (intros i j Hi Hj; pose proof (blk_lt i ch nu j Hi Hj); unfold n_dec; lia).
      refine (conj _ (conj _ (conj _ (conj _ (conj _ _))))).
      - repeat split.
      - intros k. apply (ieq_call_at d ni c og X U Xt Ut et k TX TU).
      - destruct GS as (S1 & S2 & S3). unfold mflat. repeat split; cbn [mrows mcols mok]; [now rewrite S1, S2|exact S3].
      - intros k i j Hk Hi Hj. rewrite (mflat_ent S (n_dec d) ni _ k GS (Hl i j Hi Hj)). rewrite ES, EGx, EJx by assumption. reflexivity.
      - intros k b j Hk Hb Hj. rewrite (mflat_ent S (n_dec d) ni _ k GS (Hl2 b j Hb Hj)). rewrite EO by (assumption || lia). rewrite EGu by assumption.
        f_equal. unfold over_block. apply ssum_ext. intros a Ha. destruct (held d a =? b); [|reflexivity]. now apply EJu.
      - intros k Hk. rewrite (mflat_ent S (n_dec d) ni (ph * nx + nu * ch) k GS ltac:(unfold n_dec; lia)). rewrite EO by (assumption || lia). rewrite EGe by assumption. apply He.
    Qed.

    Lemma eqc_evaluate_ent c : let '(v, g) := eqc_evaluate junk d ne m c x0 x in
      gm v ne 1 /\ (forall k, ent v k 0 = eqc_at d c k Xt Ut) /\ gm g (n_dec d * ne) 1 /\
      (forall k i j, k < ne -> i < ph -> j < nx -> ent g (k * n_dec d + (i * nx + j)) 0 = ((let dx := (dv_con * smax (sabs (Xt (i + 1)%nat j)) s1)%S in
          ctr (eqc_at d c k (pert Xt (i + 1) j dx) Ut) (eqc_at d c k (pert Xt (i + 1) j (- dx)%S) Ut) dx) * sx j)%S) /\
      (forall k b j, k < ne -> b < ch -> j < nu -> ent g (k * n_dec d + (ph * nx + (b * nu + j))) 0 = (su j * over_block d b (fun a =>
          let du := (dv_con * smax (sabs (Ut (ph - 1)%nat j)) s1)%S in
          let pt t := if (a =? ph - 1)%nat then pert_last d Ut j t else pert Ut a j t in
          ctr (eqc_at d c k Xt (pt du)) (eqc_at d c k Xt (pt (- du)%S)) du))%S) /\
      (forall k, k < ne -> ent g (k * n_dec d + (ph * nx + nu * ch)) 0 = s0).
    Proof.
      unfold eqc_evaluate.
      pose proof traj_X as TX. pose proof traj_U as TU. set (X := unwrap_X d m x x0) in *. set (U := unwrap_U d m x) in *. clearbody X U.
      pose proof (eqc_jx_ent d ne X U Xt Ut TX TU P c) as H.
      destruct (eqc_jx d ne c X U) as [X' Jx]. destruct H as (RX' & GJx & EJx).
      pose proof (eqc_ju_ent d ne X' U Xt Ut RX' TU P c) as H.
      destruct (eqc_ju_inner d ne c (abs1 U) X' U _) as [U1 J1]. destruct (eqc_ju_last d ne c (abs1 U) X' U1 J1) as [U2 Ju].
      destruct H as (GJu & EJu).
      destruct (glue_ent ne (mjunk junk (n_dec d) ne) Jx Ju (mzero ne 1) ltac:(repeat split) GJx GJu ltac:(repeat split)) as (GG & EGx & EGu & EGe).
      set (G := glue _ _ _ _ _ _ _ _) in *. clearbody G.
      destruct (scale_rows_ent ne G GG) as (GS & ES & EO). set (S := scale_rows d m G) in *. clearbody S.
      assert (Hl : forall i j, i < ph -> j < nx -> i * nx + j < n_dec d) by (intros i j Hi Hj; pose proof (blk_lt i ph nx j Hi Hj); unfold n_dec; lia).
      assert (Hl2 : forall b j, b < ch -> j < nu -> ph * nx + (b * nu + j) < n_dec d) by (intros i j Hi Hj; pose proof (blk_lt i ch nu j Hi Hj); unfold n_dec; lia).
      refine (conj _ (conj _ (conj _ (conj _ (conj _ _))))).
      - repeat split.
      - intros k. apply (eqc_call_at d ne c X U Xt Ut k TX TU).
      - destruct GS as (S1 & S2 & S3). unfold mflat. repeat split; cbn [mrows mcols mok]; [now rewrite S1, S2|exact S3].
      - intros k i j Hk Hi Hj. rewrite (mflat_ent S (n_dec d) ne _ k GS (Hl i j Hi Hj)). rewrite ES, EGx, EJx by assumption. reflexivity.
      - intros k b j Hk Hb Hj. rewrite (mflat_ent S (n_dec d) ne _ k GS (Hl2 b j Hb Hj)). rewrite EO by (assumption || lia). rewrite EGu by assumption.
        f_equal. unfold over_block. apply ssum_ext. intros a Ha. destruct (held d a =? b); [|reflexivity]. now apply EJu.
      - intros k Hk. rewrite (mflat_ent S (n_dec d) ne (ph * nx + nu * ch) k GS ltac:(unfold n_dec; lia)). rewrite EO by (assumption || lia). rewrite EGe by assumption. reflexivity.
    Qed.
  End Pt.
End Eval.
