(** Optimization step of the non-linear controller: starting point, result, and the refinement of whole histories. *)
From Coq Require Import Bool Arith ZArith List Lia Ring Field.
From Verif Require Import Scalar Sums Mat Slice Builder BuilderEnt LMPC NLMap NLTraj NLFun SpecNL NLLoop NLGrad NLEval NLMPC SpecLMPC SpecNLC NLRef.
Import ListNotations.

Section Run.
  Context {F : Type} {SO : ScalarOps F} {SM : ScalarMild F} {SL : ScalarLaws F}.
  Variable junk : nat -> nat -> F.
  Variable d : dims.
  Variables ni ne : nat.
  Variable dyn_eq : bool.
  Notation nx := (d_nx d). Notation nu := (d_nu d). Notation ny := (d_ny d).
  Notation ph := (d_ph d). Notation ch := (d_ch d).
  Notation N := (n_dec d). Notation NR := (NR d).
  Hypothesis C0 : 0 < ch.
  Hypothesis C : ch <= ph.

  Lemma ph_pos : 0 < ph. Proof. lia. Qed.

  (** *** the vector before the shift *)
  Lemma cold_rep (x0 u0 v : mat F) : gm v N 1 -> gm (cold_fill d x0 u0 v) N 1 /\
    forall r, r < ph * nx + nu * ch -> ent (cold_fill d x0 u0 v) r 0 = constant_vec d (vec x0) (vec u0) (fun i => ent v i 0) r.
  Proof.
    intros G. unfold cold_fill.
    assert (B1 : 0 + ph * nx <= N) by (unfold n_dec; lia).
    destruct (vloop2 (fun _ j => ent x0 j 0) N 0 nx ph v G B1) as (G1 & E1 & E2). cbn zeta in *. cbn [Nat.add] in *.
    set (v1 := loop ph _ v) in *. clearbody v1.
    assert (B2 : ph * nx + ch * nu <= N) by (unfold n_dec; lia).
    destruct (vloop2 (fun _ j => ent u0 j 0) N (ph * nx) nu ch v1 G1 B2) as (G2 & E3 & E4). cbn zeta in *.
    set (v2 := loop ch _ v1) in *. clearbody v2. split; [exact G2|]. intros r Hr. unfold constant_vec, vec.
    destruct (Nat.ltb_spec r (ph * nx)) as [L|L].
    - rewrite E4 by lia. destruct (blk_split r ph nx L) as (i & j & Hi & Hj & ->). rewrite E1 by assumption.
      now rewrite (proj2 (divmod_unique i j nx Hj)).
    - destruct (Nat.ltb_spec r (ph * nx + nu * ch)); [|lia].
      destruct (blk_split (r - ph * nx) ch nu ltac:(lia)) as (i & j & Hi & Hj & E). rewrite E.
      replace r with (ph * nx + (i * nu + j)) by lia. rewrite E3 by assumption. now rewrite (proj2 (divmod_unique i j nu Hj)).
  Qed.
  Lemma start_rep s c x0 u0 : NR s c -> gm (n_start d s x0 u0) N 1 /\
    forall r, r < ph * nx + nu * ch -> ent (n_start d s x0 u0) r 0 = base_vec d c (vec x0) (vec u0) r.
  Proof.
    intros H. unfold n_start, base_vec. rewrite (nr_first d s c H), (nr_warm d s c H).
    destruct (k_first c || negb (k_warm c)).
    - destruct (cold_rep x0 u0 (n_opt s) (nr_opt d s c H)) as [G E]. split; [exact G|]. intros r Hr. rewrite E by exact Hr.
      unfold constant_vec. destruct (r <? ph * nx); [reflexivity|]. destruct (Nat.ltb_spec r (ph * nx + nu * ch)); [reflexivity|lia].
    - split; [apply H|]. apply (nr_optv d s c H).
  Qed.

  (** *** the starting point of the solver *)
  Lemma guess_gm s c x0 u0 : NR s c -> gm (n_guess junk d s x0 u0) N 1.
  Proof.
    intros H. destruct (start_rep s c x0 u0 H) as [Gv _]. unfold n_guess. set (v := n_start d s x0 u0) in *. clearbody v.
    pose proof (nr_map d s c H) as HM. set (m := n_map s) in *. clearbody m. rewrite (nr_slack d s c H).
    assert (G0 : gm (mzero N 1 : mat F) N 1) by (repeat split).
    assert (B1 : 0 + ph * nx <= N) by (unfold n_dec; lia).
    destruct (vloop2 (fun i j => if i =? ph - 1 then ent v (i * nx + j) 0 else ent v ((i + 1) * nx + j) 0) N 0 nx ph (mzero N 1) G0 B1) as (G1 & _). cbn zeta in *. cbn [Nat.add] in G1.
    set (g1 := loop ph (fun i g => loop nx _ g) (mzero N 1)) in *. clearbody g1. clear G0 B1.
    set (tmp := mmul (mp_z2u m) (middle_rows v (ph * nx) (nu * ch))).
    destruct Gv as (R1 & K1 & O1). destruct (mi_z2u d m _ _ HM) as (Z1 & Z2 & Z3).
    assert (Gt : gm tmp (ph * nu) 1).
    { unfold tmp, mmul, middle_rows, block. repeat split; cbn [mrows mcols mok]; [exact Z1|exact K1|]. rewrite Z2, Z3, O1, R1, K1, Nat.eqb_refl.
      assert (ph * nx + nu * ch <=? N = true) as -> by (apply Nat.leb_le; unfold n_dec; lia). reflexivity. }
    clearbody tmp. destruct Gt as (T1 & T2 & T3).
    assert (GJ : gm (mjunk junk (ph * nu) 1) (ph * nu) 1) by (repeat split).
    destruct (vloop2 (fun i j => if i =? ph - 1 then ent tmp (i * nu + j) 0 else ent tmp ((i + 1) * nu + j) 0) (ph * nu) 0 nu ph (mjunk junk (ph * nu) 1) GJ (le_n _)) as (G2 & _). cbn zeta in *. cbn [Nat.add] in G2.
    set (Uv := loop ph (fun i U => loop nu _ U) (mjunk junk (ph * nu) 1)) in *. clearbody Uv. clear GJ.
    rewrite T3. set (Ug := guard true Uv).
    assert (GU : gm Ug (ph * nu) 1). { destruct G2 as (X1 & X2 & X3). unfold Ug, guard. repeat split; cbn; [exact X1|exact X2|now rewrite X3]. }
    clearbody Ug. clear G2 Uv T1 T2 T3 tmp. destruct GU as (U1 & U2 & U3). destruct (mi_u2z d m _ _ HM) as (Y1 & Y2 & Y3).
    set (res := mmul (mp_u2z m) Ug).
    assert (Gr : gm res (nu * ch) 1).
    { unfold res, mmul. repeat split; cbn [mrows mcols mok]; [exact Y1|exact U2|]. now rewrite Y2, Y3, U1, U3, Nat.eqb_refl. }
    clearbody res. destruct Gr as (S1 & S2 & S3). rewrite O1, S3.
    assert (B2 : ph * nx + nu * ch <= N) by (unfold n_dec; lia).
    destruct (vstep (fun i => ent res i 0) N (ph * nx) (nu * ch) (nu * ch) g1 G1 B2 (le_n _)) as [G3 _]. cbn zeta in *.
    set (g3 := loop (nu * ch) _ g1) in *. clearbody g3.
    assert (HN : N - 1 = v_slack d) by (unfold n_dec, v_slack; lia). rewrite HN.
    assert (L : v_slack d < N) by (unfold v_slack, n_dec; lia). destruct (vset_gm g3 N (v_slack d) (k_slack c) G3 L) as (A1 & A2 & A3).
    unfold guard. repeat split; cbn [mrows mcols mok]; [exact A1|exact A2|]. now rewrite A3.
  Qed.
  Lemma guess_rep s c x0 u0 : NR s c ->
    gm (n_guess junk d s x0 u0) N 1 /\
    (forall i j, i < ph -> j < nx -> ent (n_guess junk d s x0 u0) (v_state d (S i) j) 0 =
       base_vec d c (vec x0) (vec u0) (v_state d (Nat.min (S (S i)) ph) j)) /\
    (forall b j, b < ch -> j < nu -> ent (n_guess junk d s x0 u0) (v_input d b j) 0 =
       (sdiv s1 (k_su c j) * (k_su c j * base_vec d c (vec x0) (vec u0) (v_input d (held d (S b)) j)))%S) /\
    ent (n_guess junk d s x0 u0) (v_slack d) 0 = k_slack c.
  Proof.
    intros H. destruct (start_rep s c x0 u0 H) as [Gv Ev]. unfold n_guess. set (v := n_start d s x0 u0) in *. clearbody v.
    set (B := base_vec d c (vec x0) (vec u0)) in *. clearbody B.
    pose proof (nr_map d s c H) as HM. set (m := n_map s) in *. clearbody m. rewrite (nr_slack d s c H).
    assert (G0 : gm (mzero N 1 : mat F) N 1) by (repeat split).
    assert (B1 : 0 + ph * nx <= N) by (unfold n_dec; lia).
    destruct (vloop2 (fun i j => if i =? ph - 1 then ent v (i * nx + j) 0 else ent v ((i + 1) * nx + j) 0) N 0 nx ph (mzero N 1) G0 B1) as (G1 & E1 & _). cbn zeta in *. cbn [Nat.add] in G1, E1.
    set (g1 := loop ph (fun i g => loop nx _ g) (mzero N 1)) in *. clearbody g1. clear G0 B1.
    set (tmp := mmul (mp_z2u m) (middle_rows v (ph * nx) (nu * ch))).
    destruct Gv as (R1 & K1 & O1). destruct (mi_z2u d m _ _ HM) as (Z1 & Z2 & Z3).
    assert (Gt : gm tmp (ph * nu) 1).
    { unfold tmp, mmul, middle_rows, block. repeat split; cbn [mrows mcols mok]; [exact Z1|exact K1|]. rewrite Z2, Z3, O1, R1, K1, Nat.eqb_refl.
      assert (ph * nx + nu * ch <=? N = true) as -> by (apply Nat.leb_le; unfold n_dec; lia). reflexivity. }
    assert (Et : forall a p, a < ph -> p < nu -> ent tmp (a * nu + p) 0 = (k_su c p * B (v_input d (held d a) p))%S).
    { intros a p Ha Hp. unfold tmp, mmul. cbn [ent]. rewrite Z2. rewrite (z2u_mul d m (k_su c) (k_sx c) HM ph_pos C0 C (fun q => ent (middle_rows v (ph * nx) (nu * ch)) q 0)) by assumption.
      unfold middle_rows, block. cbn [ent]. cbn [Nat.add]. rewrite Ev; [reflexivity|]. pose proof (blk_lt (Nat.min a (ch - 1)) ch nu p ltac:(lia) Hp). lia. }
    clearbody tmp. destruct Gt as (T1 & T2 & T3).
    assert (GJ : gm (mjunk junk (ph * nu) 1) (ph * nu) 1) by (repeat split).
    destruct (vloop2 (fun i j => if i =? ph - 1 then ent tmp (i * nu + j) 0 else ent tmp ((i + 1) * nu + j) 0) (ph * nu) 0 nu ph (mjunk junk (ph * nu) 1) GJ (le_n _)) as (G2 & E2 & _). cbn zeta in *. cbn [Nat.add] in G2, E2.
    set (Uv := loop ph (fun i U => loop nu _ U) (mjunk junk (ph * nu) 1)) in *. clearbody Uv. clear GJ.
    rewrite T3. set (Ug := guard true Uv).
    assert (GU : gm Ug (ph * nu) 1). { destruct G2 as (X1 & X2 & X3). unfold Ug, guard. repeat split; cbn; [exact X1|exact X2|now rewrite X3]. }
    assert (EU : forall a p, a < ph -> p < nu -> ent Ug (a * nu + p) 0 = (k_su c p * B (v_input d (held d (S a)) p))%S).
    { intros a p Ha Hp. unfold Ug, guard. cbn [ent]. rewrite E2 by assumption. destruct (Nat.eqb_spec a (ph - 1)) as [->|Ne].
      - rewrite Et by lia. do 3 f_equal. unfold held. lia.
      - replace (a + 1) with (S a) by lia. rewrite Et by lia. reflexivity. }
    clearbody Ug. clear E2 G2 Uv Et T1 T2 T3 tmp. destruct GU as (U1 & U2 & U3). destruct (mi_u2z d m _ _ HM) as (Y1 & Y2 & Y3).
    set (res := mmul (mp_u2z m) Ug).
    assert (Gr : gm res (nu * ch) 1).
    { unfold res, mmul. repeat split; cbn [mrows mcols mok]; [exact Y1|exact U2|]. now rewrite Y2, Y3, U1, U3, Nat.eqb_refl. }
    assert (Er : forall b p, b < ch -> p < nu -> ent res (b * nu + p) 0 = (sdiv s1 (k_su c p) * (k_su c p * B (v_input d (held d (S b)) p)))%S).
    { intros b p Hb Hp. unfold res, mmul. cbn [ent]. rewrite Y2. rewrite (u2z_mul d m (k_su c) (k_sx c) HM ph_pos C0 C (fun q => ent Ug q 0)) by assumption.
      rewrite EU by lia. reflexivity. }
    clearbody res. destruct Gr as (S1 & S2 & S3). rewrite O1, S3.
    assert (B2 : ph * nx + nu * ch <= N) by (unfold n_dec; lia).
    destruct (vstep (fun i => ent res i 0) N (ph * nx) (nu * ch) (nu * ch) g1 G1 B2 (le_n _)) as [G3 E3]. cbn zeta in *.
    set (g3 := loop (nu * ch) _ g1) in *. clearbody g3.
    assert (HN : N - 1 = v_slack d) by (unfold n_dec, v_slack; lia). rewrite HN.
    refine (conj _ (conj _ (conj _ _))).
    - assert (L : v_slack d < N) by (unfold v_slack, n_dec; lia). destruct (vset_gm g3 N (v_slack d) (k_slack c) G3 L) as (A1 & A2 & A3).
      unfold guard. repeat split; cbn [mrows mcols mok]; [exact A1|exact A2|]. now rewrite A3.
    - intros i j Hi Hj. unfold guard. cbn [ent]. rewrite vset_ent, E3. pose proof (v_state_lt d C0 C i j Hi Hj) as L. unfold v_slack.
      destruct (Nat.eqb_spec (v_state d (S i) j) (ph * nx + nu * ch)); [lia|]. destruct (Nat.leb_spec (ph * nx) (v_state d (S i) j)); [lia|]. cbn [andb].
      unfold v_state in L |- *. replace (S i - 1) with i in * by lia. rewrite E1 by assumption. destruct (Nat.eqb_spec i (ph - 1)) as [->|Ne].
      + rewrite Ev by lia. do 2 f_equal. f_equal. lia.
      + rewrite Ev; [do 2 f_equal; f_equal; lia|]. pose proof (blk_lt (i + 1) ph nx j ltac:(lia) Hj). lia.
    - intros b j Hb Hj. unfold guard. cbn [ent]. rewrite vset_ent, E3. pose proof (v_input_lt d C0 C b j Hb Hj) as L. unfold v_slack.
      destruct (Nat.eqb_spec (v_input d b j) (ph * nx + nu * ch)); [lia|].
      assert (EV : v_input d b j = ph * nx + (b * nu + j)) by reflexivity. rewrite EV in *.
      destruct (Nat.leb_spec (ph * nx) (ph * nx + (b * nu + j))); [|lia]. destruct (Nat.ltb_spec (ph * nx + (b * nu + j)) (ph * nx + nu * ch)); [|lia].
      cbn [andb]. replace (ph * nx + (b * nu + j) - ph * nx) with (b * nu + j) by lia. now apply Er.
    - unfold guard. cbn [ent]. rewrite vset_ent. now rewrite Nat.eqb_refl.
  Qed.

  (** *** one optimization *)
  Lemma block_all (M : mat F) r c : gm M r c -> gm (block M 0 0 r c) r c.
  Proof. intros (R & K & O). unfold block. repeat split; cbn [mrows mcols mok]. now rewrite R, K, O, !Nat.leb_refl. Qed.
  Lemma run_solved s c x0 u0 z code cost : NR s c -> gm x0 nx 1 -> (has_eq s = true -> 0 < ne) ->
    let opt := mvec N z in
    let X := unwrap_X d (n_map s) opt x0 in let U := unwrap_U d (n_map s) opt in
    n_run junk d ni ne s x0 u0 (NSolved z code cost) =
      Ok (with_run opt false (unwrap_e opt)
        (mkRes code (is_feasible d ni ne (n_map s) (n_ieq s) (n_eqc s) (n_out s) (n_itol s) (n_etol s) x0 opt) cost (n_status code) (mtrans (mrow U 0)))
        (mkSeq (block X 0 0 (ph + 1) nx) (block (get_output d (n_out s) X U) 0 0 (ph + 1) ny) (block U 0 0 (ph + 1) nu)) s).
  Proof.
    intros H GX He opt X U. unfold n_run. destruct (guess_gm s c x0 u0 H) as (_ & _ & Og). rewrite Og. cbn [negb].
    assert (has_eq s && (ne =? 0) = false) as ->. { destruct (has_eq s) eqn:E; [|reflexivity]. cbn. apply Nat.eqb_neq. specialize (He eq_refl). lia. }
    fold opt X U. pose proof (nr_map d s c H) as HM.
    assert (GO : gm opt N 1) by (repeat split).
    destruct (unwrap_X_ent d (n_map s) _ _ opt x0 HM GO GX ph_pos C0 C) as [G1 _]. pose proof (unwrap_U_gm d (n_map s) _ _ opt HM GO ph_pos C0 C) as G2.
    fold X in G1. fold U in G2. pose proof (get_output_rep d (n_out s) X U _ _ (rep_self _ _ _ G1) (rep_self _ _ _ G2)) as [G3 _].
    cbn [q_state q_output q_input]. destruct (block_all _ _ _ G1) as (_ & _ & ->). destruct (block_all _ _ _ G2) as (_ & _ & ->). destruct (block_all _ _ _ G3) as (_ & _ & ->).
    destruct (rep_trow U (ph + 1) nu _ 0 (rep_self _ _ _ G2) ltac:(lia)) as ((_ & _ & ->) & _). reflexivity.
  Qed.
  Lemma run_throw s c x0 u0 : NR s c ->
    n_run junk d ni ne s x0 u0 NThrow =
      Ok (with_run (n_start d s x0 u0) (n_first s) (n_slack s) (mkRes (-1) false PInf ERROR (r_cmd (n_res s)))
           (mkSeq (mzero (ph + 1) nx) (mzero (ph + 1) ny) (mzero (ph + 1) nu)) s).
  Proof.
    intros H. unfold n_run. destruct (guess_gm s c x0 u0 H) as (_ & _ & Og). rewrite Og. cbn [negb].
    destruct (nr_qx d s c H) as (A1 & A2 & _). destruct (nr_qy d s c H) as (B1 & B2 & _). destruct (nr_qu d s c H) as (E1 & E2 & _).
    now rewrite A1, A2, B1, B2, E1, E2.
  Qed.
  Lemma NR_run s c x0 u0 a s' : NR s c -> gm x0 nx 1 -> n_run junk d ni ne s x0 u0 a = Ok s' -> NR s' (ncfg_apply d ni ne (NOptimize x0 u0 a) c).
  Proof.
    intros H GX R. destruct a as [|z code cost].
    - rewrite (run_throw s c x0 u0 H) in R. inversion R; subst s'; clear R. destruct (start_rep s c x0 u0 H) as [G E].
      destruct H. split; cbn; try assumption; repeat split.
    - assert (He : has_eq s = true -> 0 < ne).
      { intros E. unfold n_run in R. destruct (negb _); [discriminate|]. rewrite E in R. cbn [andb] in R. destruct (Nat.eqb_spec ne 0); [discriminate|lia]. }
      rewrite (run_solved s c x0 u0 z code cost H GX He) in R. inversion R; subst s'; clear R.
      pose proof (nr_map d s c H) as HM. assert (GO : gm (mvec N z) N 1) by (repeat split).
      destruct (unwrap_X_ent d (n_map s) _ _ (mvec N z) x0 HM GO GX ph_pos C0 C) as [G1 _]. pose proof (unwrap_U_gm d (n_map s) _ _ (mvec N z) HM GO ph_pos C0 C) as G2.
      pose proof (get_output_rep d (n_out s) _ _ _ _ (rep_self _ _ _ G1) (rep_self _ _ _ G2)) as [G3 _].
      destruct (rep_trow _ (ph + 1) nu _ 0 (rep_self _ _ _ G2) ltac:(lia)) as (Gc & _).
      destruct H. split; cbn -[mtrans mrow block unwrap_e]; try assumption; try reflexivity; try (now apply block_all).
      f_equal. unfold n_dec, v_slack. lia.
  Qed.

  (** *** histories *)
  Lemma vec_ent {T} (M : mat T) : (fun j => ent M j 0) = vec M. Proof. reflexivity. Qed.
  Lemma NR_step s c op s' r : NR s c -> nop_sized d op -> n_step junk d ni ne dyn_eq s op = Ok (s', r) -> NR s' (ncfg_step d ni ne c (op, r)).
  Proof.
    intros H Z R. destruct op; cbn in Z, R.
    - inversion R; subst. destruct H. split; cbn; auto.
    - destruct p; [|discriminate]. inversion R; subst. now apply NR_params.
    - destruct (_ && _); [|discriminate]. inversion R; subst. pose proof (set_input_is d (n_map s) _ _ sc C0 C Z (nr_map d s c H)) as HM. rewrite vec_ent in HM.
      destruct H. split; cbn; auto.
    - destruct (_ && _); [|discriminate]. inversion R; subst. pose proof (set_state_is d (n_map s) _ _ sc Z (nr_map d s c H)) as HM. rewrite vec_ent in HM.
      destruct H. split; cbn; auto.
    - inversion R; subst. destruct H. split; cbn; auto; congruence.
    - inversion R; subst. destruct H. destruct acc; split; cbn; auto; congruence.
    - inversion R; subst. destruct H. split; cbn; auto.
    - inversion R; subst. destruct H. destruct acc; split; cbn; auto; congruence.
    - destruct dyn_eq; [discriminate|]. inversion R; subst. destruct H. destruct acc; split; cbn; auto; congruence.
    - destruct Z as [Z1 Z2]. destruct (NR_mat_x d C0 C s c lo hi H Z1 Z2) as (s1 & E & H1). rewrite E in R. cbn in R. inversion R; subst. exact H1.
    - destruct Z as [Z1 Z2]. destruct (NR_mat_u d C0 C s c lo hi H Z1 Z2) as (s1 & E & H1). rewrite E in R. cbn in R. inversion R; subst. exact H1.
    - inversion R; subst. exact H.
    - destruct Z as [Z1 Z2]. unfold n_slice, bool_of in R. destruct (nl_steps ph sl) as [l|] eqn:El.
      + destruct (slice_unset sl) eqn:Us.
        * destruct (n_bounds _ _ _ _ _ _ _) as [s1|] eqn:E; [|discriminate]. inversion R; subst. cbn.
          exact (NR_bounds_x d C0 C s c lo hi sl s' l H El (slice_valid_end ph sl (or_introl Us)) E).
        * destruct (slice_check _ _) as [[|]|] eqn:Ck; [|inversion R; subst; exact H|discriminate].
          destruct (n_bounds _ _ _ _ _ _ _) as [s1|] eqn:E; [|discriminate]. inversion R; subst. cbn.
          exact (NR_bounds_x d C0 C s c lo hi sl s' l H El (slice_valid_end ph sl (or_intror Ck)) E).
      + unfold n_bounds in R. rewrite El in R. destruct (slice_unset sl); [discriminate|]. destruct (slice_check _ _) as [[|]|]; try discriminate. inversion R; subst; exact H.
    - destruct Z as [Z1 Z2]. unfold n_slice, bool_of in R. destruct (nl_steps ch sl) as [l|] eqn:El.
      + destruct (slice_unset sl) eqn:Us.
        * destruct (n_bounds _ _ _ _ _ _ _) as [s1|] eqn:E; [|discriminate]. inversion R; subst. cbn.
          exact (NR_bounds_u d C0 C s c lo hi sl s' l H El (slice_valid_end ch sl (or_introl Us)) E).
        * destruct (slice_check _ _) as [[|]|] eqn:Ck; [|inversion R; subst; exact H|discriminate].
          destruct (n_bounds _ _ _ _ _ _ _) as [s1|] eqn:E; [|discriminate]. inversion R; subst. cbn.
          exact (NR_bounds_u d C0 C s c lo hi sl s' l H El (slice_valid_end ch sl (or_intror Ck)) E).
      + unfold n_bounds in R. rewrite El in R. destruct (slice_unset sl); [discriminate|]. destruct (slice_check _ _) as [[|]|]; try discriminate. inversion R; subst; exact H.
    - inversion R; subst. exact H.
    - destruct Z as [Z1 Z2]. destruct (n_run _ _ _ _ _ _ _ _) as [s1|] eqn:E; [|discriminate]. inversion R; subst. exact (NR_run s c x0 u0 a s' H Z1 E).
  Qed.
  Lemma NR_play ops : forall s c s' h, NR s c -> Forall (nop_sized d) ops -> n_play junk d ni ne dyn_eq s ops = Ok (s', h) ->
    NR s' (fold_left (ncfg_step d ni ne) h c).
  Proof.
    induction ops as [|op ops IH]; intros s c s' h H Z R; cbn in R.
    - inversion R; subst. exact H.
    - inversion Z as [|? ? Z1 Z2]; subst. destruct (n_step junk d ni ne dyn_eq s op) as [[s1 r]|] eqn:E; [|discriminate].
      destruct (n_play junk d ni ne dyn_eq s1 ops) as [[s2 h2]|] eqn:E2; [|discriminate]. inversion R; subst. cbn [fold_left].
      exact (IH s1 _ s' h2 (NR_step s c op s1 r H Z1 E) Z2 E2).
  Qed.
  Lemma new_ok : n_new d = Ok (n_init d).
  Proof.
    unfold n_new. pose proof (NR_init d C0 C) as H. destruct (nr_map d _ _ H) as [(_ & _ & A1) (_ & _ & A2) _ (_ & _ & A3) (_ & _ & A4) _ _ _ _ _].
    destruct (nr_lb d _ _ H) as ((_ & _ & A5) & _). unfold m_ok. now rewrite A1, A2, A3, A4, A5.
  Qed.
  Lemma nreached_NR s h : nreached junk d ni ne dyn_eq s h -> NR s (ncfg_run d ni ne h).
  Proof.
    intros (ops & Z & R). unfold n_life in R. rewrite new_ok in R. exact (NR_play ops (n_init d) (ncfg0) s h (NR_init d C0 C) Z R).
  Qed.
End Run.
