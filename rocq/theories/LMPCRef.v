(** Refinement: the concrete LMPC state always represents the last-writer-wins configuration
    of [SpecLMPC]. Purely structural: no scalar laws are used in this file. *)
From Coq Require Import Bool Arith ZArith List Lia.
From Verif Require Import Scalar Sums Mat Slice Csc Builder BuilderEnt LMPC SpecLMPC.
Import ListNotations.

Section Ref.
  Context {F : Type} {SO : ScalarOps F}.
  Variable junk : nat -> nat -> F.
  Variable ejunk : nat -> nat -> ext F.
  Variable d : dims.
  Notation nx := (d_nx d). Notation nu := (d_nu d). Notation ndu := (d_ndu d).
  Notation ny := (d_ny d). Notation ph := (d_ph d). Notation ch := (d_ch d).
  Notation w := (nu + nx).
  Notation N1 := ((ph + 1) * (nu + nx)).

  (** *** representation relation *)
  Definition Rplant (ss : ssys F) (op : option (plant F)) : Prop :=
    match op with
    | None => (forall i j, ent (ssA ss) i j = s0) /\ (forall i j, ent (ssB ss) i j = s0) /\
              (forall i j, ent (ssC ss) i j = s0)
    | Some p =>
        (forall i j, i < nx -> j < nx -> ent (ssA ss) i j = pl_A p i j) /\
        (forall i j, i < nx -> j < nu -> ent (ssA ss) i (nx + j) = pl_B p i j) /\
        (forall i j, i < nu -> j < nx -> ent (ssA ss) (nx + i) j = s0) /\
        (forall i j, i < nu -> j < nu -> ent (ssA ss) (nx + i) (nx + j) = delta i j) /\
        (forall i j, i < nx -> j < nu -> ent (ssB ss) i j = pl_B p i j) /\
        (forall i j, i < nu -> j < nu -> ent (ssB ss) (nx + i) j = delta i j) /\
        (forall i j, i < ny -> j < nx -> ent (ssC ss) i j = pl_C p i j) /\
        (forall i j, i < ny -> j < nu -> ent (ssC ss) i (nx + j) = s0) /\
        (forall i j, i < nu -> j < nx -> ent (ssC ss) (ny + i) j = s0) /\
        (forall i j, i < nu -> j < nu -> ent (ssC ss) (ny + i) (nx + j) = delta i j)
    end.
  (** blocks of ssC never touched by setStateModel *)
  Definition RCzero (ss : ssys F) : Prop :=
    (forall i j, i < ny -> j < nu -> ent (ssC ss) i (nx + j) = s0) /\
    (forall i j, i < nu -> j < nx -> ent (ssC ss) (ny + i) j = s0).
  Definition Rdist (ss : ssys F) (c : cfg F) : Prop :=
    (forall i j, i < nx -> j < ndu -> ent (ssBv ss) i j = g_Bd c i j) /\
    (forall i j, i < nu -> j < ndu -> ent (ssBv ss) (nx + i) j = s0) /\
    (forall i j, i < ny -> j < ndu -> ent (ssDv ss) i j = g_Dd c i j) /\
    (forall i j, i < nu -> j < ndu -> ent (ssDv ss) (ny + i) j = s0).

  (** a matrix with ph+1 columns holding per-step data: column i belongs to step [stp i] *)
  Definition steps1 {T} (M : mat T) (n : nat) (f : nat -> nat -> T) : Prop :=
    forall i j, i < ph + 1 -> j < n -> ent M j i = f (stp i) j.
  (** a matrix with ph columns: column k belongs to step k *)
  Definition steps0 {T} (M : mat T) (n : nat) (f : nat -> nat -> T) : Prop :=
    forall k j, k < ph -> j < n -> ent M j k = f k j.

  Definition Rw (ww : weights F) (c : cfg F) : Prop :=
    steps1 (wOutput ww) ny (g_wy c) /\ steps1 (wU ww) nu (g_wu c) /\ steps0 (wDeltaU ww) nu (g_wdu c).
  Definition Rmult (M : mat F) (X U : nat -> F) : Prop :=
    forall i j b, i < ph + 1 -> j < ph + 1 -> b < w ->
      ent M i (j * w + b) = if i =? j then (if b <? nx then X b else U (b - nx)) else s0.
  Definition Rlim (l : limits F) (c : cfg F) : Prop :=
    steps1 (minX l) nx (g_xlo c) /\ steps1 (maxX l) nx (g_xhi c) /\
    steps1 (minY l) ny (g_ylo c) /\ steps1 (maxY l) ny (g_yhi c) /\
    steps0 (minU l) nu (g_ulo c) /\ steps0 (maxU l) nu (g_uhi c) /\
    (forall i, i < ph + 1 -> ent (sMin l) i 0 = g_slo c (stp i)) /\
    (forall i, i < ph + 1 -> ent (sMax l) i 0 = g_shi c (stp i)) /\
    Rmult (sMultiplier l) (g_sX c) (g_sU c).

  Record Bsized (b : builder F) : Prop := {
    bs_ss : ss_sized d (b_ss b); bs_w : w_sized d (b_w b); bs_lim : lim_sized d (b_lim b);
    bs_leq : sized (b_leq b) (n_eq d) 1; bs_ueq : sized (b_ueq b) (n_eq d) 1;
    bs_off : sized (b_off b) (n_ineq d) 1;
    bs_lin : sized (b_lineq b) (n_ineq d) 1; bs_uin : sized (b_uineq b) (n_ineq d) 1;
    bs_q : sized (pq (b_prob b)) (n_var d) 1;
    bs_l : sized (pl (b_prob b)) (n_con d) 1; bs_u : sized (pu (b_prob b)) (n_con d) 1 }.
  Record Built (b : builder F) : Prop := {
    bt_P : pP (b_prob b) = build_P d (b_ss b) (b_w b);
    bt_A : pA (b_prob b) = build_A junk d (b_ss b) (b_lim b);
    bt_l : exists prev, sized prev (n_ineq d) 1 /\ b_lineq b = build_lineq ejunk d (b_lim b) prev;
    bt_u : exists prev, sized prev (n_ineq d) 1 /\ b_uineq b = build_uineq ejunk d (b_lim b) prev }.
  Record Rb (b : builder F) (c : cfg F) : Prop := {
    rb_sz : Bsized b; rb_built : Built b;
    rb_plant : Rplant (b_ss b) (g_plant c); rb_C0 : RCzero (b_ss b);
    rb_dist : Rdist (b_ss b) c; rb_w : Rw (b_w b) c; rb_lim : Rlim (b_lim b) c }.
  Record Ro (o : lopt F) (c : cfg F) : Prop := {
    ro_sz : refs_sized d (o_yref o) (o_uref o) (o_duref o) (o_dist o);
    ro_seq : sized (q_state (o_seq o)) (ph + 1) nx /\ sized (q_output (o_seq o)) (ph + 1) ny /\
             sized (q_input (o_seq o)) (ph + 1) nu /\ sized (r_cmd (o_res o)) nu 1;
    ro_y : steps0 (o_yref o) ny (g_yr c); ro_u : steps0 (o_uref o) nu (g_ur c);
    ro_du : steps0 (o_duref o) nu (g_dur c); ro_d : steps0 (o_dist o) ndu (g_d c);
    ro_par : o_par o = g_par c }.
  Record R (s : lmpc F) (c : cfg F) : Prop := { r_b : Rb (l_b s) c; r_o : Ro (l_o s) c }.

  Notation op_sized := (SpecLMPC.op_sized d). Notation ceq := (SpecLMPC.ceq d).
  Hypothesis ph_pos : 0 < ph.

  Lemma stp_lt i : i < ph + 1 -> stp i < ph.
  Proof. unfold stp. lia. Qed.
  Lemma steps1_eqs {T} (M : mat T) n f g : steps1 M n f -> eqm ph n f g -> steps1 M n g.
  Proof. intros H E i j Hi Hj. rewrite H by assumption. apply E; [now apply stp_lt|assumption]. Qed.
  Lemma steps0_eqs {T} (M : mat T) n f g : steps0 M n f -> eqm ph n f g -> steps0 M n g.
  Proof. intros H E i j Hi Hj. rewrite H by assumption. now apply E. Qed.

  Lemma R_ceq s a b : R s a -> ceq a b -> R s b.
  Proof.
    intros [[H1 H2 H3 H4 H5 (W1 & W2 & W3) (L1 & L2 & L3 & L4 & L5 & L6 & L7 & L8 & L9)] [O1 O2 O3 O4 O5 O6 O7]] E.
    destruct E as [(C1 & C2 & C3) (C4 & C5 & C6) (C7 & C8) (C9 & C10) (C11 & C12) (C13 & C14) (C15 & C16) (C17 & C18 & C19) C20 C21].
    unfold same_dist in C20.
    split; split; try assumption.
    - unfold same_plant in C1. destruct (g_plant a) as [p|], (g_plant b) as [p'|]; try contradiction; [|exact H3].
      destruct C1 as (E1 & E2 & E3). destruct H3 as (A1 & A2 & A3 & A4 & A5 & A6 & A7 & A8 & A9 & A10).
      unfold Rplant. repeat (apply conj; [intros; first [rewrite A1 by assumption; now apply E1|rewrite A2 by assumption; now apply E2
        |rewrite A5 by assumption; now apply E2|rewrite A7 by assumption; now apply E3|auto]|]). auto.
    - destruct H5 as (D1 & D2 & D3 & D4). split; [|split; [assumption|split; [|assumption]]]; intros.
      + rewrite D1 by assumption. now apply C2.
      + rewrite D3 by assumption. now apply C3.
    - repeat split; eauto using steps1_eqs, steps0_eqs.
    - repeat split; eauto using steps1_eqs, steps0_eqs.
      + intros i Hi. rewrite L7 by assumption. now apply C13, stp_lt.
      + intros i Hi. rewrite L8 by assumption. now apply C14, stp_lt.
      + unfold Rmult in *. intros i j k Hi Hj Hk. rewrite L9 by assumption. destruct (i =? j); [|reflexivity].
        destruct (Nat.ltb_spec k nx); [now apply C15|apply C16; lia].
    - eauto using steps0_eqs.
    - eauto using steps0_eqs.
    - eauto using steps0_eqs.
    - eauto using steps0_eqs.
    - congruence.
  Qed.

  Lemma eqm_refl {T} r c (f : nat -> nat -> T) : eqm r c f f. Proof. intros i j _ _. reflexivity. Qed.
  Lemma eqv_refl {T} n (f : nat -> T) : eqv n f f. Proof. intros i _. reflexivity. Qed.
  Lemma eqm_trans {T} r c (f g h : nat -> nat -> T) : eqm r c f g -> eqm r c g h -> eqm r c f h.
  Proof. intros H1 H2 i j Hi Hj. rewrite H1 by assumption. now apply H2. Qed.
  Lemma eqv_trans {T} n (f g h : nat -> T) : eqv n f g -> eqv n g h -> eqv n f h.
  Proof. intros H1 H2 i Hi. rewrite H1 by assumption. now apply H2. Qed.
  Lemma eqm_sym {T} r c (f g : nat -> nat -> T) : eqm r c f g -> eqm r c g f.
  Proof. intros H i j Hi Hj. symmetry. now apply H. Qed.
  Lemma same_plant_refl (a : option (plant F)) : same_plant d a a.
  Proof. destruct a; cbn; auto using eqm_refl. Qed.
  Lemma same_plant_trans (a b c : option (plant F)) : same_plant d a b -> same_plant d b c -> same_plant d a c.
  Proof. destruct a, b, c; cbn; intros H1 H2; try contradiction; try exact I. destruct H1 as (A1 & A2 & A3), H2 as (B1 & B2 & B3). refine (conj _ (conj _ _)); eapply eqm_trans; eassumption. Qed.
  Lemma ceq_refl (a : cfg F) : ceq a a.
  Proof. repeat split; auto using same_plant_refl. Qed.
  Lemma ceq_trans (a b c : cfg F) : ceq a b -> ceq b c -> ceq a c.
  Proof.
    intros [(A1 & A2 & A3) (A4 & A5 & A6) (A7 & A8) (A9 & A10) (A11 & A12) (A13 & A14) (A15 & A16) (A17 & A18 & A19) A20 A21]
           [(B1 & B2 & B3) (B4 & B5 & B6) (B7 & B8) (B9 & B10) (B11 & B12) (B13 & B14) (B15 & B16) (B17 & B18 & B19) B20 B21].
    unfold same_dist in *.
    split; unfold same_model, same_weights, same_xb, same_yb, same_ub, same_sb, same_mult, same_refs, same_dist;
      repeat (apply conj); eauto using eqm_trans, eqv_trans, same_plant_trans. congruence.
  Qed.

  (** *** [build] *)
  Lemma build_built b : Bsized b -> Bsized (build junk ejunk d b) /\ Built (build junk ejunk d b).
  Proof.
    intros [S1 S2 S3 S4 S5 S6 S7 S8 S9 S10 S11]. split.
    - split; try assumption.
      + destruct S3 as (A1 & A2 & A3 & A4 & A5 & A6 & A7 & A8 & A9).
        exact (ie_sz _ _ _ _ _ _ _ (build_ineq_ent ejunk d MInf _ _ _ _ _ A1 A5 A3 A7 S7)).
      + destruct S3 as (A1 & A2 & A3 & A4 & A5 & A6 & A7 & A8 & A9).
        exact (ie_sz _ _ _ _ _ _ _ (build_ineq_ent ejunk d PInf _ _ _ _ _ A2 A6 A4 A8 S8)).
    - split; try reflexivity.
      + eexists; split; [exact S7|reflexivity].
      + eexists; split; [exact S8|reflexivity].
  Qed.

  Lemma Rb_build b c : Bsized b -> Rplant (b_ss b) (g_plant c) -> RCzero (b_ss b) -> Rdist (b_ss b) c ->
    Rw (b_w b) c -> Rlim (b_lim b) c -> Rb (build junk ejunk d b) c.
  Proof.
    intros S H1 H2 H3 H4 H5. destruct (build_built b S) as [B1 B2]. split; assumption.
  Qed.

  (** *** one column writes *)
  Lemma set_step_steps1 {T} (M : mat T) n i v f :
    sized M n (ph + 1) -> sized v n 1 -> i < ph -> steps1 M n f ->
    sized (set_step M n i v) n (ph + 1) /\ steps1 (set_step M n i v) n (put (Nat.eqb i) (vec v) f).
  Proof.
    intros [Mr Mc] [vr vc] Hi H. unfold set_step. split.
    - destruct (i =? 0); split; assumption.
    - intros k j Hk Hj. unfold put, vec, stp.
      destruct (Nat.eqb_spec i 0) as [->|N].
      + unfold set_mcol. cbn [set_block mrows]. rewrite Mr.
        destruct (Nat.eq_dec k 0) as [->|N0].
        * rewrite ent_set_block_in by lia. rewrite !Nat.sub_0_r. reflexivity.
        * rewrite ent_set_block_col_out by lia. destruct (Nat.eq_dec k 1) as [->|N1].
          -- rewrite ent_set_block_in by lia. rewrite !Nat.sub_0_r. reflexivity.
          -- rewrite ent_set_block_col_out by lia. rewrite H by lia.
             destruct (Nat.eqb_spec 0 (Nat.pred k)); [lia|reflexivity].
      + destruct (Nat.eq_dec k (i + 1)) as [->|Nk].
        * rewrite ent_set_block_in by lia. replace (Nat.pred (i + 1)) with i by lia.
          rewrite Nat.eqb_refl. f_equal; lia.
        * rewrite ent_set_block_col_out by lia. rewrite H by lia.
          destruct (Nat.eqb_spec i (Nat.pred k)); [lia|reflexivity].
  Qed.
  Lemma set_col_steps0 {T} (M : mat T) n i v f :
    sized M n ph -> sized v n 1 -> steps0 M n f ->
    sized (set_block M 0 i n 1 v) n ph /\ steps0 (set_block M 0 i n 1 v) n (put (Nat.eqb i) (vec v) f).
  Proof.
    intros [Mr Mc] [vr vc] H. split; [split; assumption|].
    intros k j Hk Hj. unfold put, vec. destruct (Nat.eqb_spec i k) as [->|N].
    - rewrite ent_set_block_in by lia. f_equal; lia.
    - rewrite ent_set_block_col_out by lia. now apply H.
  Qed.
  Lemma set_mcol_steps0 {T} (M : mat T) n i v f :
    sized M n ph -> sized v n 1 -> steps0 M n f ->
    sized (set_mcol M i v) n ph /\ steps0 (set_mcol M i v) n (put (Nat.eqb i) (vec v) f).
  Proof. intros HM. unfold set_mcol. rewrite (proj1 HM). now apply set_col_steps0. Qed.

  (** *** whole-horizon writes *)
  Lemma horizon_steps1 {T} (M V : mat T) n :
    sized M n (ph + 1) -> sized V n ph ->
    let M' := set_mcol (set_block M 0 1 n ph V) 0 (mcol V 0) in
    sized M' n (ph + 1) /\ steps1 M' n (cols V).
  Proof.
    intros [Mr Mc] [Vr Vc]. cbn zeta. split; [split; assumption|].
    intros k j Hk Hj. unfold set_mcol. cbn [set_block mrows]. rewrite Mr. unfold cols, stp.
    destruct (Nat.eq_dec k 0) as [->|N].
    - rewrite ent_set_block_in by lia. cbn [mcol block ent]. f_equal; lia.
    - rewrite ent_set_block_col_out by lia. rewrite ent_set_block_in by lia. f_equal; lia.
  Qed.
  Lemma replicate_cols {T} (g : nat -> nat -> T) n k v : sized v n 1 ->
    sized (replicate g n k v) n k /\
    forall i j, i < k -> j < n -> ent (replicate g n k v) j i = vec v j.
  Proof.
    intros [vr vc]. unfold replicate. revert v vr vc.
    assert (H : forall m v, mrows v = n -> mcols v = 1 -> m <= k ->
      sized (loop m (fun i M => set_mcol M i v) (mjunk g n k)) n k /\
      forall i j, i < m -> j < n -> ent (loop m (fun i M => set_mcol M i v) (mjunk g n k)) j i = vec v j).
    { induction m as [|m IH]; intros v vr vc Hm.
      - split; [split; reflexivity|intros; lia].
      - destruct (IH v vr vc ltac:(lia)) as [[Sr Sc] E]. cbn [loop].
        set (M := loop m _ _) in *. split; [split; assumption|].
        intros i j Hi Hj. unfold set_mcol. rewrite Sr. unfold vec. destruct (Nat.eq_dec i m) as [->|N].
        + rewrite ent_set_block_in by lia. f_equal; lia.
        + rewrite ent_set_block_col_out by lia. apply E; lia. }
    intros v vr vc. apply (H k v vr vc (le_n _)).
  Qed.
  Lemma replicate_eqs {T} (g : nat -> nat -> T) n v f : sized v n 1 ->
    forall k j, k < ph -> j < n -> cols (replicate g n ph v) k j = put (fun _ => true) (vec v) f k j.
  Proof. intros Hv k j Hk Hj. unfold cols, put. now apply replicate_cols. Qed.

  Lemma mult_R (M X U : mat F) X0 U0 : sized X nx 1 -> sized U nu 1 -> sized M (ph + 1) N1 ->
    Rmult M X0 U0 ->
    sized (set_multiplier d M X U) (ph + 1) N1 /\ Rmult (set_multiplier d M X U) (vec X) (vec U).
  Proof.
    intros [Xr Xc] [Ur Uc] [Mr Mc] HM. unfold set_multiplier.
    set (body := fun i M => set_block M i _ 1 (nx + nu) _).
    assert (H : forall k, k <= ph + 1 -> sized (loop k body M) (ph + 1) N1 /\
      forall i j b, i < ph + 1 -> j < ph + 1 -> b < w -> ent (loop k body M) i (j * w + b) =
        if i =? j then (if i <? k then (if b <? nx then vec X b else vec U (b - nx))
                        else (if b <? nx then X0 b else U0 (b - nx))) else s0).
    { induction k as [|k IH]; intros Hk.
      - split; [split; assumption|]. intros i j b Hi Hj Hb. cbn [loop]. now rewrite HM.
      - destruct (IH ltac:(lia)) as [[Sr Sc] E]. cbn [loop]. set (Mk := loop k body M) in *.
        split; [split; assumption|]. intros i j b Hi Hj Hb. unfold body.
        destruct (Nat.eq_dec i k) as [->|N].
        + destruct (Nat.eq_dec j k) as [->|Nj].
          * rewrite ent_set_block_in by lia. rewrite Nat.eqb_refl.
            destruct (Nat.ltb_spec k (S k)); [|lia].
            replace (k * w + b - k * (nx + nu)) with b by lia. rewrite Nat.sub_diag.
            cbn [hcat ent mtrans mcols]. rewrite Xr. reflexivity.
          * assert (j * w + w <= k * w \/ k * w + w <= j * w).
            { destruct (Nat.lt_ge_cases j k) as [A|A]; [left|right]; apply blk_le; lia. }
            rewrite ent_set_block_col_out by lia. rewrite E by lia.
            destruct (Nat.eqb_spec k j); [lia|reflexivity].
        + rewrite ent_set_block_row_out by lia. rewrite E by lia.
          destruct (i =? j); [|reflexivity].
          destruct (Nat.ltb_spec i k), (Nat.ltb_spec i (S k)); try lia; reflexivity. }
    destruct (H (ph + 1) (le_n _)) as [S E]. split; [exact S|].
    intros i j b Hi Hj Hb. rewrite E by assumption. destruct (Nat.ltb_spec i (ph + 1)); [reflexivity|lia].
  Qed.

  (** *** each builder setter *)
  Lemma Bsized_ss b ss : Bsized b -> ss_sized d ss -> Bsized (with_ss b ss).
  Proof. intros [] H. split; assumption. Qed.
  Lemma Bsized_w b ww : Bsized b -> w_sized d ww -> Bsized (with_w b ww).
  Proof. intros [] H. split; assumption. Qed.
  Lemma Bsized_lim b l : Bsized b -> lim_sized d l -> Bsized (with_lim b l).
  Proof. intros [] H. split; assumption. Qed.

  Lemma Rb_setStateModel A B C b c : sized A nx nx -> sized B nx nu -> sized C ny nx -> Rb b c ->
    Rb (b_setStateModel junk ejunk d A B C b) (set_plant c (Some (mkPlant (ent A) (ent B) (ent C)))).
  Proof.
    intros [Ar Ac] [Br Bc] [Cr Cc] [S _ _ [Z1 Z2] D W L].
    pose proof (bs_ss _ S) as ([A1 A2] & [B1 B2] & [C1 C2] & BV & DV).
    unfold b_setStateModel. apply Rb_build; try assumption.
    - apply Bsized_ss; [assumption|]. repeat split; try assumption; try (apply BV); try (apply DV).
    - cbn [set_plant g_plant Rplant with_ss b_ss ssA ssB ssC pl_A pl_B pl_C].
      repeat split; intros i j Hi Hj.
      + sb; sb; sb; sb. f_equal; lia.
      + sb; sb; sb. f_equal; lia.
      + sb; sb. reflexivity.
      + sb. cbn [mident ent]. f_equal; lia.
      + sb; sb. f_equal; lia.
      + sb. cbn [mident ent]. f_equal; lia.
      + sb; sb. f_equal; lia.
      + sb; sb. now apply Z1.
      + sb; sb. now apply Z2.
      + sb. cbn [mident ent]. f_equal; lia.
    - split; intros i j Hi Hj; cbn [with_ss b_ss ssC]; sb; sb; [now apply Z1|now apply Z2].
  Qed.

  Lemma Rb_setExogenousInput Bd Dd b c : sized Bd nx ndu -> sized Dd ny ndu -> Rb b c ->
    Rb (b_setExogenousInput junk ejunk d Bd Dd b) (set_dmodel c (ent Bd) (ent Dd)).
  Proof.
    intros [Br Bc] [Dr Dc] [S _ P Z D W L].
    pose proof (bs_ss _ S) as (A1 & B1 & C1 & BV & DV).
    unfold b_setExogenousInput. apply Rb_build; try assumption.
    - apply Bsized_ss; [assumption|]. repeat split; try assumption; try (apply A1); try apply B1; try apply C1;
      try apply BV; try apply DV.
    - cbn [set_dmodel g_Bd g_Dd with_ss b_ss ssBv ssDv Rdist]. unfold Rdist.
      cbn [set_dmodel g_Bd g_Dd with_ss b_ss ssBv ssDv].
      repeat split; intros i j Hi Hj; sb; try reflexivity; f_equal; lia.
  Qed.

  Ltac lims S := pose proof (bs_lim _ S) as (S1 & S2 & S3 & S4 & S5 & S6 & S7 & S8 & S9).
  Ltac rlim L := destruct L as (L1 & L2 & L3 & L4 & L5 & L6 & L7 & L8 & L9).
  Ltac lsz := repeat match goal with |- _ /\ _ => split end; assumption.

  Lemma Rb_xb b c m1 m2 lo hi : Rb b c ->
    sized m1 nx (ph + 1) -> sized m2 nx (ph + 1) -> steps1 m1 nx lo -> steps1 m2 nx hi ->
    Rb (build junk ejunk d (with_lim b (mkLim m1 m2 (minY (b_lim b)) (maxY (b_lim b)) (minU (b_lim b))
       (maxU (b_lim b)) (sMin (b_lim b)) (sMax (b_lim b)) (sMultiplier (b_lim b))))) (set_xb c lo hi).
  Proof.
    intros [S B P Z D W L] H1 H2 H3 H4. lims S. rlim L. apply Rb_build; try assumption.
    - apply Bsized_lim; [assumption|]. unfold lim_sized. cbn. lsz.
    - unfold Rlim. cbn. lsz.
  Qed.
  Lemma Rb_yb b c m1 m2 lo hi : Rb b c ->
    sized m1 ny (ph + 1) -> sized m2 ny (ph + 1) -> steps1 m1 ny lo -> steps1 m2 ny hi ->
    Rb (build junk ejunk d (with_lim b (mkLim (minX (b_lim b)) (maxX (b_lim b)) m1 m2 (minU (b_lim b))
       (maxU (b_lim b)) (sMin (b_lim b)) (sMax (b_lim b)) (sMultiplier (b_lim b))))) (set_yb c lo hi).
  Proof.
    intros [S B P Z D W L] H1 H2 H3 H4. lims S. rlim L. apply Rb_build; try assumption.
    - apply Bsized_lim; [assumption|]. unfold lim_sized. cbn. lsz.
    - unfold Rlim. cbn. lsz.
  Qed.
  Lemma Rb_ub b c m1 m2 lo hi : Rb b c ->
    sized m1 nu ph -> sized m2 nu ph -> steps0 m1 nu lo -> steps0 m2 nu hi ->
    Rb (build junk ejunk d (with_lim b (mkLim (minX (b_lim b)) (maxX (b_lim b)) (minY (b_lim b))
       (maxY (b_lim b)) m1 m2 (sMin (b_lim b)) (sMax (b_lim b)) (sMultiplier (b_lim b))))) (set_ub c lo hi).
  Proof.
    intros [S B P Z D W L] H1 H2 H3 H4. lims S. rlim L. apply Rb_build; try assumption.
    - apply Bsized_lim; [assumption|]. unfold lim_sized. cbn. lsz.
    - unfold Rlim. cbn. lsz.
  Qed.
  Lemma Rb_sc b c m1 m2 M lo hi X U : Rb b c ->
    sized m1 (ph + 1) 1 -> sized m2 (ph + 1) 1 -> sized M (ph + 1) N1 ->
    (forall i, i < ph + 1 -> ent m1 i 0 = lo (stp i)) ->
    (forall i, i < ph + 1 -> ent m2 i 0 = hi (stp i)) -> Rmult M X U ->
    Rb (build junk ejunk d (with_lim b (mkLim (minX (b_lim b)) (maxX (b_lim b)) (minY (b_lim b))
       (maxY (b_lim b)) (minU (b_lim b)) (maxU (b_lim b)) m1 m2 M))) (set_sc c lo hi X U).
  Proof.
    intros [S B P Z D W L] H1 H2 H3 H4 H5 H6. lims S. rlim L. apply Rb_build; try assumption.
    - apply Bsized_lim; [assumption|]. unfold lim_sized. cbn. lsz.
    - unfold Rlim. cbn. lsz.
  Qed.
  Lemma Rb_wt b c m1 m2 m3 f1 f2 f3 : Rb b c ->
    sized m1 ny (ph + 1) -> sized m2 nu (ph + 1) -> sized m3 nu ph ->
    steps1 m1 ny f1 -> steps1 m2 nu f2 -> steps0 m3 nu f3 ->
    Rb (build junk ejunk d (with_w b (mkW m1 m2 m3))) (set_weights c f1 f2 f3).
  Proof.
    intros [S B P Z D W L] H1 H2 H3 H4 H5 H6. apply Rb_build; try assumption.
    - apply Bsized_w; [assumption|]. unfold w_sized. cbn. lsz.
    - unfold Rw. cbn. lsz.
  Qed.

  Lemma sc_step (M : mat (ext F)) i v f : sized M (ph + 1) 1 -> i < ph ->
    (forall k, k < ph + 1 -> ent M k 0 = f (stp k)) ->
    let M1 := set_entry M (i + 1) 0 v in
    let M2 := if i =? 0 then set_entry M1 0 0 v else M1 in
    sized M2 (ph + 1) 1 /\ forall k, k < ph + 1 -> ent M2 k 0 = put1 (Nat.eqb i) v f (stp k).
  Proof.
    intros [Mr Mc] Hi H. cbn zeta. split.
    - destruct (i =? 0); split; assumption.
    - intros k Hk. unfold put1, stp, set_entry. destruct (Nat.eqb_spec i 0) as [->|N].
      + destruct (Nat.eq_dec k 0) as [->|N0]; [now rewrite ent_set_block_in by lia|].
        rewrite ent_set_block_row_out by lia. destruct (Nat.eq_dec k 1) as [->|N1];
        [now rewrite ent_set_block_in by lia|]. rewrite ent_set_block_row_out by lia. rewrite H by lia.
        destruct (Nat.eqb_spec 0 (Nat.pred k)); [lia|reflexivity].
      + destruct (Nat.eq_dec k (i + 1)) as [->|N1].
        * rewrite ent_set_block_in by lia. destruct (Nat.eqb_spec i (Nat.pred (i + 1))); [reflexivity|lia].
        * rewrite ent_set_block_row_out by lia. rewrite H by lia.
          destruct (Nat.eqb_spec i (Nat.pred k)); [lia|reflexivity].
  Qed.
  Lemma sc_all (M V : mat (ext F)) : sized M (ph + 1) 1 -> sized V ph 1 ->
    let M1 := set_middle_rows M 1 ph V in
    let M2 := set_block M1 0 0 1 1 (block V 0 0 1 1) in
    sized M2 (ph + 1) 1 /\ forall k, k < ph + 1 -> ent M2 k 0 = ent V (stp k) 0.
  Proof.
    intros [Mr Mc] [Vr Vc]. cbn zeta. split; [split; assumption|].
    intros k Hk. unfold stp, set_middle_rows. rewrite Mc. destruct (Nat.eq_dec k 0) as [->|N0].
    - rewrite ent_set_block_in by lia. reflexivity.
    - rewrite ent_set_block_row_out by lia. rewrite ent_set_block_in by lia. f_equal; lia.
  Qed.

  (** whole-horizon setter fed with replicated columns *)
  Lemma horizon_repl {T} (M : mat T) g n v f : sized M n (ph + 1) -> sized v n 1 ->
    let V := replicate g n ph v in
    let M' := set_mcol (set_block M 0 1 n ph V) 0 (mcol V 0) in
    sized M' n (ph + 1) /\ steps1 M' n (put (fun _ => true) (vec v) f).
  Proof.
    intros HM Hv. cbn zeta. destruct (replicate_cols g n ph v Hv) as [RS RE].
    destruct (horizon_steps1 M (replicate g n ph v) n HM RS) as [HS HE]. split; [exact HS|].
    intros i j Hi Hj. rewrite HE by assumption. unfold cols, put. apply RE; [|assumption].
    now apply stp_lt.
  Qed.
  Lemma repl_steps0 {T} g n (v : mat T) f : sized v n 1 ->
    sized (replicate g n ph v) n ph /\ steps0 (replicate g n ph v) n (put (fun _ => true) (vec v) f).
  Proof. intros Hv. destruct (replicate_cols g n ph v Hv) as [RS RE]. split; [exact RS|].
    intros k j Hk Hj. unfold put. now apply RE. Qed.

  (** setInputBounds on the whole horizon: defined only when ch = ph *)
  Lemma set_inputs_ok (M V : mat (ext F)) : sized M nu ph -> sized V nu ch ->
    mok (set_inputs d M V) = true -> ch = ph.
  Proof.
    intros [Mr Mc] [Vr Vc]. unfold set_inputs.
    destruct (Nat.ltb_spec ch ph) as [A|A].
    - cbn [set_block mok mcol block]. rewrite !andb_true_iff, !Nat.leb_le. lia.
    - cbn [set_block mok]. rewrite !andb_true_iff, !Nat.leb_le. lia.
  Qed.
  Lemma set_inputs_R (M V : mat (ext F)) : sized M nu ph -> sized V nu ch -> ch = ph ->
    sized (set_inputs d M V) nu ph /\ steps0 (set_inputs d M V) nu (cols V).
  Proof.
    intros [Mr Mc] [Vr Vc] E. unfold set_inputs. rewrite E. rewrite Nat.ltb_irrefl.
    split; [split; assumption|]. intros k j Hk Hj. rewrite ent_set_block_in by lia. unfold cols. f_equal; lia.
  Qed.
  Lemma l_ok_lim (s : lmpc F) : l_ok s = true -> mok (minU (b_lim (l_b s))) = true.
  Proof. unfold l_ok, b_ok. rewrite !andb_true_iff. tauto. Qed.

  (** *** state level *)
  Lemma R_upd_b s c c' f : R s c -> Rb (f (l_b s)) c' ->
    g_yr c' = g_yr c -> g_ur c' = g_ur c -> g_dur c' = g_dur c -> g_d c' = g_d c -> g_par c' = g_par c ->
    R (upd_b f s) c'.
  Proof.
    intros [HB [O1 O2 O3 O4 O5 O6 O7]] H E1 E2 E3 E4 E5. split; [exact H|].
    cbn [upd_b l_o]. split; try assumption; try (rewrite ?E1, ?E2, ?E3, ?E4; assumption). congruence.
  Qed.
  Lemma R_upd_refs s c Y U DU f1 f2 f3 : R s c ->
    sized Y ny ph -> sized U nu ph -> sized DU nu ph ->
    steps0 Y ny f1 -> steps0 U nu f2 -> steps0 DU nu f3 ->
    R (upd_refs Y U DU s) (set_refs c f1 f2 f3).
  Proof.
    intros [[] [(Z1 & Z2 & Z3 & Z4) O2 O3 O4 O5 O6 O7]] S1 S2 S3 H1 H2 H3.
    split; [split; assumption|]. split; try assumption. unfold refs_sized. cbn. tauto.
  Qed.
  Lemma R_upd_dist s c D f : R s c -> sized D ndu ph -> steps0 D ndu f -> R (upd_dist D s) (set_dist c f).
  Proof.
    intros [[] [(Z1 & Z2 & Z3 & Z4) O2 O3 O4 O5 O6 O7]] S1 H1.
    split; [split; assumption|]. split; try assumption. unfold refs_sized. cbn. tauto.
  Qed.

  Lemma finish_inv (s : lmpc F) s' r : finish s = Ok (s', r) -> s' = s /\ r = RBool true /\ l_ok s = true.
  Proof. unfold finish. destruct (l_ok s); [|discriminate]. intros E; inversion E; auto. Qed.

  Lemma slice_check_true H sl : slice_check H sl = Ok true ->
    (sl_start sl < sl_end sl /\ sl_start sl <= H /\ sl_end sl <= H /\ sl_start sl + sl_end sl <= H)%Z.
  Proof.
    unfold slice_check. rewrite Z.geb_leb, !Z.gtb_ltb.
    destruct (Z.leb_spec (sl_end sl) (sl_start sl)); [discriminate|].
    destruct (Z.ltb_spec H (sl_start sl)); [discriminate|].
    destruct (Z.ltb_spec H (sl_end sl)); [discriminate|].
    destruct (is_int _); [|discriminate]. intros E; inversion E as [E'].
    destruct (Z.ltb_spec H (sl_start sl + sl_end sl)); [discriminate|]. lia.
  Qed.

  Lemma on_slice_R (H : nat) sl whole one (upd : (nat -> bool) -> cfg F -> cfg F) s c s' r :
    R s c -> slice_proper sl -> on_slice H sl whole one s = Ok (s', r) ->
    (l_ok (whole s) = true -> R (whole s) (upd (fun _ => true) c)) ->
    (forall i s c, i < H -> R s c -> R (one i s) (upd (Nat.eqb i) c)) ->
    (forall f g c, ceq (upd g (upd f c)) (upd (fun k => g k || f k) c)) ->
    (forall f g c, (forall k, k < ph -> f k = g k) -> ceq (upd f c) (upd g c)) ->
    R s' (match r with RBool false => c | _ => upd (in_slice sl) c end) /\
    (r = RBool true \/ (r = RBool false /\ s' = s)).
  Proof.
    intros HR Hp E Hw Ho Hc He. revert E. unfold on_slice. destruct (slice_unset sl) eqn:U.
    - intros E. apply finish_inv in E. destruct E as (-> & -> & K). split; [|left; reflexivity].
      eapply R_ceq; [exact (Hw K)|]. apply He. intros k _. unfold in_slice. now rewrite U.
    - destruct Hp as [Hp|Hp]; [congruence|].
      destruct (slice_check (Z.of_nat H) sl) as [[|]|] eqn:CK; try discriminate.
      2:{ intros E; inversion E; subst. split; [exact HR|right; auto]. }
      apply slice_check_true in CK.
      unfold slice_steps. destruct (Z.ltb_spec (sl_start sl) 0); [lia|].
      set (a := Z.to_nat (sl_start sl)). set (n := Z.to_nat (sl_end sl) - a).
      assert (Hn : exists m, n = S m) by (exists (n - 1); unfold n, a; lia).
      destruct Hn as [m En]. intros E. apply finish_inv in E. destruct E as (-> & -> & K).
      split; [|left; reflexivity].
      assert (G : forall m a s c, a + S m <= H -> R s c ->
        R (fold_left (fun s i => one i s) (seq a (S m)) s)
          (upd (fun k => (a <=? k) && (k <? a + S m)) c)).
      { clear - Ho Hc He ph_pos. induction m as [|m IH]; intros a s c Ha HR.
        - cbn [seq fold_left]. eapply R_ceq; [apply Ho; [lia|exact HR]|]. apply He. intros k _.
          destruct (Nat.eqb_spec a k), (Nat.leb_spec a k), (Nat.ltb_spec k (a + 1)); cbn [andb]; try reflexivity; lia.
        - change (seq a (S (S m))) with (a :: seq (S a) (S m)). cbn [fold_left].
          eapply R_ceq; [apply IH; [lia|apply Ho; [lia|exact HR]]|].
          eapply ceq_trans; [apply Hc|]. apply He. intros k _.
          destruct (Nat.eqb_spec a k), (Nat.leb_spec a k), (Nat.leb_spec (S a) k),
            (Nat.ltb_spec k (S a + S m)), (Nat.ltb_spec k (a + S (S m))); cbn [andb orb]; try reflexivity; lia. }
      rewrite En. eapply R_ceq; [apply G; [|exact HR]|].
      + lia.
      + apply He. intros k _. unfold in_slice. rewrite U. cbn [orb].
        destruct (Nat.leb_spec a k), (Nat.ltb_spec k (a + S m)),
          (Z.leb_spec (sl_start sl) (Z.of_nat k)), (Z.ltb_spec (Z.of_nat k) (sl_end sl)); cbn [andb]; try reflexivity; lia.
  Qed.

  Ltac sel := split; unfold same_model, same_weights, same_xb, same_yb, same_ub, same_sb, same_mult, same_refs, same_dist;
    repeat (apply conj); try reflexivity; try apply same_plant_refl; try apply eqm_refl; try apply eqv_refl;
    intros k ?; try intros ?j; try intros Hk; cbn; unfold put, put1;
    repeat match goal with |- context [if ?g k || ?f k then _ else _] => destruct (g k), (f k)
           | Hk : forall k, k < ph -> ?f k = ?g k |- context [?f k] => rewrite (Hk k) by assumption end;
    try reflexivity.

  (** *** sequence sizes *)
  Lemma loop_sized {T} n (body : nat -> mat T -> mat T) M r c :
    (forall i M, sized M r c -> sized (body i M) r c) -> sized M r c -> sized (loop n body M) r c.
  Proof. intros Hb HM. induction n; cbn [loop]; auto. Qed.
  Lemma seq_state_sized x (M : mat F) : sized M (ph + 1) nx -> sized (seq_state d x M) (ph + 1) nx.
  Proof. intros H. apply loop_sized; [|exact H]. intros i M' H'. apply loop_sized; [|exact H'].
    intros j M'' []; split; assumption. Qed.
  Lemma seq_input_sized x (M : mat F) : sized M (ph + 1) nu -> sized (seq_input d x M) (ph + 1) nu.
  Proof. intros H. apply loop_sized; [|exact H]. intros i M' H'. apply loop_sized; [|exact H'].
    intros j M'' []; split; assumption. Qed.
  Lemma seq_output_sized b st D (M : mat F) : sized M (ph + 1) ny -> sized (seq_output d b st D M) (ph + 1) ny.
  Proof. intros H. apply loop_sized; [|exact H]. intros i M' []; split; assumption. Qed.

  (** *** problem generation keeps the representation *)
  Record get_ent (b : builder F) (x0 u0 yRef uRef duRef uMeas : mat F) (b' : builder F) : Prop := {
    ge_ss : b_ss b' = b_ss b; ge_w : b_w b' = b_w b; ge_lim : b_lim b' = b_lim b;
    ge_P : pP (b_prob b') = pP (b_prob b); ge_A : pA (b_prob b') = pA (b_prob b);
    ge_lin : b_lineq b' = b_lineq b; ge_uin : b_uineq b' = b_uineq b;
    ge_sz : Bsized b';
    ge_qx : forall i a, i < ph + 1 -> a < w ->
      ent (pq (b_prob b')) (i * w + a) 0 = q_blk d (b_ss b) (b_w b) yRef uRef uMeas i a;
    ge_qu : forall i a, i < ph -> a < nu ->
      ent (pq (b_prob b')) (N1 + (i * nu + a)) 0 =
        sopp (ssum nu (fun l => smul (if a =? l then ent (wDeltaU (b_w b)) a i else s0) (ent duRef l (cprev i))));
    ge_0x : forall a, a < nx -> ent (pl (b_prob b')) a 0 = Fin (sopp (ent x0 a 0));
    ge_0u : forall a, a < nu -> ent (pl (b_prob b')) (nx + a) 0 = Fin (sopp (ent u0 a 0));
    ge_eq : forall i a, 0 < i -> i < ph + 1 -> a < w ->
      ent (pl (b_prob b')) (i * w + a) 0 =
        Fin (ssum ndu (fun m => smul (sopp (ent (ssBv (b_ss b)) a m)) (ent uMeas m (cprev i))));
    ge_ul : forall r, r < N1 -> ent (pu (b_prob b')) r 0 = ent (pl (b_prob b')) r 0;
    ge_l : forall r, r < n_ineq d -> exists o,
      ent (pl (b_prob b')) (N1 + r) 0 = eadd (ent (b_lineq b) r 0) o /\
      ent (pu (b_prob b')) (N1 + r) 0 = eadd (ent (b_uineq b) r 0) o /\
      (r < N1 \/ N1 + (ph + 1) * ny <= r -> o = s0) /\
      (forall i a, i < ph + 1 -> a < ny -> r = N1 + (i * ny + a) ->
         o = ssum ndu (fun m => smul (sopp (ent (ssDv (b_ss b)) a m)) (ent uMeas m (cprev i)))) }.

  Lemma get_ok b x0 u0 yRef uRef duRef uMeas :
    Bsized b -> refs_sized d yRef uRef duRef uMeas -> sized x0 nx 1 -> sized u0 nu 1 ->
    get_ent b x0 u0 yRef uRef duRef uMeas (get d b x0 u0 yRef uRef duRef uMeas).
  Proof.
    intros S Hr [X1 X2] [U1 U2]. pose proof S as [S1 S2 S3 S4 S5 S6 S7 S8 S9 S10 S11].
    unfold get. set (q0 := mzero (mrows (pq (b_prob b))) _). set (l0 := mzero (mrows (b_leq b)) _).
    set (o0 := mzero (mrows (b_off b)) _).
    assert (Q0 : sized q0 (n_var d) 1) by exact S9.
    assert (L0 : sized l0 (n_eq d) 1) by exact S4.
    assert (O0 : sized o0 (n_ineq d) 1) by exact S6.
    pose proof (get_loop_inv d (b_ss b) (b_w b) yRef uRef duRef uMeas (ph + 1) q0 l0 o0 S1 S2 Hr Q0 L0 O0
                  (fun r => eq_refl) (le_n _)) as I.
    destruct (loop (ph + 1) _ _) as [[[wE q] leq] off].
    destruct I as [_ _ Iq Il Io Iqx Iqu Ileq Iy Io0 Io1]. cbn [fst snd] in *.
    destruct S10 as [S10r S10c], S11 as [S11r S11c], Il as [Ilr Ilc], Io as [Ior Ioc].
    unfold n_eq in Ilr.
    unfold set_middle_rows. cbn [set_block mcols mconst]. rewrite S10c, S11c, Ilc.
    fold w. set (LL := set_block (set_block leq 0 0 nx 1 (mopp x0)) nx 0 nu 1 (mopp u0)).
    assert (NI : N1 + (ph + 1) * ny + ph * nu + (ph + 1) = n_ineq d) by (unfold n_ineq; lia).
    rewrite NI.
    split; cbn [b_ss b_w b_lim b_prob pP pA pq pl pu b_lineq b_uineq]; try reflexivity; try assumption.
    - split; cbn [b_ss b_w b_lim b_prob pP pA pq pl pu b_lineq b_uineq b_leq b_ueq b_off]; try assumption;
        split; unfold LL; cbn [set_block mrows mcols mconst]; unfold n_eq; try assumption; reflexivity.
    - intros i a Hi Ha. apply Iqu; lia.
    - intros a Ha. pose proof (blk_lt 0 (ph + 1) w a ltac:(lia) ltac:(lia)).
      rewrite ent_set_block_row_out by lia. rewrite ent_set_block_in by lia. cbn [mfin ent]. f_equal.
      rewrite !Nat.sub_0_r. unfold LL. sb. sb. cbn [mopp ent]. do 2 f_equal; lia.
    - intros a Ha. pose proof (blk_lt 0 (ph + 1) w (nx + a) ltac:(lia) ltac:(lia)).
      rewrite ent_set_block_row_out by lia. rewrite ent_set_block_in by lia. cbn [mfin ent]. f_equal.
      rewrite !Nat.sub_0_r. unfold LL. sb. cbn [mopp ent]. do 2 f_equal; lia.
    - intros i a Hi0 Hi Ha. pose proof (blk_lt i (ph + 1) w a Hi Ha).
      pose proof (blk_le 0 i w Hi0).
      rewrite ent_set_block_row_out by lia. rewrite ent_set_block_in by lia. cbn [mfin ent]. f_equal.
      rewrite !Nat.sub_0_r. unfold LL. rewrite !ent_set_block_row_out by lia. now apply Ileq.
    - intros r Hr'. repeat sb. reflexivity.
    - intros r Hr'. exists (ent off r 0).
      rewrite !ent_set_block_in by lia. cbn [meadd ent].
      replace (N1 + r - N1) with r by lia. rewrite Nat.sub_0_r. repeat split.
      + intros [A|A]; [now apply Io0|now apply Io1].
      + intros i a Hi Ha ->. now apply Iy.
  Qed.

  Lemma R_built s c x0 u0 : R s c -> sized x0 nx 1 -> sized u0 nu 1 -> Rb (l_built d s x0 u0) c.
  Proof.
    intros [[S [B1 B2 B3 B4] P Z D W L] O] X U. unfold l_built.
    destruct (get_ok (l_b s) x0 u0 _ _ _ _ S (ro_sz _ _ O) X U) as [E1 E2 E3 E4 E5 E6 E7 G _ _ _ _ _ _ _].
    split; [exact G| |..]; rewrite ?E1, ?E2, ?E3; try assumption.
    split; rewrite ?E1, ?E2, ?E3, ?E4, ?E5, ?E6, ?E7; assumption.
  Qed.

  Lemma R_init : R (l_init junk ejunk d) cfg0.
  Proof.
    split.
    - apply Rb_build.
      + split; cbn; try (repeat split; reflexivity).
      + cbn. repeat split; reflexivity.
      + split; intros; reflexivity.
      + repeat split; intros; reflexivity.
      + repeat split; intros i j Hi Hj; reflexivity.
      + repeat split; try (intros i j Hi Hj; reflexivity); try (intros i Hi; reflexivity).
        intros i j b Hi Hj Hb. cbn [cfg0 g_sX g_sU]. destruct (i =? j); [destruct (b <? nx)|]; reflexivity.
    - split; cbn; try (repeat split; reflexivity); intros k j Hk Hj; reflexivity.
  Qed.

  (** *** every call refines the configuration update *)
  Ltac fromc L := try match goal with H : sized _ _ _ /\ sized _ _ _ |- _ => destruct H end;
    first [solve [unshelve (eapply proj1; eapply L; eassumption); first [exact (g_xlo cfg0) | exact (g_wy cfg0)]] | solve [eapply proj2; eapply L; eassumption]].
  Theorem l_step_R s c op s' r :
    R s c -> op_sized op -> op_proper op -> l_step junk ejunk d s op = Ok (s', r) ->
    R s' (cfg_step c (op, r)).
  Proof.
    intros HR Hs Hp E. unfold cfg_step. cbn [fst snd].
    pose proof HR as [HB HO]. pose proof (rb_sz _ _ HB) as SZ. lims SZ.
    pose proof (bs_w _ SZ) as (W1 & W2 & W3).
    pose proof (rb_lim _ _ HB) as RL. rlim RL.
    destruct op; cbn [l_step op_sized op_proper slice_of] in *; unfold op_proper in Hp; cbn [slice_of] in Hp.
    - apply finish_inv in E. destruct E as (-> & -> & K). apply (R_upd_b s c); [exact HR| |reflexivity..].
      now apply Rb_setStateModel.
    - apply finish_inv in E. destruct E as (-> & -> & K). apply (R_upd_b s c); [exact HR| |reflexivity..].
      now apply Rb_setExogenousInput.
    - apply finish_inv in E. destruct E as (-> & -> & K). apply (R_upd_b s c); [exact HR| |reflexivity..].
      apply Rb_xb; try exact HB; fromc @horizon_steps1.
    - apply finish_inv in E. destruct E as (-> & -> & K). destruct Hs as [M1 M2].
      assert (EC : ch = ph).
      { apply l_ok_lim in K. cbn in K. eapply set_inputs_ok; [| |exact K]; assumption. }
      apply (R_upd_b s c); [exact HR| |reflexivity..].
      apply Rb_ub; try exact HB; fromc @set_inputs_R.
    - apply finish_inv in E. destruct E as (-> & -> & K). apply (R_upd_b s c); [exact HR| |reflexivity..].
      apply Rb_yb; try exact HB; fromc @horizon_steps1.
    - destruct (on_slice_R _ _ _ _
        (fun f c => set_xb c (put f (vec mn) (g_xlo c)) (put f (vec mx) (g_xhi c))) _ _ _ _ HR Hp E)
        as [G [->|[-> ->]]]; try exact G; try (intros; sel).
      + intros _. apply (R_upd_b s c); [exact HR| |reflexivity..].
        apply Rb_xb; try exact HB; fromc @horizon_repl.
      + clear - ph_pos Hs. intros i s c Hi HR. pose proof HR as [HB _]. apply (R_upd_b s c); [exact HR| |reflexivity..].
        pose proof (rb_sz _ _ HB) as SZ. lims SZ. pose proof (rb_lim _ _ HB) as RL. rlim RL.
        apply Rb_xb; try exact HB; fromc @set_step_steps1.
    - destruct (on_slice_R _ _ _ _
        (fun f c => set_ub c (put f (vec mn) (g_ulo c)) (put f (vec mx) (g_uhi c))) _ _ _ _ HR Hp E)
        as [G [->|[-> ->]]]; try exact G; try (intros; sel).
      + intros K. apply (R_upd_b s c); [exact HR| |reflexivity..].
        destruct Hs as [M1 M2]. destruct (replicate_cols ejunk nu ch mn M1) as [A1 A2].
        destruct (replicate_cols ejunk nu ch mx M2) as [B1 B2].
        assert (EC : ch = ph).
        { apply l_ok_lim in K. cbn in K. eapply set_inputs_ok; [| |exact K]; assumption. }
        apply Rb_ub; try exact HB; try fromc @set_inputs_R;
          intros k j Hk Hj; unfold put.
        * rewrite (proj2 (set_inputs_R _ _ S5 A1 EC)) by assumption. apply A2; lia.
        * rewrite (proj2 (set_inputs_R _ _ S6 B1 EC)) by assumption. apply B2; lia.
      + clear - ph_pos Hs. intros i s c Hi HR. pose proof HR as [HB _]. apply (R_upd_b s c); [exact HR| |reflexivity..].
        pose proof (rb_sz _ _ HB) as SZ. lims SZ. pose proof (rb_lim _ _ HB) as RL. rlim RL.
        apply Rb_ub; try exact HB; fromc @set_col_steps0.
    - destruct (on_slice_R _ _ _ _
        (fun f c => set_yb c (put f (vec mn) (g_ylo c)) (put f (vec mx) (g_yhi c))) _ _ _ _ HR Hp E)
        as [G [->|[-> ->]]]; try exact G; try (intros; sel).
      + intros _. apply (R_upd_b s c); [exact HR| |reflexivity..].
        apply Rb_yb; try exact HB; fromc @horizon_repl.
      + clear - ph_pos Hs. intros i s c Hi HR. pose proof HR as [HB _]. apply (R_upd_b s c); [exact HR| |reflexivity..].
        pose proof (rb_sz _ _ HB) as SZ. lims SZ. pose proof (rb_lim _ _ HB) as RL. rlim RL.
        apply Rb_yb; try exact HB; fromc @set_step_steps1.
    - apply finish_inv in E. destruct E as (-> & -> & K). apply (R_upd_b s c); [exact HR| |reflexivity..].
      destruct Hs as (M1 & M2 & M3).
      apply Rb_wt; try exact HB; try fromc @horizon_steps1.
      + exact M3.
      + intros k j Hk Hj. reflexivity.
    - destruct (on_slice_R _ _ _ _
        (fun f c => set_weights c (put f (vec OW) (g_wy c)) (put f (vec UW) (g_wu c)) (put f (vec DUW) (g_wdu c)))
        _ _ _ _ HR Hp E)
        as [G [->|[-> ->]]]; try exact G; try (intros; sel).
      + intros _. apply (R_upd_b s c); [exact HR| |reflexivity..]. destruct Hs as (M1 & M2 & M3).
        apply Rb_wt; try exact HB; try fromc @horizon_repl; fromc @repl_steps0.
      + clear - ph_pos Hs. intros i s c Hi HR. pose proof HR as [HB _]. apply (R_upd_b s c); [exact HR| |reflexivity..].
        pose proof (rb_sz _ _ HB) as SZ. pose proof (bs_w _ SZ) as (W1 & W2 & W3).
        pose proof (rb_w _ _ HB) as (V1 & V2 & V3). destruct Hs as (M1 & M2 & M3).
        apply Rb_wt; try exact HB; try fromc @set_step_steps1; fromc @set_col_steps0.
    - destruct (on_slice_R _ _ _ _
        (fun f c => set_sc c (put1 f mn (g_slo c)) (put1 f mx (g_shi c)) (vec X) (vec U)) _ _ _ _ HR Hp E)
        as [G [->|[-> ->]]]; try exact G; try (intros; sel).
      + intros _. apply (R_upd_b s c); [exact HR| |reflexivity..]. destruct Hs as (M1 & M2).
        assert (V1 : sized (mconst ph 1 mn) ph 1) by (split; reflexivity).
        assert (V2 : sized (mconst ph 1 mx) ph 1) by (split; reflexivity).
        apply Rb_sc; try exact HB; try fromc @sc_all; fromc @mult_R.
      + clear - ph_pos Hs. intros i s c Hi HR. pose proof HR as [HB _]. apply (R_upd_b s c); [exact HR| |reflexivity..].
        pose proof (rb_sz _ _ HB) as SZ. lims SZ. pose proof (rb_lim _ _ HB) as RL. rlim RL. destruct Hs as (M1 & M2).
        apply Rb_sc; try exact HB; try fromc @sc_step; fromc @mult_R.
    - destruct (N.leb_spec (N.of_nat ph) index) as [A|A]; [inversion E; subst; exact HR|].
      apply finish_inv in E. destruct E as (-> & -> & K). apply (R_upd_b s c); [exact HR| |reflexivity..].
      destruct Hs as (M1 & M2). assert (Hi : N.to_nat index < ph) by lia.
      apply Rb_sc; try exact HB; try fromc @sc_step; fromc @mult_R.
    - apply finish_inv in E. destruct E as (-> & -> & K). apply R_upd_dist; try assumption.
      intros k j Hk Hj. reflexivity.
    - destruct (on_slice_R _ _ _ _
        (fun f c => set_dist c (put f (vec v) (g_d c))) _ _ _ _ HR Hp E)
        as [G [->|[-> ->]]]; try exact G; try (intros; sel).
      + intros _. apply R_upd_dist; try assumption; fromc @repl_steps0.
      + clear - ph_pos Hs. intros i s c Hi HR. pose proof HR as [_ HO].
        pose proof (ro_sz _ _ HO) as (Z1 & Z2 & Z3 & Z4). pose proof (ro_d _ _ HO).
        apply R_upd_dist; try assumption; fromc @set_mcol_steps0.
    - apply finish_inv in E. destruct E as (-> & -> & K). apply R_upd_refs; try assumption; try tauto;
      intros k j Hk Hj; reflexivity.
    - destruct (on_slice_R _ _ _ _
        (fun f c => set_refs c (put f (vec y) (g_yr c)) (put f (vec u) (g_ur c)) (put f (vec du) (g_dur c)))
         _ _ _ _ HR Hp E)
        as [G [->|[-> ->]]]; try exact G; try (intros; sel).
      + intros _. destruct Hs as (M1 & M2 & M3). apply R_upd_refs; try assumption; fromc @repl_steps0.
      + clear - ph_pos Hs. intros i s c Hi HR. pose proof HR as [_ HO].
        pose proof (ro_sz _ _ HO) as (Z1 & Z2 & Z3 & Z4). destruct Hs as (M1 & M2 & M3).
        pose proof (ro_y _ _ HO). pose proof (ro_u _ _ HO). pose proof (ro_du _ _ HO).
        apply R_upd_refs; try assumption; fromc @set_mcol_steps0.
    - destruct p as [p|]; [|discriminate]. inversion E; subst; clear E.
      destruct HB, HO. split; [split; assumption|]. split; try assumption. reflexivity.
    - inversion E; subst; clear E. destruct HB, HO. split; [split; assumption|]. split; assumption.
    - inversion E; subst; exact HR.
    - inversion E; subst; exact HR.
    - inversion E; subst; exact HR.
    - destruct Hs as [X U]. unfold l_run in E. pose proof (R_built s c x0 u0 HR X U) as G.
      destruct HO as [Z (Q1 & Q2 & Q3 & Q4) Hy Hu Hdu Hd Hpar].
      destruct (negb _); [discriminate|]. destruct a as [| |x y code obj]; [discriminate| |].
      + destruct (l_ok _); [|discriminate]. inversion E; subst; clear E. split; [exact G|].
        split; try assumption. repeat split; cbn; try apply Q1; try apply Q2; try apply Q3; apply Q4.
      + destruct (l_ok _); [|discriminate]. inversion E; subst; clear E. split; [exact G|].
        split; try assumption. cbn [l_o o_seq o_res q_state q_output q_input r_cmd].
        split; [now apply seq_state_sized|]. split; [now apply seq_output_sized|].
        split; [now apply seq_input_sized|]. split.
        * cbn. now apply seq_input_sized.
        * reflexivity.
  Qed.

  Lemma l_play_R ops : forall s c s' h, R s c -> Forall op_sized ops -> Forall op_proper ops ->
    l_play junk ejunk d s ops = Ok (s', h) -> R s' (fold_left cfg_step h c).
  Proof.
    induction ops as [|op ops IH]; intros s c s' h HR HS HP E; cbn [l_play] in E.
    - inversion E; subst. exact HR.
    - inversion HS; inversion HP; subst.
      destruct (l_step junk ejunk d s op) as [[s1 r]|] eqn:E1; [|discriminate].
      destruct (l_play junk ejunk d s1 ops) as [[s2 h2]|] eqn:E2; [|discriminate].
      inversion E; subst; clear E. cbn [fold_left]. eapply IH; try eassumption.
      eapply l_step_R; eassumption.
  Qed.
  Theorem l_reach_R ops s h : Forall op_sized ops -> Forall op_proper ops ->
    l_play junk ejunk d (l_init junk ejunk d) ops = Ok (s, h) -> R s (cfg_run h).
  Proof. intros. eapply l_play_R; try eassumption. apply R_init. Qed.
End Ref.
