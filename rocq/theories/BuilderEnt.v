(** Pointwise characterisation of the matrices produced by [Builder.v]. *)
From Coq Require Import Bool Arith List Lia Ring Field.
From Verif Require Import Scalar Sums Mat Builder.

(** ** Index arithmetic of stacked blocks *)
Lemma blk_le i j w : i < j -> i * w + w <= j * w.
Proof. intros H. replace (i * w + w) with (S i * w) by lia. apply Nat.mul_le_mono_r. lia. Qed.
Lemma blk_lt i n w a : i < n -> a < w -> i * w + a < n * w.
Proof. intros H Ha. pose proof (blk_le i n w H). lia. Qed.
Lemma blk_split r n w : r < n * w -> exists i a, i < n /\ a < w /\ r = i * w + a.
Proof.
  intros H. assert (W : w <> 0) by (intros ->; lia).
  exists (r / w), (r mod w). split; [|split].
  - apply Nat.div_lt_upper_bound; [exact W|lia].
  - now apply Nat.mod_upper_bound.
  - rewrite Nat.mul_comm. now apply Nat.div_mod.
Qed.

Ltac eqbs :=
  repeat match goal with
  | |- context [Nat.eqb ?a ?b] => destruct (Nat.eqb_spec a b)
  | |- context [Nat.ltb ?a ?b] => destruct (Nat.ltb_spec a b)
  | |- context [Nat.leb ?a ?b] => destruct (Nat.leb_spec a b)
  end.

(** simplify one [set_block] whose position relative to the indices is decided by [lia] *)
Ltac sb :=
  first [ rewrite ent_set_block_in by lia
        | rewrite ent_set_block_row_out by lia
        | rewrite ent_set_block_col_out by lia ].

Section Ent.
  Context {F : Type} {SO : ScalarOps F}.
  Variable junk : nat -> nat -> F.
  Variable ejunk : nat -> nat -> ext F.
  Variable d : dims.
  Notation nx := (d_nx d). Notation nu := (d_nu d). Notation ndu := (d_ndu d).
  Notation ny := (d_ny d). Notation ph := (d_ph d). Notation ch := (d_ch d).
  Notation w := (nu + nx).
  Notation N1 := ((ph + 1) * (nu + nx)).

  Definition ss_sized (ss : ssys F) : Prop :=
    sized (ssA ss) (nu + nx) (nu + nx) /\ sized (ssB ss) (nu + nx) nu /\
    sized (ssC ss) (nu + ny) (nu + nx) /\ sized (ssBv ss) (nu + nx) ndu /\
    sized (ssDv ss) (nu + ny) ndu.
  Definition w_sized (ww : weights F) : Prop :=
    sized (wOutput ww) ny (ph + 1) /\ sized (wU ww) nu (ph + 1) /\ sized (wDeltaU ww) nu ph.
  Definition lim_sized (l : limits F) : Prop :=
    sized (minX l) nx (ph + 1) /\ sized (maxX l) nx (ph + 1) /\
    sized (minY l) ny (ph + 1) /\ sized (maxY l) ny (ph + 1) /\
    sized (minU l) nu ph /\ sized (maxU l) nu ph /\
    sized (sMin l) (ph + 1) 1 /\ sized (sMax l) (ph + 1) 1 /\
    sized (sMultiplier l) (ph + 1) ((ph + 1) * (nu + nx)).

  (** *** the extended weight matrix *)
  Definition wE_diag (ww : weights F) (i l : nat) : F :=
    if l <? ny then ent (wOutput ww) l i else ent (wU ww) (l - ny) i.
  Definition offdiag0 (M : mat F) : Prop :=
    forall l m, l < nu + ny -> m < nu + ny -> l <> m -> ent M l m = s0.

  Definition wE_upd (ww : weights F) (i : nat) (wE : mat F) : mat F :=
    set_block (set_block wE 0 0 ny ny (mdiag (mcol (wOutput ww) i)))
      ny ny nu nu (mdiag (mcol (wU ww) i)).

  Lemma wE_upd_ent ww i wE : offdiag0 wE -> forall l m, l < nu + ny -> m < nu + ny ->
    ent (wE_upd ww i wE) l m = if l =? m then wE_diag ww i l else s0.
  Proof.
    intros H0 l m Hl Hm. unfold wE_upd, wE_diag.
    destruct (Nat.ltb_spec l ny) as [A|A]; destruct (Nat.ltb_spec m ny) as [B|B].
    - sb. sb. cbn. rewrite !Nat.sub_0_r. destruct (Nat.eqb_spec l m); [|reflexivity].
      subst. now replace (i + 0) with i by lia.
    - sb. sb. destruct (Nat.eqb_spec l m); [lia|]. apply H0; lia.
    - sb. sb. destruct (Nat.eqb_spec l m); [lia|]. apply H0; lia.
    - sb. cbn. destruct (Nat.eqb_spec l m).
      + subst. rewrite Nat.eqb_refl. now replace (i + 0) with i by lia.
      + destruct (Nat.eqb_spec (l - ny) (m - ny)); [lia|reflexivity].
  Qed.
  Lemma wE_upd_offdiag ww i wE : offdiag0 wE -> offdiag0 (wE_upd ww i wE).
  Proof. intros H l m Hl Hm N. rewrite wE_upd_ent by assumption.
    destruct (Nat.eqb_spec l m); [contradiction|reflexivity]. Qed.

  (** *** P *)
  (** block of P for stage i: ssC' W_i ssC *)
  Definition P_blk (ss : ssys F) (ww : weights F) (i a b : nat) : F :=
    ssum (nu + ny) (fun k => smul (ssum (nu + ny) (fun l =>
       smul (ent (ssC ss) l a) (if l =? k then wE_diag ww i l else s0))) (ent (ssC ss) k b)).

  Record P_inv (ss : ssys F) (ww : weights F) (k : nat) (st : mat F * mat F) : Prop := {
    Pi_off : offdiag0 (fst st);
    Pi_r : mrows (fst st) = nu + ny; Pi_c : mcols (fst st) = nu + ny;
    Pi_xx : forall i j a b, i < ph + 1 -> j < ph + 1 -> a < w -> b < w ->
      ent (snd st) (i * w + a) (j * w + b) =
        if (i =? j) && (i <? k) then P_blk ss ww i a b else s0;
    Pi_xu : forall r c, r < N1 -> N1 <= c -> c < N1 + ph * nu -> ent (snd st) r c = s0;
    Pi_ux : forall r c, N1 <= r -> r < N1 + ph * nu -> c < N1 -> ent (snd st) r c = s0;
    Pi_uu : forall i j a b, i < ph -> j < ph -> a < nu -> b < nu ->
      ent (snd st) (N1 + (i * nu + a)) (N1 + (j * nu + b)) =
        if (i =? j) && (i <? k) && (a =? b) then ent (wDeltaU ww) a i else s0 }.

  Lemma build_P_inv ss ww k : ss_sized ss -> w_sized ww -> k <= ph + 1 ->
    P_inv ss ww k (loop k (build_P_body d ss ww) (mzero (nu + ny) (nu + ny), mzero (n_var d) (n_var d))).
  Proof.
    intros Hss Hww. induction k as [|k IH]; intros Hk.
    - cbn [loop]. split; cbn [fst snd].
      + intros l m _ _ _. reflexivity.
      + reflexivity.
      + reflexivity.
      + intros. cbn. destruct (i =? j); reflexivity.
      + reflexivity.
      + reflexivity.
      + intros. cbn. destruct (i =? j); reflexivity.
    - cbn [loop]. specialize (IH ltac:(lia)).
      destruct (loop k (build_P_body d ss ww) _) as [wE P]. destruct IH as [H0 Hr Hc Hxx Hxu Hux Huu].
      cbn [fst snd] in *. unfold build_P_body. fold (wE_upd ww k wE).
      set (wE' := wE_upd ww k wE).
      set (P1 := set_block P (k * w) (k * w) w w _).
      assert (HB : forall a b, a < w -> b < w ->
        ent (mmul (mmul (mtrans (ssC ss)) wE') (ssC ss)) a b = P_blk ss ww k a b).
      { intros a b Ha Hb. assert (EC : mcols wE' = nu + ny) by exact Hc.
        destruct Hss as (_ & _ & [HCr HCc] & _).
        cbn [mmul ent mtrans mcols mrows]. rewrite EC, HCr. apply ssum_ext. intros m Hm. f_equal.
        apply ssum_ext. intros l Hl. f_equal. unfold wE'. now rewrite wE_upd_ent. }
      assert (K : k * w + w <= N1) by (pose proof (blk_le k (ph + 1) w ltac:(lia)); lia).
      split; cbn [fst snd].
      + now apply wE_upd_offdiag.
      + exact Hr.
      + exact Hc.
      + intros i j a b Hi Hj Ha Hb.
        pose proof (blk_lt i (ph + 1) w a Hi Ha). pose proof (blk_lt j (ph + 1) w b Hj Hb).
        assert (E : ent (if k <? ph then set_block P1 (N1 + k * nu) (N1 + k * nu) nu nu
                         (mdiag (mcol (wDeltaU ww) k)) else P1) (i * w + a) (j * w + b) =
                    ent P1 (i * w + a) (j * w + b)).
        { destruct (Nat.ltb_spec k ph); [|reflexivity]. now rewrite ent_set_block_row_out by lia. }
        rewrite E. unfold P1. destruct (Nat.eq_dec i k) as [->|Ni].
        * destruct (Nat.eq_dec j k) as [->|Nj].
          -- rewrite ent_set_block_in by lia. rewrite HB by lia.
             rewrite Nat.eqb_refl. destruct (Nat.ltb_spec k (S k)); [|lia]. cbn [andb].
             f_equal; lia.
          -- assert (j * w + w <= k * w \/ k * w + w <= j * w).
             { destruct (Nat.lt_ge_cases j k) as [A|A]; [left|right]; apply blk_le; lia. }
             rewrite ent_set_block_col_out by lia. rewrite Hxx by lia.
             destruct (Nat.eqb_spec k j); [lia|reflexivity].
        * assert (i * w + w <= k * w \/ k * w + w <= i * w).
          { destruct (Nat.lt_ge_cases i k) as [A|A]; [left|right]; apply blk_le; lia. }
          rewrite ent_set_block_row_out by lia. rewrite Hxx by lia.
          destruct (Nat.eqb_spec i j); [|reflexivity]. cbn [andb].
          destruct (Nat.ltb_spec i k), (Nat.ltb_spec i (S k)); try lia; reflexivity.
      + intros r c Hr' Hc1 Hc2. destruct (Nat.ltb_spec k ph).
        * rewrite ent_set_block_row_out by lia. unfold P1. rewrite ent_set_block_col_out by lia. now apply Hxu.
        * unfold P1. rewrite ent_set_block_col_out by lia. now apply Hxu.
      + intros r c Hr1 Hr2 Hc'. destruct (Nat.ltb_spec k ph).
        * rewrite ent_set_block_col_out by lia. unfold P1. rewrite ent_set_block_row_out by lia. now apply Hux.
        * unfold P1. rewrite ent_set_block_row_out by lia. now apply Hux.
      + intros i j a b Hi Hj Ha Hb.
        assert (E1 : ent P1 (N1 + (i * nu + a)) (N1 + (j * nu + b)) =
                     ent P (N1 + (i * nu + a)) (N1 + (j * nu + b))).
        { unfold P1. now rewrite ent_set_block_row_out by lia. }
        destruct (Nat.ltb_spec k ph) as [A|A].
        * destruct (Nat.eq_dec i k) as [->|Ni].
          -- destruct (Nat.eq_dec j k) as [->|Nj].
             ++ rewrite ent_set_block_in by lia. cbn [mdiag ent mcol block].
                replace (N1 + (k * nu + a) - (N1 + k * nu)) with a by lia.
                replace (N1 + (k * nu + b) - (N1 + k * nu)) with b by lia.
                rewrite Nat.eqb_refl. destruct (Nat.ltb_spec k (S k)); [|lia]. cbn [andb].
                destruct (Nat.eqb_spec a b); [|reflexivity]. f_equal; lia.
             ++ assert (j * nu + nu <= k * nu \/ k * nu + nu <= j * nu).
                { destruct (Nat.lt_ge_cases j k) as [B|B]; [left|right]; apply blk_le; lia. }
                rewrite ent_set_block_col_out by lia. rewrite E1, Huu by lia.
                destruct (Nat.eqb_spec k j); [lia|reflexivity].
          -- assert (i * nu + nu <= k * nu \/ k * nu + nu <= i * nu).
             { destruct (Nat.lt_ge_cases i k) as [B|B]; [left|right]; apply blk_le; lia. }
             rewrite ent_set_block_row_out by lia. rewrite E1, Huu by lia.
             destruct (Nat.eqb_spec i j); [|reflexivity]. cbn [andb].
             destruct (Nat.ltb_spec i k), (Nat.ltb_spec i (S k)); try lia; reflexivity.
        * rewrite E1, Huu by lia. destruct (Nat.eqb_spec i j); [|reflexivity]. cbn [andb].
          destruct (Nat.ltb_spec i k), (Nat.ltb_spec i (S k)); try lia; reflexivity.
  Qed.

  Lemma build_P_xx ss ww : ss_sized ss -> w_sized ww ->
    forall i j a b, i < ph + 1 -> j < ph + 1 -> a < w -> b < w ->
      ent (build_P d ss ww) (i * w + a) (j * w + b) = if i =? j then P_blk ss ww i a b else s0.
  Proof. intros Hs Hw i j a b Hi Hj Ha Hb. unfold build_P.
    rewrite (Pi_xx _ _ _ _ (build_P_inv ss ww (ph + 1) Hs Hw (le_n _))) by assumption.
    destruct (Nat.ltb_spec i (ph + 1)); [|lia]. now rewrite andb_true_r. Qed.
  Lemma build_P_uu ss ww : ss_sized ss -> w_sized ww ->
    forall i j a b, i < ph -> j < ph -> a < nu -> b < nu ->
      ent (build_P d ss ww) (N1 + (i * nu + a)) (N1 + (j * nu + b)) =
        if (i =? j) && (a =? b) then ent (wDeltaU ww) a i else s0.
  Proof. intros Hs Hw i j a b Hi Hj Ha Hb. unfold build_P.
    rewrite (Pi_uu _ _ _ _ (build_P_inv ss ww (ph + 1) Hs Hw (le_n _))) by assumption.
    destruct (Nat.ltb_spec i (ph + 1)); [|lia]. now rewrite andb_true_r. Qed.
  Lemma build_P_xu ss ww : ss_sized ss -> w_sized ww ->
    forall r c, r < N1 -> N1 <= c -> c < N1 + ph * nu -> ent (build_P d ss ww) r c = s0.
  Proof. intros Hs Hw. exact (Pi_xu _ _ _ _ (build_P_inv ss ww (ph + 1) Hs Hw (le_n _))). Qed.
  Lemma build_P_ux ss ww : ss_sized ss -> w_sized ww ->
    forall r c, N1 <= r -> r < N1 + ph * nu -> c < N1 -> ent (build_P d ss ww) r c = s0.
  Proof. intros Hs Hw. exact (Pi_ux _ _ _ _ (build_P_inv ss ww (ph + 1) Hs Hw (le_n _))). Qed.

  (** *** Bounds of the inequality rows (no algebra needed) *)
  Lemma build_eX_ent bX bU k : sized bX nx (ph + 1) -> sized bU nu ph -> k <= ph + 1 ->
    let eX := loop k (fun i eX =>
      let tmpU := if i =? ph then mcol bU (i - 1) else mcol bU i in
      set_middle_rows eX (i * w) w (vcat (mcol bX i) tmpU)) (mjunk ejunk N1 1) in
    sized eX N1 1 /\
    forall i a, i < k -> a < w ->
      ent eX (i * w + a) 0 =
        if a <? nx then ent bX a i else ent bU (a - nx) (if i =? ph then i - 1 else i).
  Proof.
    intros [HXr HXc] [HUr HUc]. induction k as [|k IH]; intros Hk; cbn [loop].
    - split; [split; reflexivity|intros; lia].
    - specialize (IH ltac:(lia)). cbn zeta in IH. destruct IH as [[Hr Hc] IH].
      set (eX := loop k _ _) in *. cbn zeta. split.
      + split; assumption.
      + intros i a Hi Ha. unfold set_middle_rows. rewrite Hc.
        destruct (Nat.eq_dec i k) as [->|N].
        * rewrite ent_set_block_in by lia. replace (k * w + a - k * w) with a by lia.
          cbn [vcat ent mcol block mrows]. rewrite HXr.
          destruct (Nat.ltb_spec a nx).
          -- f_equal; lia.
          -- destruct (Nat.eqb_spec k ph); cbn [mcol block ent]; f_equal; lia.
        * pose proof (blk_le i k w ltac:(lia)). rewrite ent_set_block_row_out by lia.
          apply IH; lia.
  Qed.

  Record ineq_ent (free : ext F) (bX bU bY bS v : mat (ext F)) : Prop := {
    ie_sz : sized v (n_ineq d) 1;
    ie_x : forall i a, i < ph + 1 -> a < nx -> ent v (i * w + a) 0 = ent bX a i;
    ie_u : forall i a, i < ph + 1 -> a < nu ->
             ent v (i * w + (nx + a)) 0 = ent bU a (if i =? ph then i - 1 else i);
    ie_y : forall i a, i < ph + 1 -> a < ny -> ent v (N1 + (i * ny + a)) 0 = ent bY a i;
    ie_du : forall i a, i < ph -> a < nu ->
             ent v (N1 + (ph + 1) * ny + (i * nu + a)) 0 = if ch <? i then Fin s0 else free;
    ie_s : forall i, i < ph + 1 -> ent v (N1 + (ph + 1) * ny + ph * nu + i) 0 = ent bS i 0 }.

  Lemma build_ineq_ent free bX bU bY bS prev :
    sized bX nx (ph + 1) -> sized bU nu ph -> sized bY ny (ph + 1) -> sized bS (ph + 1) 1 ->
    sized prev (n_ineq d) 1 ->
    ineq_ent free bX bU bY bS (build_ineq d free (build_eX ejunk d bX bU) bY bS prev).
  Proof.
    intros HX HU [HYr HYc] [HSr HSc] [Hpr Hpc].
    destruct (build_eX_ent bX bU (ph + 1) HX HU (le_n _)) as [[HEr HEc] HE].
    fold (build_eX ejunk d bX bU) in HEr, HEc, HE.
    unfold build_ineq. set (eX := build_eX ejunk d bX bU) in *.
    set (v1 := set_middle_rows prev 0 N1 eX).
    set (v2 := set_middle_rows v1 N1 ((ph + 1) * ny) (mflat bY)).
    set (body := fun (i : nat) (v : mat (ext F)) => set_middle_rows v _ nu _).
    assert (H3 : forall k, k <= ph -> sized (loop k body v2) (n_ineq d) 1 /\
      (forall r, r < N1 + (ph + 1) * ny -> ent (loop k body v2) r 0 = ent v2 r 0) /\
      (forall i a, i < k -> a < nu -> ent (loop k body v2) (N1 + (ph + 1) * ny + (i * nu + a)) 0 =
        if ch <? i then Fin s0 else free)).
    { induction k as [|k IH]; intros Hk.
      - split; [split; assumption|]. split; [reflexivity|intros; lia].
      - destruct (IH ltac:(lia)) as ([Kr Kc] & K1 & K2). cbn [loop].
        set (vk := loop k body v2) in *. unfold body, set_middle_rows. rewrite Kc.
        split; [split; assumption|]. split.
        + intros r Hr. rewrite ent_set_block_row_out by lia. now apply K1.
        + intros i a Hi Ha. destruct (Nat.eq_dec i k) as [->|N].
          * rewrite ent_set_block_in by lia. reflexivity.
          * pose proof (blk_le i k nu ltac:(lia)). rewrite ent_set_block_row_out by lia.
            apply K2; lia. }
    destruct (H3 ph (le_n _)) as ([Kr Kc] & K1 & K2). set (v3 := loop ph body v2) in *.
    assert (C1 : mcols v1 = 1) by exact Hpc.
    assert (E1 : forall r, r < N1 -> ent v1 r 0 = ent eX r 0).
    { intros r Hr. unfold v1, set_middle_rows. rewrite Hpc. rewrite ent_set_block_in by lia. f_equal; lia. }
    assert (E2 : forall r, r < N1 -> ent v2 r 0 = ent eX r 0).
    { intros r Hr. unfold v2, set_middle_rows. rewrite ent_set_block_row_out by lia. now apply E1. }
    unfold set_middle_rows. rewrite Kc. split.
    - split; assumption.
    - intros i a Hi Ha. pose proof (blk_lt i (ph + 1) w a Hi ltac:(lia)).
      rewrite ent_set_block_row_out by lia. rewrite K1, E2 by lia. rewrite HE by lia.
      destruct (Nat.ltb_spec a nx); [reflexivity|lia].
    - intros i a Hi Ha. pose proof (blk_lt i (ph + 1) w (nx + a) Hi ltac:(lia)).
      rewrite ent_set_block_row_out by lia. rewrite K1, E2 by lia. rewrite HE by lia.
      destruct (Nat.ltb_spec (nx + a) nx); [lia|]. f_equal. lia.
    - intros i a Hi Ha. pose proof (blk_lt i (ph + 1) ny a Hi Ha).
      rewrite ent_set_block_row_out by lia. rewrite K1 by lia.
      unfold v2, set_middle_rows. rewrite C1. rewrite ent_set_block_in by lia.
      replace (N1 + (i * ny + a) - N1) with (i * ny + a) by lia.
      cbn [mflat ent]. rewrite HYr. destruct (divmod_unique i a ny Ha) as [-> ->]. reflexivity.
    - intros i a Hi Ha. pose proof (blk_lt i ph nu a Hi Ha).
      rewrite ent_set_block_row_out by lia. now apply K2.
    - intros i Hi. rewrite ent_set_block_in by lia. f_equal; lia.
  Qed.

  (** *** q, leq and the output offset computed by [get] *)
  Definition cprev (i : nat) : nat := if i =? 0 then 0 else i - 1.

  (** q block of stage i: ssC' W_i (-eRef + ssDv d) *)
  Definition q_blk (ss : ssys F) (ww : weights F) (yRef uRef uMeas : mat F) (i a : nat) : F :=
    ssum (nu + ny) (fun k => smul (ssum (nu + ny) (fun l =>
       smul (ent (ssC ss) l a) (if l =? k then wE_diag ww i l else s0)))
       (sadd (sopp (if k <? ny then ent yRef k (cprev i) else ent uRef (k - ny) (cprev i)))
             (ssum ndu (fun m => smul (ent (ssDv ss) k m) (ent uMeas m (cprev i)))))).

  Record get_inv (ss : ssys F) (ww : weights F) (yRef uRef duRef uMeas : mat F) (k : nat)
      (st : mat F * mat F * mat F * mat F) : Prop := {
    gi_off : offdiag0 (fst (fst (fst st)));
    gi_c : mcols (fst (fst (fst st))) = nu + ny;
    gi_qs : sized (snd (fst (fst st))) (n_var d) 1;
    gi_ls : sized (snd (fst st)) (n_eq d) 1;
    gi_os : sized (snd st) (n_ineq d) 1;
    gi_qx : forall i a, i < k -> a < w ->
      ent (snd (fst (fst st))) (i * w + a) 0 = q_blk ss ww yRef uRef uMeas i a;
    gi_qu : forall i a, i < k -> i < ph -> a < nu ->
      ent (snd (fst (fst st))) (N1 + (i * nu + a)) 0 =
        sopp (ssum nu (fun l => smul (if a =? l then ent (wDeltaU ww) a i else s0) (ent duRef l (cprev i))));
    gi_leq : forall i a, 0 < i -> i < k -> a < w ->
      ent (snd (fst st)) (i * w + a) 0 =
        ssum ndu (fun m => smul (sopp (ent (ssBv ss) a m)) (ent uMeas m (cprev i)));
    gi_y : forall i a, i < k -> a < ny ->
      ent (snd st) (N1 + (i * ny + a)) 0 =
        ssum ndu (fun m => smul (sopp (ent (ssDv ss) a m)) (ent uMeas m (cprev i)));
    gi_o0 : forall r, r < N1 -> ent (snd st) r 0 = s0;
    gi_o1 : forall r, N1 + (ph + 1) * ny <= r -> ent (snd st) r 0 = s0 }.

  Definition refs_sized (yRef uRef duRef uMeas : mat F) : Prop :=
    sized yRef ny ph /\ sized uRef nu ph /\ sized duRef nu ph /\ sized uMeas ndu ph.

  Lemma get_loop_inv ss ww yRef uRef duRef uMeas k q0 l0 o0 :
    ss_sized ss -> w_sized ww -> refs_sized yRef uRef duRef uMeas ->
    sized q0 (n_var d) 1 -> sized l0 (n_eq d) 1 -> sized o0 (n_ineq d) 1 ->
    (forall r, ent o0 r 0 = s0) -> k <= ph + 1 ->
    get_inv ss ww yRef uRef duRef uMeas k
      (loop k (get_body d ss ww yRef uRef duRef uMeas) (mzero (ny + nu) (ny + nu), q0, l0, o0)).
  Proof.
    intros Hss Hww Hrf Hq0 Hl0 Ho0 Hz. induction k as [|k IH]; intros Hk.
    - cbn [loop]. split; cbn [fst snd]; try assumption; try (intros; lia).
      + intros l m _ _ _. reflexivity.
      + cbn. lia.
      + intros. apply Hz.
      + intros. apply Hz.
    - specialize (IH ltac:(lia)). cbn [loop].
      destruct (loop k (get_body d ss ww yRef uRef duRef uMeas) _) as [[[wE q] leq] off].
      destruct IH as [H0 Hc [Hqr Hqc] [Hlr Hlc] [Hor Hoc] Hqx Hqu Hleq Hy Ho0' Ho1'].
      cbn [fst snd] in *. unfold get_body. fold (cprev k). fold (wE_upd ww k wE).
      set (wE' := wE_upd ww k wE).
      assert (EC : mcols wE' = nu + ny) by exact Hc.
      destruct Hss as (_ & _ & [HCr HCc] & [HBr HBc] & [HDr HDc]).
      destruct Hrf as ([HR1 HR2] & [HR3 HR4] & [HR5 HR6] & [HR7 HR8]).
      destruct Hww as (HW1 & HW2 & [HW3 HW4]).
      set (Q := mmul (mmul (mtrans (ssC ss)) wE') _).
      assert (HQ : forall a, a < w -> ent Q a 0 = q_blk ss ww yRef uRef uMeas k a).
      { intros a Ha. unfold Q, q_blk. cbn [mmul ent mtrans mcols mrows]. rewrite EC, HCr.
        apply ssum_ext. intros m Hm. f_equal.
        - apply ssum_ext. intros l Hl. f_equal. unfold wE'. now rewrite wE_upd_ent.
        - cbn [madd mopp ent vcat mcol block mmul mrows]. rewrite HR1, HDc. f_equal.
          + f_equal. rewrite Nat.add_0_r. destruct (m <? ny); reflexivity.
          + apply ssum_ext. intros l Hl. f_equal. f_equal; lia. }
      assert (K : k * w + w <= N1) by (pose proof (blk_le k (ph + 1) w ltac:(lia)); lia).
      set (q1 := set_middle_rows q (k * (nx + nu)) (nx + nu) Q).
      assert (C1 : mcols q1 = 1) by exact Hqc.
      set (q2 := if k <? ph then set_middle_rows q1 _ nu _ else q1).
      set (leq' := if 0 <? k then set_middle_rows leq _ _ _ else leq).
      split; cbn [fst snd].
      + now apply wE_upd_offdiag.
      + exact Hc.
      + unfold q2. destruct (k <? ph); split; assumption.
      + unfold leq'. destruct (0 <? k); split; assumption.
      + split; assumption.
      + intros i a Hi Ha. pose proof (blk_lt i (ph + 1) w a ltac:(lia) Ha).
        assert (E : ent q2 (i * w + a) 0 = ent q1 (i * w + a) 0).
        { unfold q2. destruct (k <? ph); [|reflexivity]. unfold set_middle_rows.
          now rewrite ent_set_block_row_out by lia. }
        rewrite E. unfold q1, set_middle_rows. rewrite Hqc.
        destruct (Nat.eq_dec i k) as [->|N].
        * rewrite ent_set_block_in by lia. replace (k * w + a - k * (nx + nu)) with a by lia.
          now apply HQ.
        * pose proof (blk_le i k w ltac:(lia)). rewrite ent_set_block_row_out by lia. apply Hqx; lia.
      + intros i a Hi Hi2 Ha. pose proof (blk_lt i ph nu a ltac:(lia) Ha).
        assert (E1 : ent q1 (N1 + (i * nu + a)) 0 = ent q (N1 + (i * nu + a)) 0).
        { unfold q1, set_middle_rows. now rewrite ent_set_block_row_out by lia. }
        unfold q2. destruct (Nat.ltb_spec k ph) as [A|A].
        * unfold set_middle_rows. rewrite C1. destruct (Nat.eq_dec i k) as [->|N].
          -- rewrite ent_set_block_in by lia.
             replace (N1 + (k * nu + a) - (N1 + k * nu)) with a by lia.
             cbn [mopp ent mmul mdiag mcols mcol block mrows]. rewrite HW3. f_equal.
             apply ssum_ext. intros l Hl. f_equal; [|f_equal; lia].
             destruct (Nat.eqb_spec a l); [|reflexivity]. f_equal; lia.
          -- pose proof (blk_le i k nu ltac:(lia)). rewrite ent_set_block_row_out by lia.
             rewrite E1. apply Hqu; lia.
        * rewrite E1. apply Hqu; lia.
      + intros i a Hi0 Hi Ha. unfold leq'. destruct (Nat.ltb_spec 0 k) as [A|A]; [|lia].
        unfold set_middle_rows. rewrite Hlc. destruct (Nat.eq_dec i k) as [->|N].
        * rewrite ent_set_block_in by lia. replace (k * w + a - k * (nx + nu)) with a by lia.
          cbn [mmul ent mopp mcols mcol block]. rewrite HBc. apply ssum_ext. intros m Hm.
          f_equal. f_equal; lia.
        * pose proof (blk_le i k w ltac:(lia)). rewrite ent_set_block_row_out by lia. apply Hleq; lia.
      + intros i a Hi Ha. unfold set_middle_rows. rewrite Hoc.
        destruct (Nat.eq_dec i k) as [->|N].
        * rewrite ent_set_block_in by lia.
          replace (N1 + (k * ny + a) - (k * ny + N1)) with a by lia.
          cbn [mmul ent mopp mcols mcol block]. apply ssum_ext. intros m Hm.
          f_equal. f_equal; lia.
        * pose proof (blk_le i k ny ltac:(lia)). rewrite ent_set_block_row_out by lia. apply Hy; lia.
      + intros r Hr. unfold set_middle_rows. rewrite ent_set_block_row_out by lia. now apply Ho0'.
      + intros r Hr. pose proof (blk_le k (ph + 1) ny ltac:(lia)).
        unfold set_middle_rows. rewrite ent_set_block_row_out by lia. now apply Ho1'.
  Qed.
End Ent.
