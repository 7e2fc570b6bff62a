(** The state of the modelled controller ([NLMPC.v]) refines the configuration denoted by the history ([SpecNLC.v]). *)
From Coq Require Import Bool Arith ZArith List Lia Ring Field.
From Verif Require Import Scalar Sums Mat Slice Builder BuilderEnt LMPC NLMap NLTraj NLFun SpecNL NLLoop NLMPC SpecLMPC SpecNLC.
Import ListNotations.

(** ** Writes into column vectors *)
Section Vec.
  Context {T : Type}.
  Lemma vset_gm (M : mat T) N i v : gm M N 1 -> i < N -> gm (set_entry M i 0 v) N 1.
  Proof.
    intros (R & C & O) Hi. unfold set_entry, set_block. repeat split; cbn [mrows mcols mok mconst]; try assumption.
    rewrite R, C, O. destruct (Nat.leb_spec (i + 1) N); cbn; auto; lia.
  Qed.
  Lemma vset_ent (M : mat T) i v r : ent (set_entry M i 0 v) r 0 = if r =? i then v else ent M r 0.
  Proof. rewrite ent_set_entry. now rewrite andb_true_r. Qed.
  Lemma vstep (f : nat -> T) N off w k (M : mat T) : gm M N 1 -> off + w <= N -> k <= w ->
    let M' := loop k (fun j M => set_entry M (off + j) 0 (f j)) M in
    gm M' N 1 /\ forall r, ent M' r 0 = if (off <=? r) && (r <? off + k) then f (r - off) else ent M r 0.
  Proof.
    intros G B. induction k as [|k IH]; intros Hk; cbn [loop].
    - split; [exact G|]. intros r. destruct (Nat.leb_spec off r), (Nat.ltb_spec r (off + 0)); cbn; try reflexivity; lia.
    - destruct (IH ltac:(lia)) as [G' E]. set (M' := loop k _ _) in *. clearbody M'. cbn zeta. split.
      + apply vset_gm; [exact G'|lia].
      + intros r. rewrite vset_ent, E. destruct (Nat.eqb_spec r (off + k)), (Nat.leb_spec off r), (Nat.ltb_spec r (off + k)), (Nat.ltb_spec r (off + S k)); cbn; try reflexivity; try lia.
        f_equal. lia.
  Qed.
  Lemma vloop2 (f : nat -> nat -> T) N off w n (M : mat T) : gm M N 1 -> off + n * w <= N ->
    let M' := loop n (fun i M => loop w (fun j M => set_entry M (off + i * w + j) 0 (f i j)) M) M in
    gm M' N 1 /\ (forall i j, i < n -> j < w -> ent M' (off + (i * w + j)) 0 = f i j) /\
    (forall r, r < off \/ off + n * w <= r -> ent M' r 0 = ent M r 0).
  Proof.
    intros G B. induction n as [|n IH]; cbn [loop].
    - refine (conj G (conj _ _)); [intros; lia|reflexivity].
    - destruct (IH ltac:(lia)) as (G' & E1 & E2). set (M' := loop n _ _) in *. clearbody M'. cbn zeta.
      destruct (vstep (f n) N (off + n * w) w w M' G' ltac:(lia) (le_n _)) as [G2 E]. cbn zeta in *.
      set (M2 := loop w _ M') in *. clearbody M2. refine (conj G2 (conj _ _)).
      + intros i j Hi Hj. rewrite E. destruct (Nat.eq_dec i n) as [->|N0].
        * destruct (Nat.leb_spec (off + n * w) (off + (n * w + j))), (Nat.ltb_spec (off + (n * w + j)) (off + n * w + w)); cbn; try lia. f_equal. lia.
        * pose proof (blk_le i n w ltac:(lia)). destruct (Nat.leb_spec (off + n * w) (off + (i * w + j))); [lia|]. cbn. apply E1; lia.
      + intros r Hr. rewrite E. cbn in Hr. destruct (Nat.leb_spec (off + n * w) r), (Nat.ltb_spec r (off + n * w + w)); cbn; try lia; apply E2; lia.
  Qed.
End Vec.

Lemma slice_valid_end H sl : slice_unset sl = true \/ slice_check (Z.of_nat H) sl = Ok true -> (sl_end sl <= Z.of_nat H)%Z.
Proof.
  unfold slice_unset, slice_check. intros [E|E].
  - apply andb_true_iff in E. rewrite !Z.eqb_eq in E. lia.
  - destruct (_ >=? _)%Z; [discriminate|]. destruct (_ >? _)%Z; [discriminate|]. rewrite Z.gtb_ltb in E. destruct (Z.ltb_spec (Z.of_nat H) (sl_end sl)); [discriminate|lia].
Qed.

Section Ref.
  Context {F : Type} {SO : ScalarOps F} {SM : ScalarMild F}.
  Variable junk : nat -> nat -> F.
  Variable d : dims.
  Variables ni ne : nat.
  Variable dyn_eq : bool.
  Notation nx := (d_nx d). Notation nu := (d_nu d). Notation ny := (d_ny d).
  Notation ph := (d_ph d). Notation ch := (d_ch d).
  Notation N := (n_dec d).
  Hypothesis C0 : 0 < ch.
  Hypothesis C : ch <= ph.

  (** a bound vector holds per-step bounds [X] (states) and [U] (inputs), and [e] for the slack *)
  Definition brep (M : mat (ext F)) (X U : nat -> nat -> ext F) (e : ext F) : Prop :=
    gm M N 1 /\ (forall k j, k < ph -> j < nx -> ent M (v_state d (S k) j) 0 = X k j) /\
    (forall k j, k < ch -> j < nu -> ent M (v_input d k j) 0 = U k j) /\ ent M (v_slack d) 0 = e.

  Record NR (s : nmpc F) (c : ncfg F) : Prop := {
    nr_map : map_is d (n_map s) (k_su c) (k_sx c);
    nr_ts : n_ts s = k_ts c; nr_dyn : n_dyn s = k_dyn c; nr_out : n_out s = k_out c; nr_obj : n_obj s = k_obj c;
    nr_ieq : n_ieq s = k_ieq c; nr_itol : n_itol s = k_itol c; nr_eqc : n_eqc s = k_eqc c; nr_etol : n_etol s = k_etol c;
    nr_bobj : n_bobj s = k_bobj c; nr_cons : n_cons s = k_cons c; nr_par : n_par s = k_par c; nr_warm : n_warm s = k_warm c;
    nr_first : n_first s = k_first c; nr_slack : n_slack s = k_slack c;
    nr_lb : brep (n_lb s) (k_xlo c) (k_ulo c) (Fin s0); nr_ub : brep (n_ub s) (k_xhi c) (k_uhi c) (Fin s0);
    nr_slb : n_slb s = n_lb s; nr_sub : n_sub s = n_ub s;
    nr_opt : gm (n_opt s) N 1; nr_optv : forall r, r < ph * nx + nu * ch -> ent (n_opt s) r 0 = k_vec c r;
    nr_cmd : gm (r_cmd (n_res s)) nu 1;
    nr_qx : gm (q_state (n_seq s)) (ph + 1) nx; nr_qy : gm (q_output (n_seq s)) (ph + 1) ny; nr_qu : gm (q_input (n_seq s)) (ph + 1) nu }.

  (** *** positions *)
  Lemma v_state_lt k j : k < ph -> j < nx -> v_state d (S k) j < ph * nx.
  Proof. intros Hk Hj. unfold v_state. replace (S k - 1) with k by lia. now apply blk_lt. Qed.
  Lemma v_input_lt k j : k < ch -> j < nu -> v_input d k j < ph * nx + nu * ch.
  Proof. intros Hk Hj. unfold v_input. pose proof (blk_lt k ch nu j Hk Hj). lia. Qed.

  (** *** parameters *)
  Lemma brep_slack M X U e e' : brep M X U e -> brep (set_entry M (N - 1) 0 e') X U e'.
  Proof.
    intros (G & E1 & E2 & E3). assert (HN : N - 1 = v_slack d) by (unfold n_dec, v_slack; lia). rewrite HN. refine (conj _ (conj _ (conj _ _))).
    - apply vset_gm; [exact G|]. unfold n_dec, v_slack. lia.
    - intros k j Hk Hj. rewrite vset_ent. pose proof (v_state_lt k j Hk Hj). unfold v_slack. destruct (Nat.eqb_spec (v_state d (S k) j) (ph * nx + nu * ch)); [lia|]. auto.
    - intros k j Hk Hj. rewrite vset_ent. pose proof (v_input_lt k j Hk Hj). unfold v_slack. destruct (Nat.eqb_spec (v_input d k j) (ph * nx + nu * ch)); [lia|]. auto.
    - rewrite vset_ent. now rewrite Nat.eqb_refl.
  Qed.
  Lemma NR_init : NR (n_init d) (ncfg0).
  Proof.
    unfold n_init, set_params, update_bounds, with_bounds, with_par, ncfg0, np_default. cbn -[set_entry map_init n_dec sltb].
    assert (E : sltb (s0 : F) s0 = false) by (exact sm_lt00).
    split; cbn -[set_entry map_init n_dec sltb]; try reflexivity; try (repeat split; fail).
    - now apply map_init_is.
    - now rewrite E.
    - apply (brep_slack _ _ _ MInf). refine (conj _ (conj _ (conj _ eq_refl))); [repeat split|reflexivity|reflexivity].
    - eapply brep_slack. refine (conj _ (conj _ (conj _ eq_refl))); [repeat split|reflexivity|reflexivity].
  Qed.
  Lemma NR_params s c p : NR s c -> NR (set_params d p s) (kset_par c (par_of p (k_par c)) (np_warm p)).
  Proof.
    intros []. unfold set_params, update_bounds, with_bounds, with_par, kset_par, par_of.
    destruct (np_hard p); split; cbn -[set_entry n_dec sltb]; try assumption; try reflexivity; try (now rewrite nr_par0);
      eapply brep_slack; eassumption.
  Qed.

  (** *** bounds *)
  Definition sel_of (l : list nat) (k : nat) : bool := existsb (Nat.eqb k) l.
  Lemma write_steps_x v l M X U e : Forall (fun k => k < ph) l -> brep M X U e ->
    brep (write_steps 0 nx v l M) (put (sel_of l) (vec v) X) U e.
  Proof.
    revert M X. induction l as [|k l IH] using rev_ind; intros M X Hl HB.
    - destruct HB as (G & E1 & E2 & E3). refine (conj G (conj _ (conj E2 E3))). intros. unfold put. cbn [sel_of existsb]. now apply E1.
    - apply Forall_app in Hl. destruct Hl as [Hl Hk]. inversion Hk as [|? ? Hk' _]; subst. clear Hk.
      unfold write_steps. rewrite fold_left_app. cbn [fold_left]. specialize (IH M X Hl HB). unfold write_steps in IH.
      set (M1 := fold_left _ l M) in *. clearbody M1. destruct IH as (G & E1 & E2 & E3).
      unfold write_step. assert (B : 0 + k * nx + nx <= N) by (unfold n_dec; pose proof (blk_le k ph nx Hk'); lia).
      destruct (vstep (fun j => ent v j 0) N (0 + k * nx) nx nx M1 G B (le_n _)) as [G2 E]. cbn zeta in *. set (M2 := loop nx _ M1) in *. clearbody M2.
      assert (SE : forall k', sel_of (l ++ [k]) k' = sel_of l k' || (k' =? k)).
      { intros k'. unfold sel_of. rewrite existsb_app. cbn. now rewrite orb_false_r. }
      pose proof (blk_le k ph nx Hk') as BK.
      refine (conj G2 (conj _ (conj _ _))).
      + intros k' j Hk2 Hj. rewrite E. unfold v_state, put, vec in *. rewrite SE. replace (S k' - 1) with k' in * by lia.
        destruct (Nat.eqb_spec k' k) as [->|Nk].
        * rewrite orb_true_r. destruct (Nat.leb_spec (0 + k * nx) (k * nx + j)), (Nat.ltb_spec (k * nx + j) (0 + k * nx + nx)); cbn; try lia. f_equal. lia.
        * rewrite orb_false_r.
          assert (HO : (0 + k * nx <=? k' * nx + j) && (k' * nx + j <? 0 + k * nx + nx) = false).
          { destruct (Nat.lt_ge_cases k' k) as [L|L]; [pose proof (blk_le k' k nx L)|pose proof (blk_le k k' nx ltac:(lia))];
              destruct (Nat.leb_spec (0 + k * nx) (k' * nx + j)), (Nat.ltb_spec (k' * nx + j) (0 + k * nx + nx)); cbn; try reflexivity; lia. }
          rewrite HO. specialize (E1 k' j Hk2 Hj). replace (S k' - 1) with k' in E1 by lia. exact E1.
      + intros k' j Hk2 Hj. rewrite E. unfold v_input. destruct (Nat.ltb_spec (ph * nx + (k' * nu + j)) (0 + k * nx + nx)); [lia|]. rewrite andb_false_r. apply E2; assumption.
      + rewrite E. unfold v_slack. destruct (Nat.ltb_spec (ph * nx + nu * ch) (0 + k * nx + nx)); [lia|]. rewrite andb_false_r. exact E3.
  Qed.
  Lemma write_steps_u v l M X U e : Forall (fun k => k < ch) l -> brep M X U e ->
    brep (write_steps (ph * nx) nu v l M) X (put (sel_of l) (vec v) U) e.
  Proof.
    revert M U. induction l as [|k l IH] using rev_ind; intros M U Hl HB.
    - destruct HB as (G & E1 & E2 & E3). refine (conj G (conj E1 (conj _ E3))). intros. unfold put. cbn [sel_of existsb]. now apply E2.
    - apply Forall_app in Hl. destruct Hl as [Hl Hk]. inversion Hk as [|? ? Hk' _]; subst. clear Hk.
      unfold write_steps. rewrite fold_left_app. cbn [fold_left]. specialize (IH M U Hl HB). unfold write_steps in IH.
      set (M1 := fold_left _ l M) in *. clearbody M1. destruct IH as (G & E1 & E2 & E3).
      unfold write_step. assert (B : ph * nx + k * nu + nu <= N) by (unfold n_dec; pose proof (blk_le k ch nu Hk'); lia).
      destruct (vstep (fun j => ent v j 0) N (ph * nx + k * nu) nu nu M1 G B (le_n _)) as [G2 E]. cbn zeta in *. set (M2 := loop nu _ M1) in *. clearbody M2.
      assert (SE : forall k', sel_of (l ++ [k]) k' = sel_of l k' || (k' =? k)).
      { intros k'. unfold sel_of. rewrite existsb_app. cbn. now rewrite orb_false_r. }
      pose proof (blk_le k ch nu Hk') as BK.
      refine (conj G2 (conj _ (conj _ _))).
      + intros k' j Hk2 Hj. rewrite E. pose proof (v_state_lt k' j Hk2 Hj). destruct (Nat.leb_spec (ph * nx + k * nu) (v_state d (S k') j)); [lia|]. apply E1; assumption.
      + intros k' j Hk2 Hj. rewrite E. unfold v_input, put, vec in *. rewrite SE.
        destruct (Nat.eqb_spec k' k) as [->|Nk].
        * rewrite orb_true_r. destruct (Nat.leb_spec (ph * nx + k * nu) (ph * nx + (k * nu + j))), (Nat.ltb_spec (ph * nx + (k * nu + j)) (ph * nx + k * nu + nu)); cbn; try lia. f_equal. lia.
        * rewrite orb_false_r.
          assert (HO : (ph * nx + k * nu <=? ph * nx + (k' * nu + j)) && (ph * nx + (k' * nu + j) <? ph * nx + k * nu + nu) = false).
          { destruct (Nat.lt_ge_cases k' k) as [L|L]; [pose proof (blk_le k' k nu L)|pose proof (blk_le k k' nu ltac:(lia))];
              destruct (Nat.leb_spec (ph * nx + k * nu) (ph * nx + (k' * nu + j))), (Nat.ltb_spec (ph * nx + (k' * nu + j)) (ph * nx + k * nu + nu)); cbn; try reflexivity; lia. }
          rewrite HO. apply E2; assumption.
      + rewrite E. unfold v_slack. destruct (Nat.ltb_spec (ph * nx + nu * ch) (ph * nx + k * nu + nu)); [lia|]. rewrite andb_false_r. exact E3.
  Qed.

  Lemma brep_ext M X U e X' U' : brep M X U e -> (forall k j, k < ph -> j < nx -> X k j = X' k j) ->
    (forall k j, k < ch -> j < nu -> U k j = U' k j) -> brep M X' U' e.
  Proof.
    intros (G & E1 & E2 & E3) HX HU. refine (conj G (conj _ (conj _ E3))).
    - intros. rewrite E1 by assumption. now apply HX.
    - intros. rewrite E2 by assumption. now apply HU.
  Qed.

  (** *** slices *)
  Lemma sel_seq a n k : sel_of (seq a n) k = (a <=? k) && (k <? a + n).
  Proof.
    unfold sel_of. destruct (existsb (Nat.eqb k) (seq a n)) eqn:E.
    - apply existsb_exists in E. destruct E as (x & Hx & Ex). apply in_seq in Hx. apply Nat.eqb_eq in Ex. subst x.
      destruct (Nat.leb_spec a k), (Nat.ltb_spec k (a + n)); cbn; try reflexivity; lia.
    - destruct (Nat.leb_spec a k), (Nat.ltb_spec k (a + n)); cbn; try reflexivity.
      assert (existsb (Nat.eqb k) (seq a n) = true); [|congruence]. apply existsb_exists. exists k. split; [apply in_seq; lia|apply Nat.eqb_refl].
  Qed.
  Lemma nl_steps_sel H sl l : nl_steps H sl = Some l -> (sl_end sl <= Z.of_nat H)%Z ->
    Forall (fun k => k < H) l /\ forall k, sel_of l k = nl_sel H sl k.
  Proof.
    unfold nl_steps, nl_sel, slice_steps. cbn [sl_start sl_end]. intros E HE.
    destruct (Z.eqb_spec (sl_start sl) (-1)) as [A|A]; destruct (Z.eqb_spec (sl_end sl) (-1)) as [B|B]; cbv beta iota zeta in *;
      repeat match type of E with context [(?x <? ?y)%Z] => destruct (Z.ltb_spec x y) end; try discriminate; try lia; inversion E; subst l; clear E;
      (split; [apply Forall_forall; intros k Hk; try (apply in_seq in Hk; lia); contradiction Hk
              | intros k; try rewrite sel_seq;
                repeat match goal with |- context [(?x <=? ?y)%Z] => destruct (Z.leb_spec x y) | |- context [(?x <? ?y)%Z] => destruct (Z.ltb_spec x y)
                  | |- context [?x <=? ?y] => destruct (Nat.leb_spec x y) | |- context [?x <? ?y] => destruct (Nat.ltb_spec x y) end; cbn; try reflexivity; lia]).
  Qed.
  (** *** bounds setters *)
  Lemma NR_set_bounds s c L U X1 X2 U1 U2 : NR s c -> brep L X1 U1 (Fin s0) -> brep U X2 U2 (Fin s0) ->
    NR (update_bounds (with_bounds L U s)) (kset_bounds c X1 X2 U1 U2).
  Proof. intros [] H1 H2. split; cbn; try assumption; reflexivity. Qed.
  Lemma NR_update s c : NR s c -> NR (update_bounds s) c.
  Proof. intros []. split; cbn; try assumption; reflexivity. Qed.
  Lemma NR_bounds_eq s c X1 X2 U1 U2 : NR s (kset_bounds c X1 X2 U1 U2) -> forall X1' X2' U1' U2',
    (forall k j, k < ph -> j < nx -> X1 k j = X1' k j) -> (forall k j, k < ph -> j < nx -> X2 k j = X2' k j) ->
    (forall k j, k < ch -> j < nu -> U1 k j = U1' k j) -> (forall k j, k < ch -> j < nu -> U2 k j = U2' k j) ->
    NR s (kset_bounds c X1' X2' U1' U2').
  Proof.
    intros [] X1' X2' U1' U2' E1 E2 E3 E4. cbn in *. split; cbn; try assumption.
    - eapply brep_ext; eassumption.
    - eapply brep_ext; eassumption.
  Qed.
  Lemma kset_bounds_id (c : ncfg F) : kset_bounds c (k_xlo c) (k_xhi c) (k_ulo c) (k_uhi c) = c.
  Proof. destruct c; reflexivity. Qed.

  Lemma NR_bounds_x s c lo hi sl s' l : NR s c -> nl_steps ph sl = Some l -> (sl_end sl <= Z.of_nat ph)%Z ->
    n_bounds 0 nx ph lo hi sl s = Ok s' ->
    NR s' (kset_bounds c (put (nl_sel ph sl) (vec lo) (k_xlo c)) (put (nl_sel ph sl) (vec hi) (k_xhi c)) (k_ulo c) (k_uhi c)).
  Proof.
    intros H E HE R. destruct (nl_steps_sel _ _ _ E HE) as [Hl Hsel]. unfold n_bounds in R. rewrite E in R.
    assert (G : NR s' (kset_bounds c (put (sel_of l) (vec lo) (k_xlo c)) (put (sel_of l) (vec hi) (k_xhi c)) (k_ulo c) (k_uhi c))).
    { destruct l as [|k l].
      - inversion R; subst s'. apply (NR_bounds_eq _ c (k_xlo c) (k_xhi c) (k_ulo c) (k_uhi c)); try reflexivity. rewrite kset_bounds_id. now apply NR_update.
      - set (ls := k :: l) in *. clearbody ls. destruct (_ && _); [|discriminate]. inversion R; subst s'. apply NR_set_bounds; [exact H| |].
        + apply write_steps_x; [exact Hl|apply H].
        + apply write_steps_x; [exact Hl|apply H]. }
    eapply NR_bounds_eq; [exact G| | | |]; intros; unfold put; rewrite ?Hsel; reflexivity.
  Qed.
  Lemma NR_bounds_u s c lo hi sl s' l : NR s c -> nl_steps ch sl = Some l -> (sl_end sl <= Z.of_nat ch)%Z ->
    n_bounds (ph * nx) nu ch lo hi sl s = Ok s' ->
    NR s' (kset_bounds c (k_xlo c) (k_xhi c) (put (nl_sel ch sl) (vec lo) (k_ulo c)) (put (nl_sel ch sl) (vec hi) (k_uhi c))).
  Proof.
    intros H E HE R. destruct (nl_steps_sel _ _ _ E HE) as [Hl Hsel]. unfold n_bounds in R. rewrite E in R.
    assert (G : NR s' (kset_bounds c (k_xlo c) (k_xhi c) (put (sel_of l) (vec lo) (k_ulo c)) (put (sel_of l) (vec hi) (k_uhi c)))).
    { destruct l as [|k l].
      - inversion R; subst s'. apply (NR_bounds_eq _ c (k_xlo c) (k_xhi c) (k_ulo c) (k_uhi c)); try reflexivity. rewrite kset_bounds_id. now apply NR_update.
      - set (ls := k :: l) in *. clearbody ls. destruct (_ && _); [|discriminate]. inversion R; subst s'. apply NR_set_bounds; [exact H| |].
        + apply write_steps_u; [exact Hl|apply H].
        + apply write_steps_u; [exact Hl|apply H]. }
    eapply NR_bounds_eq; [exact G| | | |]; intros; unfold put; rewrite ?Hsel; reflexivity.
  Qed.
  (** and they do not fail *)
  Lemma write_ok_x v l M X U e : Forall (fun k => k < ph) l -> brep M X U e -> mok (write_steps 0 nx v l M) = true.
  Proof. intros Hl HB. apply (write_steps_x v l M X U e Hl HB). Qed.
  Lemma write_ok_u v l M X U e : Forall (fun k => k < ch) l -> brep M X U e -> mok (write_steps (ph * nx) nu v l M) = true.
  Proof. intros Hl HB. apply (write_steps_u v l M X U e Hl HB). Qed.
  Lemma covers_gm w (v : mat (ext F)) : gm v w 1 -> covers w v = true.
  Proof. intros (R & _ & O). unfold covers. now rewrite O, R, Nat.leb_refl. Qed.
  Lemma n_bounds_x_ok s c lo hi sl l : NR s c -> gm lo nx 1 -> gm hi nx 1 -> nl_steps ph sl = Some l -> (sl_end sl <= Z.of_nat ph)%Z ->
    exists s', n_bounds 0 nx ph lo hi sl s = Ok s'.
  Proof.
    intros H G1 G2 E HE. destruct (nl_steps_sel _ _ _ E HE) as [Hl _]. unfold n_bounds. rewrite E. destruct l as [|k l]; [eexists; reflexivity|].
    rewrite (covers_gm _ _ G1), (covers_gm _ _ G2), (write_ok_x lo _ _ _ _ _ Hl (nr_lb _ _ H)), (write_ok_x hi _ _ _ _ _ Hl (nr_ub _ _ H)). eexists; reflexivity.
  Qed.
  Lemma n_bounds_u_ok s c lo hi sl l : NR s c -> gm lo nu 1 -> gm hi nu 1 -> nl_steps ch sl = Some l -> (sl_end sl <= Z.of_nat ch)%Z ->
    exists s', n_bounds (ph * nx) nu ch lo hi sl s = Ok s'.
  Proof.
    intros H G1 G2 E HE. destruct (nl_steps_sel _ _ _ E HE) as [Hl _]. unfold n_bounds. rewrite E. destruct l as [|k l]; [eexists; reflexivity|].
    rewrite (covers_gm _ _ G1), (covers_gm _ _ G2), (write_ok_u lo _ _ _ _ _ Hl (nr_lb _ _ H)), (write_ok_u hi _ _ _ _ _ Hl (nr_ub _ _ H)). eexists; reflexivity.
  Qed.
  Lemma nl_steps_one H i : nl_steps H (mkSlice (Z.of_nat i) (Z.of_nat i + 1)) = Some [i].
  Proof.
    unfold nl_steps, slice_steps. cbn [sl_start sl_end]. destruct (Z.eqb_spec (Z.of_nat i) (-1)); [lia|]. destruct (Z.eqb_spec (Z.of_nat i + 1) (-1)); [lia|].
    destruct (Z.ltb_spec (Z.of_nat i) 0); [lia|]. rewrite Nat2Z.id. replace (Z.to_nat (Z.of_nat i + 1) - i) with 1 by lia. reflexivity.
  Qed.
  Lemma nl_sel_one H i k : nl_sel H (mkSlice (Z.of_nat i) (Z.of_nat i + 1)) k = (k =? i).
  Proof.
    unfold nl_sel. cbn [sl_start sl_end]. destruct (Z.eqb_spec (Z.of_nat i) (-1)); [lia|]. destruct (Z.eqb_spec (Z.of_nat i + 1) (-1)); [lia|].
    destruct (Z.leb_spec (-1) (Z.of_nat i)); [|lia].
    destruct (Nat.eqb_spec k i); destruct (Z.leb_spec (Z.of_nat i) (Z.of_nat k)), (Z.ltb_spec (Z.of_nat k) (Z.of_nat i + 1)); cbn; try reflexivity; lia.
  Qed.
  Lemma mcol_gm {T} (M : mat T) r n i : gm M r n -> i < n -> gm (mcol M i) r 1.
  Proof. intros (R & K & O) Hi. unfold mcol, block. repeat split; cbn [mrows mcols mok]; [exact R|]. rewrite R, K, O. cbn. rewrite Nat.leb_refl. destruct (Nat.leb_spec (i + 1) n); [reflexivity|lia]. Qed.
  Lemma NR_mat_x s c lo hi : NR s c -> gm lo nx ph -> gm hi nx ph ->
    exists s', n_bounds_mat 0 nx ph lo hi s = Ok s' /\ NR s' (kset_bounds c (cols lo) (cols hi) (k_ulo c) (k_uhi c)).
  Proof.
    intros H G1 G2. unfold n_bounds_mat.
    assert (HL : forall k, k <= ph -> exists s', loop k (fun i o => match o with UB => UB | Ok s => n_bounds 0 nx ph (mcol lo i) (mcol hi i) (mkSlice (Z.of_nat i) (Z.of_nat i + 1)) s end) (Ok s) = Ok s' /\
      NR s' (kset_bounds c (fun a j => if a <? k then ent lo j a else k_xlo c a j) (fun a j => if a <? k then ent hi j a else k_xhi c a j) (k_ulo c) (k_uhi c))).
    { induction k as [|k IH]; intros Hk; cbn [loop].
      - exists s. split; [reflexivity|]. apply (NR_bounds_eq _ c (k_xlo c) (k_xhi c) (k_ulo c) (k_uhi c)); try reflexivity. now rewrite kset_bounds_id.
      - destruct (IH ltac:(lia)) as (s1 & -> & H1).
        destruct (n_bounds_x_ok s1 _ (mcol lo k) (mcol hi k) (mkSlice (Z.of_nat k) (Z.of_nat k + 1)) [k] H1 (mcol_gm lo nx ph k G1 Hk) (mcol_gm hi nx ph k G2 Hk) (nl_steps_one _ _) ltac:(cbn; lia)) as [s2 E2].
        exists s2. split; [exact E2|].
        pose proof (NR_bounds_x s1 _ (mcol lo k) (mcol hi k) _ s2 [k] H1 (nl_steps_one _ _) ltac:(cbn; lia) E2) as H2. cbn [k_xlo k_xhi k_ulo k_uhi kset_bounds] in H2.
        apply (NR_bounds_eq _ c) with (1 := H2); intros a j Ha Hj; try reflexivity; unfold put; rewrite nl_sel_one;
          unfold vec, mcol; cbn [block ent]; replace (k + 0) with k by lia; cbn [Nat.add];
          destruct (Nat.eqb_spec a k), (Nat.ltb_spec a k), (Nat.ltb_spec a (S k)); subst; try reflexivity; lia. }
    destruct (HL ph (le_n _)) as (s' & E & H'). exists s'. split; [exact E|].
    apply (NR_bounds_eq _ c) with (1 := H'); try reflexivity; intros a j Ha Hj; unfold cols; destruct (Nat.ltb_spec a ph); try reflexivity; lia.
  Qed.
  Lemma NR_mat_u s c lo hi : NR s c -> gm lo nu ch -> gm hi nu ch ->
    exists s', n_bounds_mat (ph * nx) nu ch lo hi s = Ok s' /\ NR s' (kset_bounds c (k_xlo c) (k_xhi c) (cols lo) (cols hi)).
  Proof.
    intros H G1 G2. unfold n_bounds_mat.
    assert (HL : forall k, k <= ch -> exists s', loop k (fun i o => match o with UB => UB | Ok s => n_bounds (ph * nx) nu ch (mcol lo i) (mcol hi i) (mkSlice (Z.of_nat i) (Z.of_nat i + 1)) s end) (Ok s) = Ok s' /\
      NR s' (kset_bounds c (k_xlo c) (k_xhi c) (fun a j => if a <? k then ent lo j a else k_ulo c a j) (fun a j => if a <? k then ent hi j a else k_uhi c a j))).
    { induction k as [|k IH]; intros Hk; cbn [loop].
      - exists s. split; [reflexivity|]. apply (NR_bounds_eq _ c (k_xlo c) (k_xhi c) (k_ulo c) (k_uhi c)); try reflexivity. now rewrite kset_bounds_id.
      - destruct (IH ltac:(lia)) as (s1 & -> & H1).
        destruct (n_bounds_u_ok s1 _ (mcol lo k) (mcol hi k) (mkSlice (Z.of_nat k) (Z.of_nat k + 1)) [k] H1 (mcol_gm lo nu ch k G1 Hk) (mcol_gm hi nu ch k G2 Hk) (nl_steps_one _ _) ltac:(cbn; lia)) as [s2 E2].
        exists s2. split; [exact E2|].
        pose proof (NR_bounds_u s1 _ (mcol lo k) (mcol hi k) _ s2 [k] H1 (nl_steps_one _ _) ltac:(cbn; lia) E2) as H2. cbn [k_xlo k_xhi k_ulo k_uhi kset_bounds] in H2.
        apply (NR_bounds_eq _ c) with (1 := H2); intros a j Ha Hj; try reflexivity; unfold put; rewrite nl_sel_one;
          unfold vec, mcol; cbn [block ent]; replace (k + 0) with k by lia; cbn [Nat.add];
          destruct (Nat.eqb_spec a k), (Nat.ltb_spec a k), (Nat.ltb_spec a (S k)); subst; try reflexivity; lia. }
    destruct (HL ch (le_n _)) as (s' & E & H'). exists s'. split; [exact E|].
    apply (NR_bounds_eq _ c) with (1 := H'); try reflexivity; intros a j Ha Hj; unfold cols; destruct (Nat.ltb_spec a ch); try reflexivity; lia.
  Qed.
End Ref.
