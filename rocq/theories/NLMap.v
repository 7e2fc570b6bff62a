(** Model of include/mpc/NLMPC/Mapping.hpp: conversion between decision variables and trajectories. *)
From Coq Require Import Bool Arith List Lia Ring Field.
From Verif Require Import Scalar Sums Mat Builder BuilderEnt.
Import ListNotations.

Section Map.
  Context {F : Type} {SO : ScalarOps F}.
  Variable d : dims.
  Notation nx := (d_nx d). Notation nu := (d_nu d). Notation ny := (d_ny d).
  Notation ph := (d_ph d). Notation ch := (d_ch d).

  (** number of decision variables, e.g. NLOptimizer.hpp:64 *)
  Definition n_dec : nat := ph * nx + nu * ch + 1.

  (** data members, Mapping.hpp:217-219 and 263-266 *)
  Record mapping := mkMapping {
    mp_in : mat F; mp_st : mat F; mp_inv : mat F;
    mp_z2u : mat F; mp_u2z : mat F }.

  (** computeMapping 225-261.  [map_m]: the vector m of lines 227-235 (with ch > ph the size_t expression
      `ph() - ch() + 1` wraps around; the accesses for i = ph are out of range in that case, which the [mok]
      flag of the result records, so the truncated subtraction is not observed). *)
  Definition map_m (i : nat) : nat := if i =? ch - 1 then ph + 1 - ch else 1.
  (** lines 240-246 *)
  Definition map_S (sc : mat F) : mat F :=
    loop nu (fun i M => set_entry M i i (ent sc i 0)) (mzero nu nu).
  Definition map_Si (sc : mat F) : mat F :=
    loop nu (fun i M => set_entry M i i (sdiv s1 (ent sc i 0))) (mzero nu nu).
  (** lines 253-257: the inner loop over j *)
  Definition map_inner (S : mat F) (ix n : nat) (st : nat * mat F) : nat * mat F :=
    loop n (fun _ '(jx, z2u) => (jx + nu, set_block z2u jx ix nu nu S)) st.
  (** lines 250-259 *)
  Definition map_body (S Si : mat F) (i : nat) (st : nat * nat * mat F * mat F) : nat * nat * mat F * mat F :=
    let '(ix, jx, z2u, u2z) := st in
    let u2z := set_block u2z ix jx nu nu Si in
    let '(jx, z2u) := map_inner S ix (map_m i) (jx, z2u) in
    (ix + nu, jx, z2u, u2z).
  Definition compute_mapping (sc : mat F) : mat F * mat F :=
    let '(_, _, z2u, u2z) :=
      loop ch (map_body (map_S sc) (map_Si sc))
        (0, 0, mzero (ph * nu) (nu * ch), mtrans (mzero (ph * nu) (nu * ch))) in
    (z2u, u2z).

  Definition mones (n : nat) : mat F := mconst n 1 s1.
  (** onInit 47-63 *)
  Definition map_init : mapping :=
    let '(z2u, u2z) := compute_mapping (mones nu) in
    mkMapping (mones nu) (mones nx) (mones nx) z2u u2z.
  (** setInputScaling 70-74 *)
  Definition set_input_scaling (sc : mat F) (m : mapping) : mapping :=
    let '(z2u, u2z) := compute_mapping sc in
    mkMapping sc (mp_st m) (mp_inv m) z2u u2z.
  (** setStateScaling 81-85 *)
  Definition minverse (A : mat F) : mat F := mkMat (mrows A) (mcols A) (fun i j => sdiv s1 (ent A i j)) (mok A).
  Definition set_state_scaling (sc : mat F) (m : mapping) : mapping :=
    mkMapping (mp_in m) sc (minverse sc) (mp_z2u m) (mp_u2z m).

  (** unwrapVector 174-215: state, input trajectories and slack.  Eigen::Map of line 190 reads the vector column by
      column into a nu x ph matrix. *)
  Definition unflat (r c : nat) (v : mat F) : mat F :=
    mkMat r c (fun i j => ent v (j * r + i) 0) (mok v && (r * c <=? mrows v)).
  Definition unwrap_U (m : mapping) (x : mat F) : mat F :=
    let u_vec := middle_rows x (ph * nx) (nu * ch) in
    let tmp_mult := mmul (mp_z2u m) u_vec in
    let tmp_mapped := unflat nu ph tmp_mult in
    let Umv := mzero (ph + 1) nu in
    let Umv := set_middle_rows Umv 0 ph (mtrans tmp_mapped) in
    let Umv := set_mrow Umv ph (mrow Umv (ph - 1)) in
    set_block (mzero (ph + 1) nu) 0 0 (ph + 1) nu Umv.
  (** lines 204-207: Xmat.col(i) /= 1.0 / state_scaling(i) *)
  Definition scale_col (sc : mat F) (i : nat) (M : mat F) : mat F :=
    let c := mcol M i in
    set_mcol M i (mkMat (mrows c) (mcols c) (fun a b => sdiv (ent c a b) (sdiv s1 (ent sc i 0))) (mok c)).
  Definition unwrap_X (m : mapping) (x x0 : mat F) : mat F :=
    let X := mzero (ph + 1) nx in
    let X := set_mrow X 0 (mtrans x0) in
    let X := loop ph (fun i' X => let i := S i' in
               set_mrow X i (mtrans (middle_rows x ((i - 1) * nx) nx))) X in
    loop nx (fun i X => scale_col (mp_st m) i X) X.
  (** line 214 *)
  Definition unwrap_e (x : mat F) : F := ent x (mrows x - 1) 0.

  (** ** Closed forms *)
  Lemma ent_set_entry (M : mat F) i j v a b :
    ent (set_entry M i j v) a b = if (a =? i) && (b =? j) then v else ent M a b.
  Proof.
    unfold set_entry, set_block, in_rng. cbn [ent mconst].
    destruct (Nat.eqb_spec a i), (Nat.eqb_spec b j), (Nat.leb_spec i a), (Nat.leb_spec j b), (Nat.ltb_spec a (i + 1)), (Nat.ltb_spec b (j + 1));
      cbn; try reflexivity; lia.
  Qed.
  Lemma diag_loop (f : nat -> F) n k : k <= n ->
    let M := loop k (fun i M => set_entry M i i (f i)) (mzero n n) in
    gm M n n /\ forall a b, ent M a b = if (a =? b) && (a <? k) then f a else s0.
  Proof.
    intros Hk. induction k as [|k IH]; cbn [loop].
    - split; [repeat split|]. intros a b. now rewrite andb_false_r.
    - destruct (IH ltac:(lia)) as [(R & C & O) E]. set (M := loop k _ _) in *. clearbody M. cbn zeta. split.
      + unfold set_entry, set_block. cbn [mrows mcols mok mconst]. rewrite R, C, O. repeat split. cbn.
        destruct (Nat.leb_spec (k + 1) n); [reflexivity|lia].
      + intros a b. rewrite ent_set_entry, E.
        destruct (Nat.eqb_spec a k), (Nat.eqb_spec b k), (Nat.eqb_spec a b), (Nat.ltb_spec a k), (Nat.ltb_spec a (S k)); cbn; subst; try reflexivity; lia.
  Qed.
  Lemma map_S_ent sc : gm (map_S sc) nu nu /\ forall a b, a < nu -> ent (map_S sc) a b = if a =? b then ent sc a 0 else s0.
  Proof. destruct (diag_loop (fun i => ent sc i 0) nu nu (le_n _)) as [G E]. split; [exact G|]. intros a b Ha.
    unfold map_S. rewrite E. destruct (Nat.ltb_spec a nu); [|lia]. now rewrite andb_true_r. Qed.
  Lemma map_Si_ent sc : gm (map_Si sc) nu nu /\ forall a b, a < nu -> ent (map_Si sc) a b = if a =? b then sdiv s1 (ent sc a 0) else s0.
  Proof. destruct (diag_loop (fun i => sdiv s1 (ent sc i 0)) nu nu (le_n _)) as [G E]. split; [exact G|]. intros a b Ha.
    unfold map_Si. rewrite E. destruct (Nat.ltb_spec a nu); [|lia]. now rewrite andb_true_r. Qed.

  Lemma blk_pos_eq a b p q w : p < w -> q < w -> (a * w + p =? b * w + q) = (a =? b) && (p =? q).
  Proof.
    intros Hp Hq. destruct (Nat.eqb_spec (a * w + p) (b * w + q)) as [E|E].
    - destruct (divmod_unique a p w Hp) as [D1 M1]. destruct (divmod_unique b q w Hq) as [D2 M2].
      rewrite E in D1, M1. assert (a = b) as -> by congruence. assert (p = q) as -> by congruence. now rewrite !Nat.eqb_refl.
    - destruct (Nat.eqb_spec a b), (Nat.eqb_spec p q); cbn; try reflexivity. subst. lia.
  Qed.

  (** inner loop: rows jx .. jx+n*nu-1 of column block ix *)
  Lemma set_blk_ent (M B : mat F) a b p q i j : p < nu -> q < nu ->
    ent (set_block M (i * nu) (j * nu) nu nu B) (a * nu + p) (b * nu + q) =
      if (a =? i) && (b =? j) then ent B p q else ent M (a * nu + p) (b * nu + q).
  Proof.
    intros Hp Hq. destruct (Nat.eqb_spec a i) as [->|Ha]; [destruct (Nat.eqb_spec b j) as [->|Hb]|]; cbn [andb].
    - rewrite ent_set_block_in by lia. f_equal; lia.
    - apply ent_set_block_col_out. destruct (Nat.lt_ge_cases b j) as [L|L].
      + left. pose proof (blk_le b j nu L). lia.
      + right. pose proof (blk_le j b nu ltac:(lia)). lia.
    - apply ent_set_block_row_out. destruct (Nat.lt_ge_cases a i) as [L|L].
      + left. pose proof (blk_le a i nu L). lia.
      + right. pose proof (blk_le i a nu ltac:(lia)). lia.
  Qed.
  Lemma set_block_gm (M B : mat F) r c R C : gm M R C -> gm B nu nu -> r + nu <= R -> c + nu <= C -> gm (set_block M r c nu nu B) R C.
  Proof.
    intros (M1 & M2 & M3) (B1 & B2 & B3) Hr Hc. unfold set_block. repeat split; cbn [mrows mcols mok]; [exact M1|exact M2|].
    rewrite M1, M2, M3, B1, B2, B3, !Nat.eqb_refl. destruct (Nat.leb_spec (r + nu) R), (Nat.leb_spec (c + nu) C); cbn; auto; lia.
  Qed.
  Lemma map_inner_ent S i k z2u n : gm S nu nu -> gm z2u (ph * nu) (nu * ch) -> k + n <= ph -> i < ch ->
    let '(jx, z') := map_inner S (i * nu) n (k * nu, z2u) in
    jx = (k + n) * nu /\ gm z' (ph * nu) (nu * ch) /\
    forall a b p q, p < nu -> q < nu -> ent z' (a * nu + p) (b * nu + q) =
      if (k <=? a) && (a <? k + n) && (b =? i) then ent S p q else ent z2u (a * nu + p) (b * nu + q).
  Proof.
    intros GS GZ. unfold map_inner. induction n as [|n IH]; intros Hn Hi; cbn [loop].
    - refine (conj _ (conj GZ _)); [f_equal; lia|]. intros a b p q Hp Hq.
      destruct (Nat.leb_spec k a), (Nat.ltb_spec a (k + 0)); cbn; try reflexivity; lia.
    - specialize (IH ltac:(lia) Hi). destruct (loop n _ _) as [jx z']. destruct IH as (-> & G & E).
      refine (conj _ (conj _ _)); [lia| |].
      + apply set_block_gm; [exact G|exact GS| |].
        * pose proof (blk_le (k + n) ph nu ltac:(lia)). lia.
        * pose proof (blk_le i ch nu Hi). lia.
      + intros a b p q Hp Hq. rewrite set_blk_ent, E by assumption.
        destruct (Nat.eqb_spec a (k + n)), (Nat.eqb_spec b i), (Nat.leb_spec k a), (Nat.ltb_spec a (k + n)), (Nat.ltb_spec a (k + Datatypes.S n)); cbn; try reflexivity; lia.
  Qed.

  Lemma map_loop_inv S Si k : 0 < ch -> ch <= ph -> gm S nu nu -> gm Si nu nu -> k <= ch ->
    let '(ix, jx, z2u, u2z) := loop k (map_body S Si) (0, 0, mzero (ph * nu) (nu * ch), mtrans (mzero (ph * nu) (nu * ch))) in
    ix = k * nu /\ jx = (if k =? ch then ph else k) * nu /\
    gm z2u (ph * nu) (nu * ch) /\ gm u2z (nu * ch) (ph * nu) /\
    (forall a b p q, a < ph -> b < ch -> p < nu -> q < nu -> ent z2u (a * nu + p) (b * nu + q) =
       if (b <? k) && (b =? Nat.min a (ch - 1)) then ent S p q else s0) /\
    (forall a b p q, a < ph -> b < ch -> p < nu -> q < nu -> ent u2z (b * nu + q) (a * nu + p) =
       if (b <? k) && (b =? a) then ent Si q p else s0).
  Proof.
    intros C0 C GS GSi. induction k as [|k IH]; intros Hk; cbn [loop].
    - destruct (Nat.eqb_spec 0 ch); [lia|]. refine (conj eq_refl (conj eq_refl (conj _ (conj _ (conj _ _))))); repeat split.
    - specialize (IH ltac:(lia)). destruct (loop k _ _) as [[[ix jx] z2u] u2z]. destruct IH as (-> & -> & G1 & G2 & E1 & E2).
      destruct (Nat.eqb_spec k ch); [lia|]. unfold map_body.
      assert (Hm : k + map_m k <= ph /\ k + map_m k = if Datatypes.S k =? ch then ph else Datatypes.S k).
      { unfold map_m. destruct (Nat.eqb_spec k (ch - 1)), (Nat.eqb_spec (Datatypes.S k) ch); lia. }
      destruct Hm as [Hm1 Hm2].
      pose proof (map_inner_ent S k k z2u (map_m k) GS G1 Hm1 ltac:(lia)) as HI.
      destruct (map_inner S (k * nu) (map_m k) (k * nu, z2u)) as [jx' z']. destruct HI as (-> & G1' & E1').
      refine (conj _ (conj _ (conj G1' (conj _ (conj _ _))))).
      + lia.
      + now rewrite Hm2.
      + destruct G2 as (R2 & C2 & O2). destruct GSi as (R3 & C3 & O3). unfold set_block. repeat split; cbn [mrows mcols mok]; [exact R2|exact C2|].
        rewrite R2, C2, O2, R3, C3, O3, !Nat.eqb_refl. pose proof (blk_le k ch nu ltac:(lia)). pose proof (blk_le k ph nu ltac:(lia)).
        destruct (Nat.leb_spec (k * nu + nu) (nu * ch)), (Nat.leb_spec (k * nu + nu) (ph * nu)); cbn; auto; lia.
      + intros a b p q Ha Hb Hp Hq. rewrite E1', E1 by assumption. rewrite Hm2.
        unfold map_m in *. destruct (Nat.eqb_spec (Datatypes.S k) ch).
        * destruct (Nat.leb_spec k a), (Nat.ltb_spec a ph), (Nat.eqb_spec b k), (Nat.ltb_spec b k), (Nat.ltb_spec b (Datatypes.S k)), (Nat.eqb_spec b (Nat.min a (ch - 1))); cbn; try reflexivity; lia.
        * destruct (Nat.leb_spec k a), (Nat.ltb_spec a (Datatypes.S k)), (Nat.eqb_spec b k), (Nat.ltb_spec b k), (Nat.ltb_spec b (Datatypes.S k)), (Nat.eqb_spec b (Nat.min a (ch - 1))); cbn; try reflexivity; lia.
      + intros a b p q Ha Hb Hp Hq. rewrite set_blk_ent by assumption. rewrite E2 by assumption.
        destruct (Nat.eqb_spec b k), (Nat.eqb_spec a k), (Nat.ltb_spec b k), (Nat.ltb_spec b (Datatypes.S k)), (Nat.eqb_spec b a); cbn; try reflexivity; lia.
  Qed.

  Lemma compute_mapping_ent sc : 0 < ch -> ch <= ph ->
    let '(z2u, u2z) := compute_mapping sc in
    gm z2u (ph * nu) (nu * ch) /\ gm u2z (nu * ch) (ph * nu) /\
    (forall a b p q, a < ph -> b < ch -> p < nu -> q < nu -> ent z2u (a * nu + p) (b * nu + q) =
       if (b =? Nat.min a (ch - 1)) && (p =? q) then ent sc p 0 else s0) /\
    (forall a b p q, a < ph -> b < ch -> p < nu -> q < nu -> ent u2z (b * nu + q) (a * nu + p) =
       if (b =? a) && (p =? q) then sdiv s1 (ent sc p 0) else s0).
  Proof.
    intros C0 C. unfold compute_mapping. destruct (map_S_ent sc) as [GS ES]. destruct (map_Si_ent sc) as [GSi ESi].
    pose proof (map_loop_inv (map_S sc) (map_Si sc) ch C0 C GS GSi (le_n _)) as H.
    destruct (loop ch _ _) as [[[ix jx] z2u] u2z]. destruct H as (_ & _ & G1 & G2 & E1 & E2).
    refine (conj G1 (conj G2 (conj _ _))).
    - intros a b p q Ha Hb Hp Hq. rewrite E1, ES by assumption. destruct (Nat.ltb_spec b ch); [|lia]. cbn [andb].
      destruct (b =? Nat.min a (ch - 1)); reflexivity.
    - intros a b p q Ha Hb Hp Hq. rewrite E2, ESi by assumption. destruct (Nat.ltb_spec b ch); [|lia]. cbn [andb].
      destruct (b =? a); [|reflexivity]. cbn [andb]. rewrite (Nat.eqb_sym p q). destruct (Nat.eqb_spec q p); [now subst|reflexivity].
  Qed.
End Map.

Arguments mapping F : clear implicits.
