(** Closed form of the dynamics constraint and its Jacobian (Constraints.hpp:319-356, 493-629, 845-906). *)
From Coq Require Import Bool Arith List Lia Ring Field.
From Verif Require Import Scalar Sums Mat Builder BuilderEnt NLMap NLTraj NLFun SpecNL NLLoop NLGrad NLEval.
Import ListNotations.

Section Dyn.
  Context {F : Type} {SO : ScalarOps F} {SL : ScalarLaws F}.
  Variable junk : nat -> nat -> F.
  Variable d : dims.
  Notation nx := (d_nx d). Notation nu := (d_nu d). Notation ny := (d_ny d).
  Notation ph := (d_ph d). Notation ch := (d_ch d).
  Add Field SFd : s_field.

  (** component [l] of the user's dynamics *)
  Definition dynv (f : dyn_t F) (p l : nat) (xv uv : nat -> F) : F := f (map xv (seq 0 nx)) (map uv (seq 0 nu)) p l.
  Definition rv (V : mat F) (n : nat) (v : nat -> F) : Prop := gm V n 1 /\ forall i, i < n -> ent V i 0 = v i.

  Lemma rv_lst V n v : rv V n v -> lst V = map v (seq 0 n).
  Proof. intros [(R & _ & _) E]. unfold lst. rewrite R. now apply map_seq_ext. Qed.
  Lemma rv_ext V n v w : rv V n v -> (forall i, i < n -> v i = w i) -> rv V n w.
  Proof. intros [G E] H. split; [exact G|]. intros i Hi. rewrite E by exact Hi. now apply H. Qed.
  Lemma rv_set V n v k t s : rv V n v -> k < n -> s = (v k + t)%S -> rv (set_entry V k 0 s) n (bump v k t).
  Proof.
    intros [G E] Hk ->. split; [apply set_entry_gm; [exact G|exact Hk|lia]|]. intros i Hi. rewrite ent_set_entry. cbn [Nat.eqb]. rewrite andb_true_r.
    unfold bump. destruct (Nat.eqb_spec i k) as [->|]; [reflexivity|]. now apply E.
  Qed.
  Lemma dyn_call_v f X U xv uv p l : rv X nx xv -> rv U nu uv -> ent (dyn_call d f X U p) l 0 = dynv f p l xv uv.
  Proof. intros HX HU. unfold dyn_call. cbn [mvec ent]. now rewrite (rv_lst _ _ _ HX), (rv_lst _ _ _ HU). Qed.

  Definition dstep (v : F) : F := (dv_con * smax (sabs v) s1)%S.
  Definition jac_x (f : dyn_t F) p (xv uv : nat -> F) (l j : nat) : F :=
    let t := dstep (xv j) in ctr (dynv f p l (bump xv j t) uv) (dynv f p l (bump xv j (- t)%S) uv) t.
  Definition jac_u (f : dyn_t F) p (xv uv : nat -> F) (l j : nat) : F :=
    let t := dstep (uv j) in ctr (dynv f p l xv (bump uv j t)) (dynv f p l xv (bump uv j (- t)%S)) t.

  Lemma set_mcol_gm (J v : mat F) r c j : gm J r c -> gm v r 1 -> j < c -> gm (set_mcol J j v) r c.
  Proof.
    intros (J1 & J2 & J3) (V1 & V2 & V3) Hj. unfold set_mcol, set_block. repeat split; cbn [mrows mcols mok]; try assumption.
    rewrite J1, J2, J3, V1, V2, V3, !Nat.eqb_refl, Nat.add_0_l, Nat.leb_refl. destruct (Nat.leb_spec (j + 1) c); [reflexivity|lia].
  Qed.
  Lemma set_mcol_ent (J v : mat F) r c j a b : gm J r c -> a < r -> ent (set_mcol J j v) a b = if b =? j then ent v a 0 else ent J a b.
  Proof.
    intros (J1 & _ & _) Ha. unfold set_mcol. rewrite J1. destruct (Nat.eqb_spec b j) as [->|N].
    - rewrite ent_set_block_in by lia. f_equal; lia.
    - rewrite ent_set_block_col_out by lia. reflexivity.
  Qed.
  Lemma abs1_v V n v i : rv V n v -> i < n -> ent (abs1 V) i 0 = smax (sabs (v i)) s1.
  Proof. intros [_ E] Hi. unfold abs1. cbn [ent]. now rewrite E. Qed.

  Lemma dyn_jac_ent f X U xv uv p : rv X nx xv -> rv U nu uv -> let '(A, B) := dyn_jac d f X U p in
    (gm A nx nx /\ forall l j, l < nx -> j < nx -> ent A l j = jac_x f p xv uv l j) /\
    (gm B nx nu /\ forall l j, l < nx -> j < nu -> ent B l j = jac_u f p xv uv l j).
  Proof.
    intros HX HU. unfold dyn_jac. split.
    - assert (G : forall k, k <= nx -> let A := loop k (fun i J =>
        let dx := smul dv_con (ent (abs1 X) i 0) in
        let fp := dyn_call d f (set_entry X i 0 (sadd (ent X i 0) dx)) U p in
        let fm := dyn_call d f (set_entry X i 0 (ssub (ent X i 0) dx)) U p in
        set_mcol J i (cdiff fp fm dx)) (mzero nx nx) in
        gm A nx nx /\ forall l j, l < nx -> j < k -> ent A l j = jac_x f p xv uv l j).
      { induction k as [|k IH]; intros Hk; cbn [loop]; [split; [repeat split|lia]|].
        destruct (IH ltac:(lia)) as [GA EA]. set (A := loop k _ _) in *. clearbody A. cbn zeta. split.
        - apply set_mcol_gm; [exact GA|apply cdiff_gm; repeat split|lia].
        - intros l j Hl Hj. rewrite (set_mcol_ent A _ nx nx k l j GA Hl). destruct (Nat.eqb_spec j k) as [->|N]; [|apply EA; lia].
          unfold cdiff. cbn [ent]. pose proof (abs1_v X nx xv k HX ltac:(lia)) as L. rewrite L.
          assert (R1 : rv (set_entry X k 0 (sadd (ent X k 0) (smul dv_con (smax (sabs (xv k)) s1)))) nx (bump xv k (dstep (xv k)))).
          { apply rv_set; [exact HX|lia|]. destruct HX as [_ E]. rewrite E by lia. reflexivity. }
          assert (R2 : rv (set_entry X k 0 (ssub (ent X k 0) (smul dv_con (smax (sabs (xv k)) s1)))) nx (bump xv k (- dstep (xv k))%S)).
          { apply rv_set; [exact HX|lia|]. destruct HX as [_ E]. rewrite E by lia. unfold dstep. ring. }
          rewrite (dyn_call_v f _ U _ uv p l R1 HU), (dyn_call_v f _ U _ uv p l R2 HU). reflexivity. }
      apply (G nx (le_n _)).
    - assert (G : forall k, k <= nu -> let A := loop k (fun i J =>
        let du := smul dv_con (ent (abs1 U) i 0) in
        let fp := dyn_call d f X (set_entry U i 0 (sadd (ent U i 0) du)) p in
        let fm := dyn_call d f X (set_entry U i 0 (ssub (ent U i 0) du)) p in
        set_mcol J i (cdiff fp fm du)) (mzero nx nu) in
        gm A nx nu /\ forall l j, l < nx -> j < k -> ent A l j = jac_u f p xv uv l j).
      { induction k as [|k IH]; intros Hk; cbn [loop]; [split; [repeat split|lia]|].
        destruct (IH ltac:(lia)) as [GA EA]. set (A := loop k _ _) in *. clearbody A. cbn zeta. split.
        - apply set_mcol_gm; [exact GA|apply cdiff_gm; repeat split|lia].
        - intros l j Hl Hj. rewrite (set_mcol_ent A _ nx nu k l j GA Hl). destruct (Nat.eqb_spec j k) as [->|N]; [|apply EA; lia].
          unfold cdiff. cbn [ent]. pose proof (abs1_v U nu uv k HU ltac:(lia)) as L. rewrite L.
          assert (R1 : rv (set_entry U k 0 (sadd (ent U k 0) (smul dv_con (smax (sabs (uv k)) s1)))) nu (bump uv k (dstep (uv k)))).
          { apply rv_set; [exact HU|lia|]. destruct HU as [_ E]. rewrite E by lia. reflexivity. }
          assert (R2 : rv (set_entry U k 0 (ssub (ent U k 0) (smul dv_con (smax (sabs (uv k)) s1)))) nu (bump uv k (- dstep (uv k))%S)).
          { apply rv_set; [exact HU|lia|]. destruct HU as [_ E]. rewrite E by lia. unfold dstep. ring. }
          rewrite (dyn_call_v f X _ xv _ p l HX R1), (dyn_call_v f X _ xv _ p l HX R2). reflexivity. }
      apply (G nu (le_n _)).
  Qed.

  Variables (m : mapping F) (su sx : nat -> F).
  Hypothesis HM : map_is d m su sx.
  Hypothesis P : 0 < ph.
  Hypothesis C0 : 0 < ch.
  Hypothesis C : ch <= ph.

  Lemma trow_rv X c x i : rep X (ph + 1) c x -> i < ph + 1 -> rv (mtrans (mrow X i)) c (x i).
  Proof.
    intros H Hi. destruct (rep_trow X _ _ x i H Hi) as [G _]. split; [exact G|]. intros j Hj. cbn [mtrans mrow block ent].
    rewrite Nat.add_0_r. destruct H as [_ E]. now apply E.
  Qed.
  Lemma madd_gm (A B : mat F) r c : gm A r c -> gm B r c -> gm (madd A B) r c.
  Proof. intros (a1 & a2 & a3) (b1 & b2 & b3). unfold madd. repeat split; cbn [mrows mcols mok]; try assumption. now rewrite a1, a2, a3, b1, b2, b3, !Nat.eqb_refl. Qed.
  Lemma mopp_gm (A : mat F) r c : gm A r c -> gm (mopp A) r c.
  Proof. intros (a1 & a2 & a3). unfold mopp. repeat split; assumption. Qed.
  (** S^-1 A S and S^-1 B *)
  Lemma sandwich_ent k A a : gm A nx nx -> (forall l j, l < nx -> j < nx -> ent A l j = a l j) ->
    gm (mmul (mmul (mscale k (mdiag (mp_inv m))) A) (mdiag (mp_st m))) nx nx /\
    forall l j, l < nx -> j < nx -> ent (mmul (mmul (mscale k (mdiag (mp_inv m))) A) (mdiag (mp_st m))) l j = (k * (s1 / sx l) * a l j * sx j)%S.
  Proof.
    intros (A1 & A2 & A3) EA. destruct (mi_inv d m su sx HM) as (I1 & I2 & I3). destruct (mi_st d m su sx HM) as (T1 & T2 & T3). split.
    - unfold mmul, mscale, mdiag. repeat split; cbn [mrows mcols mok]; try assumption. rewrite A1, A2, A3, I1, I2, I3, T1, T2, T3, !Nat.eqb_refl. reflexivity.
    - intros l j Hl Hj. unfold mmul at 1. cbn [ent mcols mmul]. rewrite A2.
      rewrite (ssum_single nx j); [|exact Hj|].
      + cbn [mdiag ent]. rewrite Nat.eqb_refl. rewrite (mi_sx d m su sx HM) by exact Hj. cbn [mscale mdiag mcols]. rewrite I1.
        rewrite (ssum_single nx l); [|exact Hl|].
        * cbn [ent mscale mdiag]. rewrite Nat.eqb_refl, (mi_sxi d m su sx HM), EA by assumption. reflexivity.
        * intros q Hq N. cbn [ent mscale mdiag]. destruct (Nat.eqb_spec l q); [lia|]. ring.
      + intros q Hq N. cbn [mdiag ent]. destruct (Nat.eqb_spec q j); [lia|]. ring.
  Qed.
  Lemma left_ent k B w b : gm B nx w -> (forall l j, l < nx -> j < w -> ent B l j = b l j) ->
    gm (mmul (mscale k (mdiag (mp_inv m))) B) nx w /\
    forall l j, l < nx -> j < w -> ent (mmul (mscale k (mdiag (mp_inv m))) B) l j = (k * (s1 / sx l) * b l j)%S.
  Proof.
    intros (A1 & A2 & A3) EA. destruct (mi_inv d m su sx HM) as (I1 & I2 & I3). split.
    - unfold mmul, mscale, mdiag. repeat split; cbn [mrows mcols mok]; try assumption. rewrite A1, A3, I1, I2, I3, !Nat.eqb_refl. reflexivity.
    - intros l j Hl Hj. unfold mmul. cbn [ent mcols mscale mdiag]. rewrite I1. rewrite (ssum_single nx l); [|exact Hl|].
      + rewrite Nat.eqb_refl, (mi_sxi d m su sx HM), EA by assumption. reflexivity.
      + intros q Hq N. destruct (Nat.eqb_spec l q); [lia|]. ring.
  Qed.
  (** the same without the factor (discrete branch) *)
  Lemma sandwich_ent1 A a : gm A nx nx -> (forall l j, l < nx -> j < nx -> ent A l j = a l j) ->
    gm (mmul (mmul (mdiag (mp_inv m)) A) (mdiag (mp_st m))) nx nx /\
    forall l j, l < nx -> j < nx -> ent (mmul (mmul (mdiag (mp_inv m)) A) (mdiag (mp_st m))) l j = ((s1 / sx l) * a l j * sx j)%S.
  Proof.
    intros (A1 & A2 & A3) EA. destruct (mi_inv d m su sx HM) as (I1 & I2 & I3). destruct (mi_st d m su sx HM) as (T1 & T2 & T3). split.
    - unfold mmul, mdiag. repeat split; cbn [mrows mcols mok]; try assumption. rewrite A1, A2, A3, I1, I2, I3, T1, T2, T3, !Nat.eqb_refl. reflexivity.
    - intros l j Hl Hj. unfold mmul at 1. cbn [ent mcols mmul]. rewrite A2.
      rewrite (ssum_single nx j); [|exact Hj|].
      + cbn [mdiag ent]. rewrite Nat.eqb_refl. rewrite (mi_sx d m su sx HM) by exact Hj. cbn [mdiag mcols]. rewrite I1.
        rewrite (ssum_single nx l); [|exact Hl|].
        * cbn [ent mscale mdiag]. rewrite Nat.eqb_refl, (mi_sxi d m su sx HM), EA by assumption. reflexivity.
        * intros q Hq N. cbn [ent mscale mdiag]. destruct (Nat.eqb_spec l q); [lia|]. ring.
      + intros q Hq N. cbn [mdiag ent]. destruct (Nat.eqb_spec q j); [lia|]. ring.
  Qed.
  Lemma left_ent1 B w b : gm B nx w -> (forall l j, l < nx -> j < w -> ent B l j = b l j) ->
    gm (mmul (mdiag (mp_inv m)) B) nx w /\
    forall l j, l < nx -> j < w -> ent (mmul (mdiag (mp_inv m)) B) l j = ((s1 / sx l) * b l j)%S.
  Proof.
    intros (A1 & A2 & A3) EA. destruct (mi_inv d m su sx HM) as (I1 & I2 & I3). split.
    - unfold mmul, mdiag. repeat split; cbn [mrows mcols mok]; try assumption. rewrite A1, A3, I1, I2, I3, !Nat.eqb_refl. reflexivity.
    - intros l j Hl Hj. unfold mmul. cbn [ent mcols mdiag]. rewrite I1. rewrite (ssum_single nx l); [|exact Hl|].
      + rewrite Nat.eqb_refl, (mi_sxi d m su sx HM), EA by assumption. reflexivity.
      + intros q Hq N. destruct (Nat.eqb_spec l q); [lia|]. ring.
  Qed.

  (** ** The loop *)
  Section Loop.
    Variables (r : nat -> nat -> F) (D O B : nat -> nat -> nat -> F).
    Definition jxe (i l i' j : nat) : F := if i' =? i then D i l j else if S i' =? i then O i l j else s0.
    Definition jue (i l i' j : nat) : F := if i' =? i then B i l j else s0.
    Definition linv (k : nat) (st : nat * mat F * mat F * mat F) : Prop :=
      let '(ic, ceq, Jx, Jmv) := st in
      ic = k * nx /\ gm ceq (ph * nx) 1 /\ gm Jx (ph * nx) (ph * nx) /\ gm Jmv (ph * nx) (ph * nu) /\
      (forall i l, i < ph -> l < nx -> ent ceq (i * nx + l) 0 = if i <? k then r i l else s0) /\
      (forall i l i' j, i < ph -> l < nx -> i' < ph -> j < nx -> ent Jx (i * nx + l) (i' * nx + j) = if i <? k then jxe i l i' j else s0) /\
      (forall i l i' j, i < ph -> l < nx -> i' < ph -> j < nu -> ent Jmv (i * nx + l) (i' * nu + j) = if i <? k then jue i l i' j else s0).

    Lemma set_blk_gm2 (J M : mat F) w k i : gm J (ph * nx) (ph * w) -> gm M nx w -> k < ph -> i < ph -> gm (set_blk d J (k * nx) w i M) (ph * nx) (ph * w).
    Proof.
      intros (J1 & J2 & J3) (M1 & M2 & M3) Hk Hi. pose proof (blk_le k ph nx Hk). pose proof (blk_le i ph w Hi).
      unfold set_blk, set_block. repeat split; cbn [mrows mcols mok]; try assumption. rewrite J1, J2, J3, M1, M2, M3, !Nat.eqb_refl.
      destruct (Nat.leb_spec (k * nx + nx) (ph * nx)), (Nat.leb_spec (i * w + w) (ph * w)); try lia; reflexivity.
    Qed.
    Lemma set_blk_ent2 (J M : mat F) w k i a l b j : l < nx -> j < w ->
      ent (set_blk d J (k * nx) w i M) (a * nx + l) (b * w + j) = if (a =? k) && (b =? i) then ent M l j else ent J (a * nx + l) (b * w + j).
    Proof.
      intros Hl Hj. unfold set_blk. destruct (Nat.eqb_spec a k) as [->|Na]; [destruct (Nat.eqb_spec b i) as [->|Nb]|]; cbn [andb].
      - rewrite ent_set_block_in by lia. f_equal; lia.
      - apply ent_set_block_col_out. destruct (Nat.lt_ge_cases b i) as [Q|Q]; [pose proof (blk_le b i w Q)|pose proof (blk_le i b w ltac:(lia))]; lia.
      - apply ent_set_block_row_out. destruct (Nat.lt_ge_cases a k) as [Q|Q]; [pose proof (blk_le a k nx Q)|pose proof (blk_le k a nx ltac:(lia))]; lia.
    Qed.
    (** two consecutive writes of the residual rows *)
    Lemma res_step k ceq V0 v0 : k < ph -> gm ceq (ph * nx) 1 -> rv V0 nx v0 ->
      let c1 := set_middle_rows ceq (k * nx) nx V0 in
      let c2 := set_middle_rows c1 (k * nx) nx (div_rows (middle_rows c1 (k * nx) nx) (mp_st m)) in
      gm c2 (ph * nx) 1 /\ forall a l, l < nx -> ent c2 (a * nx + l) 0 = if a =? k then (v0 l / sx l)%S else ent ceq (a * nx + l) 0.
    Proof.
      intros Hk (E1 & E2 & E3) [(V1 & V2 & V3) EV]. destruct (mi_st d m su sx HM) as (T1 & T2 & T3). pose proof (blk_le k ph nx Hk) as Hb. cbn zeta.
      set (c1 := set_middle_rows ceq (k * nx) nx V0).
      assert (G1 : gm c1 (ph * nx) 1).
      { unfold c1, set_middle_rows, set_block. repeat split; cbn [mrows mcols mok]; try assumption. rewrite E1, E2, E3, V1, V2, V3, !Nat.eqb_refl.
        destruct (Nat.leb_spec (k * nx + nx) (ph * nx)); [|lia]. reflexivity. }
      assert (F1 : forall q, q < nx -> ent c1 (k * nx + q) 0 = v0 q).
      { intros q Hq. unfold c1, set_middle_rows. rewrite E2. rewrite ent_set_block_in by lia. rewrite <- EV by exact Hq. f_equal; lia. }
      assert (F2 : forall q, q < k * nx \/ k * nx + nx <= q -> ent c1 q 0 = ent ceq q 0).
      { intros q Hq. unfold c1, set_middle_rows. now rewrite ent_set_block_row_out by lia. }
      clearbody c1. destruct G1 as (G1 & G2 & G3). split.
      - unfold set_middle_rows, set_block, div_rows, middle_rows, block. repeat split; cbn [mrows mcols mok]; try assumption.
        rewrite G1, G2, G3, T1, T3, !Nat.eqb_refl. destruct (Nat.leb_spec (k * nx + nx) (ph * nx)); [|lia]. reflexivity.
      - intros a l Hl. unfold set_middle_rows. rewrite G2. destruct (Nat.eqb_spec a k) as [->|N].
        + rewrite ent_set_block_in by lia. replace (k * nx + l - k * nx) with l by lia. unfold div_rows, middle_rows, block. cbn [ent Nat.sub Nat.add].
          rewrite F1 by exact Hl. rewrite (mi_sx d m su sx HM) by exact Hl. reflexivity.
        + assert (Q : a * nx + l < k * nx \/ k * nx + nx <= a * nx + l).
          { destruct (Nat.lt_ge_cases a k) as [Q|Q]; [pose proof (blk_le a k nx Q)|pose proof (blk_le k a nx ltac:(lia))]; lia. }
          rewrite ent_set_block_row_out by lia. now apply F2.
    Qed.
    Lemma linv_step k ic ceq Jx Jmv V0 v0 MD MO MB Jx' : k < ph -> linv k (ic, ceq, Jx, Jmv) ->
      rv V0 nx v0 -> (forall l, l < nx -> (v0 l / sx l)%S = r k l) ->
      gm MD nx nx -> (forall l j, l < nx -> j < nx -> ent MD l j = D k l j) ->
      gm MO nx nx -> (forall l j, l < nx -> j < nx -> ent MO l j = O k l j) ->
      gm MB nx nu -> (forall l j, l < nx -> j < nu -> ent MB l j = B k l j) ->
      (Jx' = set_blk d (if 0 <? k then set_blk d Jx ic nx (k - 1) MO else Jx) ic nx k MD \/
       Jx' = if 0 <? k then set_blk d (set_blk d Jx ic nx k MD) ic nx (k - 1) MO else set_blk d Jx ic nx k MD) ->
      let c1 := set_middle_rows ceq ic nx V0 in
      linv (S k) (ic + nx, set_middle_rows c1 ic nx (div_rows (middle_rows c1 ic nx) (mp_st m)), Jx', set_blk d Jmv ic nu k MB).
    Proof.
      intros Hk (-> & Gc & Gx & Gu & Ec & Ex & Eu) HV Hr GD ED GO EO GB EB HJ.
      destruct (res_step k ceq V0 v0 Hk Gc HV) as [G1 E1]. cbn zeta in *. set (c2 := set_middle_rows _ (k * nx) nx (div_rows _ _)) in *. clearbody c2.
      assert (GJ : gm Jx' (ph * nx) (ph * nx) /\ forall i l i' j, i < ph -> l < nx -> i' < ph -> j < nx -> ent Jx' (i * nx + l) (i' * nx + j) = if i <? S k then jxe i l i' j else s0).
      { assert (Hi : k - 1 < ph) by lia. split.
        - destruct HJ as [-> | ->]; destruct (0 <? k); repeat (apply set_blk_gm2; try assumption).
        - intros i l i' j H1 H2 H3 H4. unfold jxe.
          assert (X : ent Jx' (i * nx + l) (i' * nx + j) = if i =? k then (if i' =? k then D k l j else if S i' =? k then O k l j else ent Jx (i * nx + l) (i' * nx + j)) else ent Jx (i * nx + l) (i' * nx + j)).
          { destruct HJ as [-> | ->]; destruct (Nat.ltb_spec 0 k); rewrite ?set_blk_ent2 by assumption; rewrite ?ED, ?EO by assumption;
            destruct (Nat.eqb_spec i k), (Nat.eqb_spec i' k), (Nat.eqb_spec i' (k - 1)), (Nat.eqb_spec (S i') k); cbn [andb]; try reflexivity; lia. }
          rewrite X, Ex by assumption. destruct (Nat.eqb_spec i k) as [->|N].
          + destruct (Nat.ltb_spec k (S k)); [|lia]. destruct (Nat.ltb_spec k k); [lia|]. destruct (i' =? k); [reflexivity|]. destruct (S i' =? k); reflexivity.
          + destruct (Nat.ltb_spec i k), (Nat.ltb_spec i (S k)); try lia; reflexivity. }
      destruct GJ as [GJ EJ]. unfold linv. refine (conj _ (conj G1 (conj GJ (conj _ (conj _ (conj EJ _)))))).
      - lia.
      - now apply set_blk_gm2.
      - intros i l Hi Hl. rewrite E1, Ec by assumption. destruct (Nat.eqb_spec i k) as [->|N].
        + destruct (Nat.ltb_spec k (S k)); [now apply Hr|lia].
        + destruct (Nat.ltb_spec i k), (Nat.ltb_spec i (S k)); try lia; reflexivity.
      - intros i l i' j H1 H2 H3 H4. rewrite set_blk_ent2, Eu by assumption. unfold jue. destruct (Nat.eqb_spec i k) as [->|N]; cbn [andb].
        + destruct (Nat.ltb_spec k (S k)); [|lia]. destruct (Nat.ltb_spec k k); [lia|]. destruct (Nat.eqb_spec i' k) as [->|]; [now apply EB|reflexivity].
        + destruct (Nat.ltb_spec i k), (Nat.ltb_spec i (S k)); try lia; reflexivity.
    Qed.
  End Loop.

  Section Pt.
    Variables (x x0 : mat F) (z xi : nat -> F).
    Hypothesis HX : gm x (n_dec d) 1.
    Hypothesis HX0 : gm x0 nx 1.
    Hypothesis HZ : forall k, k < n_dec d -> ent x k 0 = z k.
    Hypothesis Sx0 : forall j, j < nx -> sx j <> s0.
    Hypothesis Hxi : forall j, j < nx -> xi j = (sx j * ent x0 j 0)%S.
    Notation Xt := (st_traj d sx xi z). Notation Ut := (in_traj d su z).

    (** Jacobian blocks with respect to the scaled variables, by time step *)
    Definition dblk (f : dyn_t F) (ts : option F) (i l j : nat) : F :=
      match ts with
      | None => delta l j
      | Some t => (- delta l j + t / s2 * (s1 / sx l) * jac_x f i (Xt (S i)) (Ut i) l j * sx j)%S
      end.
    Definition oblk (f : dyn_t F) (ts : option F) (i l j : nat) : F :=
      match ts with
      | None => (- ((s1 / sx l) * jac_x f i (Xt i) (Ut i) l j * sx j))%S
      | Some t => (delta l j + t / s2 * (s1 / sx l) * jac_x f i (Xt i) (Ut i) l j * sx j)%S
      end.
    Definition bblk (f : dyn_t F) (ts : option F) (i l j : nat) : F :=
      match ts with
      | None => (- ((s1 / sx l) * jac_u f i (Xt i) (Ut i) l j))%S
      | Some t => (t / s2 * (s1 / sx l) * (jac_u f i (Xt i) (Ut i) l j + jac_u f i (Xt (S i)) (Ut i) l j))%S
      end.

    Lemma seq_loop f ts X U : rep X (ph + 1) nx Xt -> rep U (ph + 1) nu Ut ->
      linv (dyn_res d f ts sx Xt Ut) (dblk f ts) (oblk f ts) (bblk f ts) ph
        (loop ph (match ts with Some t => seq_body_cont d m f t X U | None => seq_body_disc d m f X U end)
          (0, mzero (ph * nx) 1, mzero (ph * nx) (ph * nx), mzero (ph * nx) (ph * nu))).
    Proof.
      intros TX TU.
      assert (GI : gm (mident nx nx) nx nx) by (repeat split). 
      assert (G : forall k, k <= ph -> linv (dyn_res d f ts sx Xt Ut) (dblk f ts) (oblk f ts) (bblk f ts) k
        (loop k (match ts with Some t => seq_body_cont d m f t X U | None => seq_body_disc d m f X U end)
          (0, mzero (ph * nx) 1, mzero (ph * nx) (ph * nx), mzero (ph * nx) (ph * nu)))).
      { induction k as [|k IH]; intros Hk; [cbn [loop]; repeat split|]. cbn [loop]. specialize (IH ltac:(lia)). 
        set (st := loop k _ _) in *. clearbody st. destruct st as [[[ic ceq] Jx] Jmv].
        pose proof (trow_rv X nx Xt k TX ltac:(lia)) as Rx. pose proof (trow_rv U nu Ut k TU ltac:(lia)) as Ru. pose proof (trow_rv X nx Xt (k + 1) TX ltac:(lia)) as Rx1.
        replace (k + 1) with (S k) in Rx1 by lia.
        destruct ts as [t|].
        - unfold seq_body_cont. replace (k + 1) with (S k) by lia.
          set (uk := mtrans (mrow U k)) in *. set (xk := mtrans (mrow X k)) in *. set (xk1 := mtrans (mrow X (S k))) in *.
          pose proof (dyn_jac_ent f xk uk _ _ k Rx Ru) as J0. destruct (dyn_jac d f xk uk k) as [Ak Bk]. destruct J0 as [[GA EA] [GB EB]].
          pose proof (dyn_jac_ent f xk1 uk _ _ k Rx1 Ru) as J1. destruct (dyn_jac d f xk1 uk k) as [Ak1 Bk1]. destruct J1 as [[GA1 EA1] [GB1 EB1]].
          destruct (sandwich_ent (t / s2)%S Ak _ GA EA) as [(S1 & S2 & S3) SE]. destruct (sandwich_ent (t / s2)%S Ak1 _ GA1 EA1) as [(S1' & S2' & S3') SE'].
          assert (GBB : gm (madd Bk Bk1) nx nu).
          { destruct GB as (b1 & b2 & b3), GB1 as (c1 & c2 & c3). unfold madd. repeat split; cbn [mrows mcols mok]; try assumption. now rewrite b1, b2, b3, c1, c2, c3, !Nat.eqb_refl. }
          destruct (left_ent (t / s2)%S (madd Bk Bk1) nu (fun l j => (jac_u f k (Xt k) (Ut k) l j + jac_u f k (Xt (S k)) (Ut k) l j)%S) GBB) as [GL EL].
          { intros l j Hl Hj. unfold madd. cbn [ent]. now rewrite EB, EB1. }
          refine (linv_step _ _ _ _ k ic ceq Jx Jmv _ (fun l => (Xt k l + t / s2 * (dynv f k l (Xt k) (Ut k) + dynv f k l (Xt (S k)) (Ut k)) - Xt (S k) l)%S) _ _ _ _ ltac:(lia) IH _ _ _ _ _ _ GL _ (or_introl eq_refl)).
          + destruct Rx as [(x1 & x2 & x3) Ex]. destruct Rx1 as [(y1 & y2 & y3) Ey]. split.
            * unfold msub, madd, mscale. repeat split; cbn [mrows mcols mok dyn_call mvec]; try assumption. now rewrite x1, x2, x3, y1, y2, y3, !Nat.eqb_refl.
            * intros l Hl. unfold msub, madd, mscale. cbn [ent]. rewrite Ex, Ey by exact Hl.
              rewrite (dyn_call_v f xk uk (Xt k) (Ut k) k l ltac:(split; [now repeat split|exact Ex]) Ru), (dyn_call_v f xk1 uk (Xt (S k)) (Ut k) k l ltac:(split; [now repeat split|exact Ey]) Ru). reflexivity.
          + reflexivity.
          + apply madd_gm; [apply mopp_gm, GI|now repeat split].
          + intros l j Hl Hj. unfold madd, mopp. cbn [ent mident]. rewrite SE' by assumption. reflexivity.
          + apply madd_gm; [exact GI|now repeat split].
          + intros l j Hl Hj. unfold madd. cbn [ent mident]. rewrite SE by assumption. reflexivity.
          + intros l j Hl Hj. rewrite EL by assumption. reflexivity.
        - unfold seq_body_disc. replace (k + 1) with (S k) by lia.
          set (uk := mtrans (mrow U k)) in *. set (xk := mtrans (mrow X k)) in *. set (xk1 := mtrans (mrow X (S k))) in *.
          pose proof (dyn_jac_ent f xk uk _ _ k Rx Ru) as J0. destruct (dyn_jac d f xk uk k) as [Ak Bk]. destruct J0 as [[GA EA] [GB EB]].
          destruct (sandwich_ent1 Ak _ GA EA) as [(S1 & S2 & S3) SE]. destruct (left_ent1 Bk nu _ GB EB) as [(L1 & L2 & L3) LE].
          refine (linv_step _ _ _ _ k ic ceq Jx Jmv _ (fun l => (Xt (S k) l - dynv f k l (Xt k) (Ut k))%S) (mident nx nx) (mopp (mmul (mmul (mdiag (mp_inv m)) Ak) (mdiag (mp_st m)))) _ _ ltac:(lia) IH _ _ GI _ _ _ _ _ (or_intror eq_refl)).
          + destruct Rx as [(x1 & x2 & x3) Ex]. destruct Rx1 as [(y1 & y2 & y3) Ey]. split.
            * unfold msub. repeat split; cbn [mrows mcols mok dyn_call mvec]; try assumption. now rewrite y1, y2, y3, !Nat.eqb_refl.
            * intros l Hl. unfold msub. cbn [ent]. rewrite Ey by exact Hl.
              rewrite (dyn_call_v f xk uk (Xt k) (Ut k) k l ltac:(split; [now repeat split|exact Ex]) Ru). reflexivity.
          + reflexivity.
          + reflexivity.
          + unfold mopp. repeat split; cbn [mrows mcols mok]; assumption.
          + intros l j Hl Hj. unfold mopp. cbn [ent]. rewrite SE by assumption. reflexivity.
          + unfold mopp. repeat split; cbn [mrows mcols mok]; assumption.
          + intros l j Hl Hj. unfold mopp. cbn [ent]. rewrite LE by assumption. reflexivity. }
      apply (G ph (le_n _)).
    Qed.

    Lemma seq_evaluate_ent f ts : let '(v, g) := seq_evaluate junk d m f ts x0 x in
      gm v (ph * nx) 1 /\ (forall i l, i < ph -> l < nx -> ent v (i * nx + l) 0 = dyn_res d f ts sx Xt Ut i l) /\ gm g (n_dec d * (ph * nx)) 1 /\
      (forall i l i' j, i < ph -> l < nx -> i' < ph -> j < nx ->
        ent g ((i * nx + l) * n_dec d + (i' * nx + j)) 0 = if i' =? i then dblk f ts i l j else if S i' =? i then oblk f ts i l j else s0) /\
      (forall i l b j, i < ph -> l < nx -> b < ch -> j < nu ->
        ent g ((i * nx + l) * n_dec d + (ph * nx + (b * nu + j))) 0 = (su j * (if held d i =? b then bblk f ts i l j else s0))%S) /\
      (forall i l, i < ph -> l < nx -> ent g ((i * nx + l) * n_dec d + (ph * nx + nu * ch)) 0 = s0).
    Proof.
      unfold seq_evaluate.
      pose proof (traj_X d m su sx HM P C0 C x x0 z xi HX HX0 HZ Sx0 Hxi) as TX. pose proof (traj_U d m su sx HM P C0 C x z HX HZ) as TU.
      pose proof (seq_loop f ts _ _ TX TU) as H. destruct (loop ph _ _) as [[[ic ceq] Jx] Jmv]. destruct H as (_ & Gc & Gx & Gu & Ec & Ex & Eu).
      destruct (glue_ent junk d m su sx HM P C0 C (ph * nx) (mzero (n_dec d) (ph * nx)) Jx Jmv (mzero (ph * nx) 1) ltac:(repeat split) Gx Gu ltac:(repeat split)) as (GG & EGx & EGu & EGe).
      set (G := glue _ _ _ _ _ _ _ _) in *. clearbody G.
      assert (Hl : forall i j, i < ph -> j < nx -> i * nx + j < n_dec d) by (intros i j Hi Hj; pose proof (blk_lt i ph nx j Hi Hj); unfold n_dec; lia).
      assert (Hl2 : forall b j, b < ch -> j < nu -> ph * nx + (b * nu + j) < n_dec d) by (intros i j Hi Hj; pose proof (blk_lt i ch nu j Hi Hj); unfold n_dec; lia).
      assert (LT : forall i, i < ph -> (i <? ph) = true) by (intros i Hi; now apply Nat.ltb_lt).
      refine (conj Gc (conj _ (conj _ (conj _ (conj _ _))))).
      - intros i l Hi Hl'. rewrite Ec by assumption. now rewrite LT.
      - destruct GG as (S1 & S2 & S3). unfold mflat. repeat split; cbn [mrows mcols mok]; [now rewrite S1, S2|exact S3].
      - intros i l i' j Hi Hl' Hi' Hj. rewrite (mflat_ent G (n_dec d) (ph * nx) _ _ GG (Hl i' j Hi' Hj)).
        rewrite EGx by (assumption || now apply blk_lt). rewrite Ex by assumption. now rewrite LT.
      - intros i l b j Hi Hl' Hb Hj. rewrite (mflat_ent G (n_dec d) (ph * nx) _ _ GG (Hl2 b j Hb Hj)).
        rewrite EGu by (assumption || now apply blk_lt). f_equal. unfold over_block. rewrite (ssum_single ph i); [|exact Hi|].
        + destruct (held d i =? b); [|reflexivity]. rewrite Eu by assumption. rewrite LT by exact Hi. unfold jue. now rewrite Nat.eqb_refl.
        + intros a Ha N. destruct (held d a =? b); [|reflexivity]. rewrite Eu by assumption. rewrite LT by exact Hi. unfold jue. destruct (Nat.eqb_spec a i); [lia|reflexivity].
      - intros i l Hi Hl'. rewrite (mflat_ent G (n_dec d) (ph * nx) (ph * nx + nu * ch) _ GG ltac:(unfold n_dec; lia)). rewrite EGe by (now apply blk_lt). reflexivity.
    Qed.
  End Pt.
End Dyn.
