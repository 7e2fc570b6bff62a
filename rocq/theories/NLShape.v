(** Sizes and range preconditions of the evaluation code ([NLFun.v]), without any arithmetic law: every evaluation of
    a registered function is defined for every scalar type, in particular for IEEE doubles ([Double.v]). *)
From Coq Require Import Bool Arith ZArith List Lia.
From Verif Require Import Scalar Sums Mat Builder BuilderEnt NLMap NLTraj NLFun NLLoop.
Import ListNotations.

Lemma loop_inv {S} (I : nat -> S -> Prop) n (body : nat -> S -> S) s : I 0 s ->
  (forall i s, i < n -> I i s -> I (Datatypes.S i) (body i s)) -> I n (loop n body s).
Proof.
  intros H0 HS. assert (G : forall k, k <= n -> I k (loop k body s)).
  { induction k as [|k IH]; intros Hk; [exact H0|]. cbn [loop]. apply HS; [lia|]. apply IH. lia. }
  now apply G.
Qed.
Lemma loop_pres {S} (I : S -> Prop) n (body : nat -> S -> S) s : I s -> (forall i s, i < n -> I s -> I (body i s)) -> I (loop n body s).
Proof. intros H0 HS. exact (loop_inv (fun _ => I) n body s H0 HS). Qed.

(** ** sizes of the matrix operations *)
Section Ops.
  Context {T : Type}.
  Implicit Types M B V : mat T.
  Lemma gm_zero_like r c (v : T) : gm (mconst r c v) r c. Proof. repeat split. Qed.
  Lemma gm_junk g r c : gm (mjunk g r c : mat T) r c. Proof. repeat split. Qed.
  Lemma gm_vec n f : gm (mvec n f : mat T) n 1. Proof. repeat split. Qed.
  Lemma gm_trans M r c : gm M r c -> gm (mtrans M) c r.
  Proof. intros (R & C & O). repeat split; cbn; assumption. Qed.
  Lemma gm_block M R C r c h w : gm M R C -> r + h <= R -> c + w <= C -> gm (block M r c h w) h w.
  Proof.
    intros (E1 & E2 & O) H1 H2. unfold block. repeat split; cbn [mok]. rewrite E1, E2, O.
    rewrite (proj2 (Nat.leb_le _ _) H1), (proj2 (Nat.leb_le _ _) H2). reflexivity.
  Qed.
  Lemma gm_set_block M R C r c h w B : gm M R C -> gm B h w -> r + h <= R -> c + w <= C -> gm (set_block M r c h w B) R C.
  Proof.
    intros (E1 & E2 & O) (B1 & B2 & BO) H1 H2. unfold set_block. repeat split; cbn [mrows mcols mok]; [exact E1|exact E2|].
    rewrite E1, E2, O, B1, B2, BO, (proj2 (Nat.leb_le _ _) H1), (proj2 (Nat.leb_le _ _) H2), !Nat.eqb_refl. reflexivity.
  Qed.
  Lemma gm_set_entry M R C i j v : gm M R C -> i < R -> j < C -> gm (set_entry M i j v) R C.
  Proof. intros G Hi Hj. apply gm_set_block; [exact G|repeat split|lia|lia]. Qed.
  Lemma gm_row M R C i : gm M R C -> i < R -> gm (mrow M i) 1 C.
  Proof. intros G Hi. unfold mrow. rewrite (proj1 (proj2 G)). apply (gm_block M R C); [exact G|lia|lia]. Qed.
  Lemma gm_mid M R C r h : gm M R C -> r + h <= R -> gm (middle_rows M r h) h C.
  Proof. intros G Hr. unfold middle_rows. rewrite (proj1 (proj2 G)). apply (gm_block M R C); [exact G|lia|lia]. Qed.
  Lemma gm_set_mid M R C r h B : gm M R C -> gm B h C -> r + h <= R -> gm (set_middle_rows M r h B) R C.
  Proof. intros G GB Hr. unfold set_middle_rows. rewrite (proj1 (proj2 G)). apply gm_set_block; [exact G|exact GB|lia|lia]. Qed.
  Lemma gm_set_col M R C j V : gm M R C -> gm V R 1 -> j < C -> gm (set_mcol M j V) R C.
  Proof. intros G GV Hj. unfold set_mcol. rewrite (proj1 G). apply gm_set_block; [exact G|exact GV|lia|lia]. Qed.
  Lemma gm_flat M R C : gm M R C -> gm (mflat M) (R * C) 1.
  Proof. intros (E1 & E2 & O). unfold mflat. repeat split; cbn; [now rewrite E1, E2|exact O]. Qed.
  Lemma gm_guard b M R C : gm M R C -> b = true -> gm (guard b M) R C.
  Proof. intros (E1 & E2 & O) ->. unfold guard. repeat split; cbn; [exact E1|exact E2|now rewrite O]. Qed.
End Ops.
Section NumOps.
  Context {F : Type} {SO : ScalarOps F}.
  Implicit Types A B : mat F.
  Lemma gm_mul A B r k c : gm A r k -> gm B k c -> gm (mmul A B) r c.
  Proof. intros (A1 & A2 & AO) (B1 & B2 & BO). unfold mmul. repeat split; cbn [mrows mcols mok]; [exact A1|exact B2|]. now rewrite A2, AO, B1, BO, Nat.eqb_refl. Qed.
  Lemma gm_add A B r c : gm A r c -> gm B r c -> gm (madd A B) r c.
  Proof. intros (A1 & A2 & AO) (B1 & B2 & BO). unfold madd. repeat split; cbn [mrows mcols mok]; [exact A1|exact A2|]. now rewrite A1, A2, AO, B1, B2, BO, !Nat.eqb_refl. Qed.
  Lemma gm_sub A B r c : gm A r c -> gm B r c -> gm (msub A B) r c.
  Proof. intros (A1 & A2 & AO) (B1 & B2 & BO). unfold msub. repeat split; cbn [mrows mcols mok]; [exact A1|exact A2|]. now rewrite A1, A2, AO, B1, B2, BO, !Nat.eqb_refl. Qed.
  Lemma gm_opp A r c : gm A r c -> gm (mopp A) r c.
  Proof. intros (A1 & A2 & AO). repeat split; cbn; assumption. Qed.
  Lemma gm_scale a A r c : gm A r c -> gm (mscale a A) r c.
  Proof. intros (A1 & A2 & AO). repeat split; cbn; assumption. Qed.
  Lemma gm_diag A n : gm A n 1 -> gm (mdiag A) n n.
  Proof. intros (A1 & A2 & AO). unfold mdiag. repeat split; cbn [mrows mcols mok]; [exact A1|exact A1|]. now rewrite AO, A2. Qed.
  Lemma gm_div A B r c : gm A r c -> gm B r c -> gm (div_rows A B) r c.
  Proof. intros (A1 & A2 & AO) (B1 & B2 & BO). unfold div_rows. repeat split; cbn [mrows mcols mok]; [exact A1|exact A2|]. now rewrite A1, AO, B1, BO, Nat.eqb_refl. Qed.
  Lemma gm_cdiff A B r c t : gm A r c -> gm B r c -> gm (cdiff A B t) r c.
  Proof. intros (A1 & A2 & AO) (B1 & B2 & BO). unfold cdiff. repeat split; cbn [mrows mcols mok]; [exact A1|exact A2|]. now rewrite A1, AO, B1, BO, Nat.eqb_refl. Qed.
  Lemma gm_blkcol (J V : mat F) R w n i j : gm J R (n * w) -> gm V R 1 -> i < n -> j < w -> gm (set_blkcol J w i j V) R (n * w).
  Proof.
    intros G GV Hi Hj. unfold set_blkcol. pose proof (blk_le i n w Hi). apply gm_guard.
    - apply gm_set_col; [exact G|exact GV|lia].
    - rewrite (proj1 (proj2 G)). rewrite (proj2 (Nat.leb_le _ _)) by lia. now rewrite (proj2 (Nat.ltb_lt _ _) Hj).
  Qed.
End NumOps.

Section Eval.
  Context {F : Type} {SO : ScalarOps F}.
  Variable junk : nat -> nat -> F.
  Variable d : dims.
  Variables ni ne : nat.
  Notation nx := (d_nx d). Notation nu := (d_nu d). Notation ny := (d_ny d).
  Notation ph := (d_ph d). Notation ch := (d_ch d).
  Notation N := (n_dec d).
  Variables (m : mapping F) (su sx : nat -> F).
  Hypothesis HM : map_is d m su sx.
  Hypothesis P : 0 < ph.
  Hypothesis C0 : 0 < ch.
  Hypothesis C : ch <= ph.
  Variables (x x0 : mat F).
  Hypothesis GX : gm x N 1.
  Hypothesis G0 : gm x0 nx 1.

  (** *** objective *)
  Lemma put_cols_gm (J v : mat F) c nr nc n : gm J nr nc -> gm v n 1 -> c + nc * nr <= n ->
    fst (put_cols J c v) = c + nc * nr /\ gm (snd (put_cols J c v)) n 1.
  Proof.
    intros (R & K & O) G B. unfold put_cols. rewrite R, K.
    pose proof (loop2_inv (fun i j st => fst st = c + i * nr + j /\ gm (snd st) n 1) nc nr
      (fun j i '(c, v) => (S c, set_entry v c 0 (ent J i j))) (c, v)) as L. cbn beta in L.
    destruct L as [L1 L2].
    - cbn. split; [lia|exact G].
    - intros i j [c' v'] Hi Hj [E G']. cbn [fst snd] in *. split; [lia|]. apply gm_set_entry; [exact G'| |lia].
      pose proof (blk_le i nc nr Hi). lia.
    - intros i [c' v'] Hi [E G']. cbn [fst snd] in *. split; [lia|exact G'].
    - split; [|exact L2]. etransitivity; [exact L1|lia].
  Qed.
  Lemma obj_evaluate_gm f og : gm (snd (obj_evaluate junk d m f og x0 x)) N 1.
  Proof.
    unfold obj_evaluate.
    assert (GXm : gm (unwrap_X d m x x0) (ph + 1) nx) by (apply (unwrap_X_ent d m su sx x x0 HM GX G0 P C0 C)).
    pose proof (unwrap_U_gm d m su sx x HM GX P C0 C) as GU.
    set (X := unwrap_X d m x x0) in *. set (U := unwrap_U d m x) in *. clearbody X U. set (e := unwrap_e x). clearbody e.
    unfold obj_jacobian.
    set (v := obj_call d f og X U e). clearbody v.
    assert (J1 : gm (fst (obj_jx d f og X U e v)) (ph + 1) nx /\ gm (snd (obj_jx d f og X U e v)) nx ph).
    { unfold obj_jx. apply (loop_pres (fun st => gm (fst st) (ph + 1) nx /\ gm (snd st) nx ph)); [split; [exact GXm|repeat split]|].
      intros i st Hi H. apply (loop_pres (fun st => gm (fst st) (ph + 1) nx /\ gm (snd st) nx ph)); [exact H|].
      intros j [a b] Hj [H1 H2]. cbn [fst snd] in *. split; [repeat apply gm_set_entry; (assumption || lia)|apply gm_set_entry; assumption]. }
    destruct (obj_jx d f og X U e v) as [X' Jx]. cbn [fst snd] in J1. destruct J1 as [_ J1].
    assert (J2 : let st := obj_ju_inner d f og (abs1 U) X' U (mzero nu ph) e v in gm (fst st) (ph + 1) nu /\ gm (snd st) nu ph).
    { cbn zeta. unfold obj_ju_inner. apply (loop_pres (fun st => gm (fst st) (ph + 1) nu /\ gm (snd st) nu ph)); [split; [exact GU|repeat split]|].
      intros i st Hi H. apply (loop_pres (fun st => gm (fst st) (ph + 1) nu /\ gm (snd st) nu ph)); [exact H|].
      intros j [a b] Hj [H1 H2]. cbn [fst snd] in *. split; [repeat apply gm_set_entry; (assumption || lia)|apply gm_set_entry; (assumption || lia)]. }
    destruct (obj_ju_inner d f og (abs1 U) X' U (mzero nu ph) e v) as [U' Jm]. cbn [fst snd] in J2. destruct J2 as [GU' J2].
    assert (J3 : let st := obj_ju_last d f og (abs1 U) X' U' Jm e v in gm (fst st) (ph + 1) nu /\ gm (snd st) nu ph).
    { cbn zeta. unfold obj_ju_last. apply (loop_pres (fun st => gm (fst st) (ph + 1) nu /\ gm (snd st) nu ph)); [split; assumption|].
      intros j [a b] Hj [H1 H2]. cbn [fst snd] in *. split; [repeat apply gm_set_entry; (assumption || lia)|apply gm_set_entry; (assumption || lia)]. }
    destruct (obj_ju_last d f og (abs1 U) X' U' Jm e v) as [U'' Jmv]. cbn [fst snd] in J3. destruct J3 as [_ J3].
    set (Je := obj_je d f og X' U'' e). clearbody Je.
    destruct (put_cols_gm Jx (mjunk junk N 1) 0 nx ph N J1 (gm_junk _ _ _)) as [c1 g1]; [unfold n_dec; lia|].
    destruct (put_cols Jx 0 (mjunk junk N 1)) as [c g]. cbn [fst snd] in c1, g1. subst c.
    destruct (put_cols_gm Jmv (mjunk junk (ph * nu) 1) 0 nu ph (ph * nu) J3 (gm_junk _ _ _)) as [_ g2]; [lia|].
    destruct (put_cols Jmv 0 (mjunk junk (ph * nu) 1)) as [c jv]. cbn [snd] in g2.
    pose proof (gm_mul (mtrans (mp_z2u m)) jv (nu * ch) (ph * nu) 1 (gm_trans _ _ _ (mi_z2u d m su sx HM)) g2) as Gr.
    set (res := mmul (mtrans (mp_z2u m)) jv) in *. clearbody res.
    pose proof (loop_inv (fun i st => fst st = 0 + ph * nx + i /\ gm (snd st) N 1) (ch * nu)
      (fun j '(c, g) => (S c, set_entry g c 0 (ent res j 0))) (0 + ph * nx, g)) as L. cbn beta in L.
    destruct (loop (ch * nu) _ _) as [c' g']. cbn [snd fst] in *. destruct L as [_ L].
    - split; [lia|exact g1].
    - intros i [c2 g3] Hi [E1 E2]. cbn [fst snd] in *. split; [lia|]. apply gm_set_entry; [exact E2| |lia]. unfold n_dec. lia.
    - apply gm_guard; [|apply Gr]. apply gm_set_entry; [exact L|unfold n_dec; lia|lia].
  Qed.

  (** *** the Jacobian of a constraint with n values *)
  Lemma glue_gm n Jr Js Jm Jc : gm Jr N n -> gm Js n (ph * nx) -> gm Jm n (ph * nu) -> gm Jc n 1 -> gm (glue junk d m n Jr Js Jm Jc) N n.
  Proof.
    intros G1 G2 G3 G4. unfold glue.
    assert (L1 : gm (loop ph (fun i J => set_middle_rows J (i * nx) nx (mtrans (block Js 0 (i * nx) (mrows Js) nx))) Jr) N n).
    { apply (loop_pres (fun J => gm J N n)); [exact G1|]. intros i J Hi GJ. pose proof (blk_le i ph nx Hi). apply gm_set_mid; [exact GJ| |unfold n_dec; lia].
      apply gm_trans. rewrite (proj1 G2). apply (gm_block _ n (ph * nx)); [exact G2|lia|lia]. }
    set (J1 := loop ph _ Jr) in *. clearbody J1.
    assert (L2 : gm (loop ph (fun i J => set_block J 0 (i * nu) (mcols J1) nu (block Jm 0 (i * nu) (mrows Jm) nu)) (mjunk junk n (ph * nu))) n (ph * nu)).
    { apply (loop_pres (fun J => gm J n (ph * nu))); [repeat split|]. intros i J Hi GJ. pose proof (blk_le i ph nu Hi). rewrite (proj1 (proj2 L1)), (proj1 G3).
      apply gm_set_block; [exact GJ| |lia|lia]. apply (gm_block _ n (ph * nu)); [exact G3|lia|lia]. }
    set (J2 := loop ph _ (mjunk junk n (ph * nu))) in *. clearbody J2.
    assert (L3 : gm (set_middle_rows J1 (ph * nx) (nu * ch) (mtrans (mmul J2 (mp_z2u m)))) N n).
    { apply gm_set_mid; [exact L1| |unfold n_dec; lia]. apply gm_trans. exact (gm_mul _ _ _ _ _ L2 (mi_z2u d m su sx HM)). }
    set (J3 := set_middle_rows J1 _ _ _) in *. clearbody J3. rewrite (proj1 L3).
    apply gm_set_mid; [exact L3|now apply gm_trans|unfold n_dec; lia].
  Qed.
  Lemma scale_rows_gm n J : gm J N n -> gm (scale_rows d m J) N n.
  Proof.
    intros G. unfold scale_rows. rewrite (proj1 (proj2 G)). apply (loop_pres (fun J => gm J N n)); [exact G|]. intros j J' Hj G'.
    pose proof (loop_inv (fun i st => fst st = i * nx /\ gm (snd st) N n) ph
      (fun _ '(ioff, J) => (ioff + nx, loop nx (fun ix J => set_entry J (ioff + ix) j (smul (ent J (ioff + ix) j) (ent (mp_st m) ix 0))) J)) (0, J')) as L.
    cbn beta in L. apply L.
    - split; [reflexivity|exact G'].
    - intros i [o J2] Hi [E1 E2]. cbn [fst snd] in *. split; [lia|]. apply (loop_pres (fun J => gm J N n)); [exact E2|].
      intros ix J3 Hx G3. pose proof (blk_le i ph nx Hi). apply gm_set_entry; [exact G3|unfold n_dec; lia|exact Hj].
  Qed.

  Lemma ieq_evaluate_gm c og : let e := ieq_evaluate junk d ni m c og x0 x in gm (fst e) ni 1 /\ gm (snd e) (N * ni) 1.
  Proof.
    unfold ieq_evaluate.
    assert (GXm : gm (unwrap_X d m x x0) (ph + 1) nx) by (apply (unwrap_X_ent d m su sx x x0 HM GX G0 P C0 C)).
    pose proof (unwrap_U_gm d m su sx x HM GX P C0 C) as GU.
    set (X := unwrap_X d m x x0) in *. set (U := unwrap_U d m x) in *. clearbody X U. set (e := unwrap_e x). clearbody e.
    assert (J1 : gm (fst (ieq_jx d ni c og X U e)) (ph + 1) nx /\ gm (snd (ieq_jx d ni c og X U e)) ni (ph * nx)).
    { unfold ieq_jx. apply (loop_pres (fun st => gm (fst st) (ph + 1) nx /\ gm (snd st) ni (ph * nx))); [split; [exact GXm|repeat split]|].
      intros i st Hi H. apply (loop_pres (fun st => gm (fst st) (ph + 1) nx /\ gm (snd st) ni (ph * nx))); [exact H|].
      intros j [a b] Hj [H1 H2]. cbn [fst snd] in *. split; [repeat apply gm_set_entry; (assumption || lia)|].
      apply gm_blkcol; [exact H2| |exact Hi|exact Hj]. apply gm_cdiff; apply gm_vec. }
    destruct (ieq_jx d ni c og X U e) as [X' Jx]. cbn [fst snd] in J1. destruct J1 as [_ J1].
    assert (J2 : gm (fst (ieq_ju d ni c og X' U e)) (ph + 1) nu /\ gm (snd (ieq_ju d ni c og X' U e)) ni (ph * nu)).
    { unfold ieq_ju. apply (loop_pres (fun st => gm (fst st) (ph + 1) nu /\ gm (snd st) ni (ph * nu))); [split; [exact GU|repeat split]|].
      intros i st Hi H. apply (loop_pres (fun st => gm (fst st) (ph + 1) nu /\ gm (snd st) ni (ph * nu))); [exact H|].
      intros j [a b] Hj [H1 H2]. cbn [fst snd] in *. split; [repeat apply gm_set_entry; (assumption || lia)|].
      apply gm_blkcol; [exact H2| |exact Hi|exact Hj]. apply gm_cdiff; apply gm_vec. }
    destruct (ieq_ju d ni c og X' U e) as [U' Jm]. cbn [fst snd] in J2. destruct J2 as [_ J2].
    cbn [fst snd]. split; [apply gm_vec|]. apply gm_flat, scale_rows_gm, glue_gm; [apply gm_junk|exact J1|exact J2|].
    unfold ieq_je. apply gm_cdiff; apply gm_vec.
  Qed.
  Lemma eqc_evaluate_gm c : let e := eqc_evaluate junk d ne m c x0 x in gm (fst e) ne 1 /\ gm (snd e) (N * ne) 1.
  Proof.
    unfold eqc_evaluate.
    assert (GXm : gm (unwrap_X d m x x0) (ph + 1) nx) by (apply (unwrap_X_ent d m su sx x x0 HM GX G0 P C0 C)).
    pose proof (unwrap_U_gm d m su sx x HM GX P C0 C) as GU.
    set (X := unwrap_X d m x x0) in *. set (U := unwrap_U d m x) in *. clearbody X U.
    assert (J1 : gm (fst (eqc_jx d ne c X U)) (ph + 1) nx /\ gm (snd (eqc_jx d ne c X U)) ne (ph * nx)).
    { unfold eqc_jx. apply (loop_pres (fun st => gm (fst st) (ph + 1) nx /\ gm (snd st) ne (ph * nx))); [split; [exact GXm|repeat split]|].
      intros i st Hi H. apply (loop_pres (fun st => gm (fst st) (ph + 1) nx /\ gm (snd st) ne (ph * nx))); [exact H|].
      intros j [a b] Hj [H1 H2]. cbn [fst snd] in *. split; [repeat apply gm_set_entry; (assumption || lia)|].
      apply gm_blkcol; [exact H2| |exact Hi|exact Hj]. apply gm_cdiff; apply gm_vec. }
    destruct (eqc_jx d ne c X U) as [X' Jx]. cbn [fst snd] in J1. destruct J1 as [_ J1].
    assert (J2 : let st := eqc_ju_inner d ne c (abs1 U) X' U (mzero ne (ph * nu)) in gm (fst st) (ph + 1) nu /\ gm (snd st) ne (ph * nu)).
    { cbn zeta. unfold eqc_ju_inner. apply (loop_pres (fun st => gm (fst st) (ph + 1) nu /\ gm (snd st) ne (ph * nu))); [split; [exact GU|repeat split]|].
      intros i st Hi H. apply (loop_pres (fun st => gm (fst st) (ph + 1) nu /\ gm (snd st) ne (ph * nu))); [exact H|].
      intros j [a b] Hj [H1 H2]. cbn [fst snd] in *. split; [repeat apply gm_set_entry; (assumption || lia)|].
      apply gm_blkcol; [exact H2| |lia|exact Hj]. apply gm_cdiff; apply gm_vec. }
    destruct (eqc_ju_inner d ne c (abs1 U) X' U (mzero ne (ph * nu))) as [U' Jm]. cbn [fst snd] in J2. destruct J2 as [GU' J2].
    assert (J3 : let st := eqc_ju_last d ne c (abs1 U) X' U' Jm in gm (fst st) (ph + 1) nu /\ gm (snd st) ne (ph * nu)).
    { cbn zeta. unfold eqc_ju_last. apply (loop_pres (fun st => gm (fst st) (ph + 1) nu /\ gm (snd st) ne (ph * nu))); [split; assumption|].
      intros j [a b] Hj [H1 H2]. cbn [fst snd] in *. split; [repeat apply gm_set_entry; (assumption || lia)|].
      apply gm_blkcol; [exact H2| |lia|exact Hj]. apply gm_cdiff; apply gm_vec. }
    destruct (eqc_ju_last d ne c (abs1 U) X' U' Jm) as [U'' Jmv]. cbn [fst snd] in J3. destruct J3 as [_ J3].
    cbn [fst snd]. split; [apply gm_vec|]. apply gm_flat, scale_rows_gm, glue_gm; [apply gm_junk|exact J1|exact J3|repeat split].
  Qed.

  (** *** dynamics *)
  Lemma dyn_jac_gm f a b p : gm a nx 1 -> gm b nu 1 -> gm (fst (dyn_jac d f a b p)) nx nx /\ gm (snd (dyn_jac d f a b p)) nx nu.
  Proof.
    intros _ _. unfold dyn_jac. cbn [fst snd]. split.
    - apply (loop_pres (fun J => gm J nx nx)); [repeat split|]. intros i J Hi GJ. apply gm_set_col; [exact GJ|apply gm_cdiff; apply gm_vec|exact Hi].
    - apply (loop_pres (fun J => gm J nx nu)); [repeat split|]. intros i J Hi GJ. apply gm_set_col; [exact GJ|apply gm_cdiff; apply gm_vec|exact Hi].
  Qed.
  Lemma set_blk_gm (J : mat F) ic w n i (B : mat F) : gm J (ph * nx) (n * w) -> gm B nx w -> ic + nx <= ph * nx -> i < n -> gm (set_blk d J ic w i B) (ph * nx) (n * w).
  Proof. intros GJ GB H1 H2. unfold set_blk. pose proof (blk_le i n w H2). apply gm_set_block; [exact GJ|exact GB|exact H1|lia]. Qed.
  Lemma seq_evaluate_gm f ts : let e := seq_evaluate junk d m f ts x0 x in gm (fst e) (ph * nx) 1 /\ gm (snd e) (N * (ph * nx)) 1.
  Proof.
    unfold seq_evaluate.
    assert (GXm : gm (unwrap_X d m x x0) (ph + 1) nx) by (apply (unwrap_X_ent d m su sx x x0 HM GX G0 P C0 C)).
    pose proof (unwrap_U_gm d m su sx x HM GX P C0 C) as GU.
    set (X := unwrap_X d m x x0) in *. set (U := unwrap_U d m x) in *. clearbody X U.
    pose proof (gm_diag _ _ (mi_inv d m su sx HM)) as GS. pose proof (gm_diag _ _ (mi_st d m su sx HM)) as GT. pose proof (mi_st d m su sx HM) as Gs.
    assert (GI : gm (mident nx nx : mat F) nx nx) by (repeat split).
    set (I := fun (i : nat) (st : nat * mat F * mat F * mat F) => let '(ic, ceq, Jx, Jm) := st in
      ic = i * nx /\ gm ceq (ph * nx) 1 /\ gm Jx (ph * nx) (ph * nx) /\ gm Jm (ph * nx) (ph * nu)).
    assert (L : I ph (loop ph (match ts with Some t => seq_body_cont d m f t X U | None => seq_body_disc d m f X U end)
        (0, mzero (ph * nx) 1, mzero (ph * nx) (ph * nx), mzero (ph * nx) (ph * nu)))).
    { apply (loop_inv I); [cbn; repeat split|]. intros i [[[ic ceq] Jx] Jm] Hi (-> & G1 & G2 & G3). pose proof (blk_le i ph nx Hi) as B.
      pose proof (gm_trans _ _ _ (gm_row U _ _ i GU ltac:(lia))) as Gu. pose proof (gm_trans _ _ _ (gm_row X _ _ i GXm ltac:(lia))) as Gx.
      pose proof (gm_trans _ _ _ (gm_row X _ _ (i + 1) GXm ltac:(lia))) as Gx1.
      destruct ts as [t|].
      - unfold seq_body_cont. destruct (dyn_jac_gm f _ _ i Gx Gu) as [A1 A2]. destruct (dyn_jac_gm f _ _ i Gx1 Gu) as [A3 A4].
        destruct (dyn_jac d f (mtrans (mrow X i)) (mtrans (mrow U i)) i) as [Ak Bk]. destruct (dyn_jac d f (mtrans (mrow X (i + 1))) (mtrans (mrow U i)) i) as [Ak1 Bk1]. cbn [fst snd] in *.
        unfold I. refine (conj _ (conj _ (conj _ _))); [lia| | |].
        + assert (Gc : gm (set_middle_rows ceq (i * nx) nx (msub (madd (mtrans (mrow X i)) (mscale (sdiv t s2) (madd (dyn_call d f (mtrans (mrow X i)) (mtrans (mrow U i)) i)
              (dyn_call d f (mtrans (mrow X (i + 1))) (mtrans (mrow U i)) i)))) (mtrans (mrow X (i + 1))))) (ph * nx) 1).
          { apply gm_set_mid; [exact G1| |lia]. apply gm_sub; [|exact Gx1]. apply gm_add; [exact Gx|]. apply gm_scale, gm_add; apply gm_vec. }
          set (c2 := set_middle_rows ceq _ _ _) in *. clearbody c2. apply gm_set_mid; [exact Gc| |lia]. apply gm_div; [|exact Gs]. apply (gm_mid _ (ph * nx) 1); [exact Gc|lia].
        + apply set_blk_gm; [| |lia|exact Hi].
          * destruct (Nat.ltb_spec 0 i); [|exact G2]. apply set_blk_gm; [exact G2| |lia|lia]. apply gm_add; [exact GI|].
            eapply gm_mul; [|exact GT]. eapply gm_mul; [apply gm_scale; exact GS|exact A1].
          * apply gm_add; [now apply gm_opp|]. eapply gm_mul; [|exact GT]. eapply gm_mul; [apply gm_scale; exact GS|exact A3].
        + apply set_blk_gm; [exact G3| |lia|exact Hi]. eapply gm_mul; [apply gm_scale; exact GS|now apply gm_add].
      - unfold seq_body_disc. destruct (dyn_jac_gm f _ _ i Gx Gu) as [A1 A2].
        destruct (dyn_jac d f (mtrans (mrow X i)) (mtrans (mrow U i)) i) as [Ak Bk]. cbn [fst snd] in *.
        unfold I. refine (conj _ (conj _ (conj _ _))); [lia| | |].
        + assert (Gc : gm (set_middle_rows ceq (i * nx) nx (msub (mtrans (mrow X (i + 1))) (dyn_call d f (mtrans (mrow X i)) (mtrans (mrow U i)) i))) (ph * nx) 1).
          { apply gm_set_mid; [exact G1| |lia]. apply gm_sub; [exact Gx1|apply gm_vec]. }
          set (c2 := set_middle_rows ceq _ _ _) in *. clearbody c2. apply gm_set_mid; [exact Gc| |lia]. apply gm_div; [|exact Gs]. apply (gm_mid _ (ph * nx) 1); [exact Gc|lia].
        + destruct (Nat.ltb_spec 0 i).
          * apply set_blk_gm; [|apply gm_opp; eapply gm_mul; [|exact GT]; eapply gm_mul; [exact GS|exact A1]|lia|lia]. apply set_blk_gm; [exact G2|exact GI|lia|exact Hi].
          * apply set_blk_gm; [exact G2|exact GI|lia|exact Hi].
        + apply set_blk_gm; [exact G3| |lia|exact Hi]. apply gm_opp. eapply gm_mul; [exact GS|exact A2]. }
    destruct (loop ph _ _) as [[[ic ceq] Jx] Jm]. destruct L as (_ & L1 & L2 & L3). cbn [fst snd]. split; [exact L1|].
    apply gm_flat, glue_gm; [repeat split|exact L2|exact L3|repeat split].
  Qed.
End Eval.
