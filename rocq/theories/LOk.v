(** Absence of undefined behaviour: every block write / product of the builder and the optimizer is in
    range when the arguments have the documented sizes. No scalar laws are used. *)
From Coq Require Import Bool Arith ZArith List Lia.
From Verif Require Import Scalar Sums Mat Slice Csc Builder BuilderEnt LMPC SpecLMPC LMPCRef.
Import ListNotations.

Section GM.
  Context {T : Type}.
  Implicit Types M B : mat T.
  Lemma gm_eq M r c r' c' : gm M r c -> r = r' -> c = c' -> gm M r' c'.
  Proof. now intros H -> ->. Qed.
  Lemma gm_sized M r c : gm M r c -> sized M r c.
  Proof. intros (A & B & _); split; assumption. Qed.
  Lemma gm_set_block M R C r c h w B : gm M R C -> gm B h w -> r + h <= R -> c + w <= C ->
    gm (set_block M r c h w B) R C.
  Proof. intros (A1 & A2 & A3) (B1 & B2 & B3) H1 H2. repeat split; cbn; try assumption.
    rewrite A1, A2, A3, B1, B2, B3, !Nat.eqb_refl. cbn.
    rewrite (proj2 (Nat.leb_le _ _) H1), (proj2 (Nat.leb_le _ _) H2). reflexivity. Qed.
  Lemma gm_block M R C r c h w : gm M R C -> r + h <= R -> c + w <= C -> gm (block M r c h w) h w.
  Proof. intros (A1 & A2 & A3) H1 H2. repeat split; cbn. rewrite A1, A2, A3. cbn.
    rewrite (proj2 (Nat.leb_le _ _) H1), (proj2 (Nat.leb_le _ _) H2). reflexivity. Qed.
  Lemma gm_mcol M R C j : gm M R C -> j < C -> gm (mcol M j) R 1.
  Proof. intros H Hj. unfold mcol. rewrite (proj1 H). eapply gm_block; [exact H|lia|lia]. Qed.
  Lemma gm_set_mcol M R C j V : gm M R C -> gm V R 1 -> j < C -> gm (set_mcol M j V) R C.
  Proof. intros H HV Hj. unfold set_mcol. rewrite (proj1 H). apply gm_set_block; try assumption; lia. Qed.
  Lemma gm_mrow M R C j : gm M R C -> j < R -> gm (mrow M j) 1 C.
  Proof. intros H Hj. unfold mrow. rewrite (proj1 (proj2 H)). eapply gm_block; [exact H|lia|lia]. Qed.
  Lemma gm_set_mrow M R C j V : gm M R C -> gm V 1 C -> j < R -> gm (set_mrow M j V) R C.
  Proof. intros H HV Hj. unfold set_mrow. rewrite (proj1 (proj2 H)). apply gm_set_block; try assumption; lia. Qed.
  Lemma gm_middle M R C r h : gm M R C -> r + h <= R -> gm (middle_rows M r h) h C.
  Proof. intros H Hj. unfold middle_rows. rewrite (proj1 (proj2 H)). eapply gm_block; [exact H|lia|lia]. Qed.
  Lemma gm_set_middle M R C r h B : gm M R C -> gm B h C -> r + h <= R -> gm (set_middle_rows M r h B) R C.
  Proof. intros H HB Hj. unfold set_middle_rows. rewrite (proj1 (proj2 H)). apply gm_set_block; try assumption; lia. Qed.
  Lemma gm_trans M R C : gm M R C -> gm (mtrans M) C R.
  Proof. intros (A & B & K); repeat split; assumption. Qed.
  Lemma gm_vcat A B a b C : gm A a C -> gm B b C -> gm (vcat A B) (a + b) C.
  Proof. intros (A1 & A2 & A3) (B1 & B2 & B3). repeat split; cbn; try congruence.
    rewrite A3, B3, A2, B2, Nat.eqb_refl. reflexivity. Qed.
  Lemma gm_hcat A B a b R : gm A R a -> gm B R b -> gm (hcat A B) R (a + b).
  Proof. intros (A1 & A2 & A3) (B1 & B2 & B3). repeat split; cbn; try congruence.
    rewrite A3, B3, A1, B1, Nat.eqb_refl. reflexivity. Qed.
  Lemma gm_flat M R C : gm M R C -> gm (mflat M) (R * C) 1.
  Proof. intros (A & B & K); repeat split; cbn; congruence. Qed.
  Lemma gm_const r c (v : T) : gm (mconst r c v) r c. Proof. repeat split. Qed.
  Lemma gm_junk g r c : gm (mjunk g r c : mat T) r c. Proof. repeat split. Qed.
  Lemma gm_loop n (body : nat -> mat T -> mat T) M r c :
    gm M r c -> (forall i M, i < n -> gm M r c -> gm (body i M) r c) -> gm (loop n body M) r c.
  Proof. intros HM. induction n as [|n IH]; intros Hb; cbn [loop]; [exact HM|]. apply Hb; [lia|]. apply IH.
    intros i M' Hi. apply Hb. lia. Qed.
End GM.
Section GMN.
  Context {F} {SO : ScalarOps F}.
  Implicit Types A B : mat F.
  Lemma gm_zero r c : gm (mzero r c : mat F) r c. Proof. repeat split. Qed.
  Lemma gm_ident r c : gm (mident r c : mat F) r c. Proof. repeat split. Qed.
  Lemma gm_mul A B r k c : gm A r k -> gm B k c -> gm (mmul A B) r c.
  Proof. intros (A1 & A2 & A3) (B1 & B2 & B3). repeat split; cbn; try congruence.
    rewrite A3, B3, A2, B1, Nat.eqb_refl. reflexivity. Qed.
  Lemma gm_add A B r c : gm A r c -> gm B r c -> gm (madd A B) r c.
  Proof. intros (A1 & A2 & A3) (B1 & B2 & B3). repeat split; cbn; try congruence.
    rewrite A3, B3, A1, B1, A2, B2, !Nat.eqb_refl. reflexivity. Qed.
  Lemma gm_opp A r c : gm A r c -> gm (mopp A) r c.
  Proof. intros (A1 & A2 & A3). repeat split; assumption. Qed.
  Lemma gm_diag A r : gm A r 1 -> gm (mdiag A) r r.
  Proof. intros (A1 & A2 & A3). repeat split; cbn; try assumption. now rewrite A2, A3. Qed.
  Lemma gm_kron A B a b a' b' : gm A a b -> gm B a' b' -> gm (mkron A B) (a * a') (b * b').
  Proof. intros (A1 & A2 & A3) (B1 & B2 & B3). repeat split; cbn; try congruence. now rewrite A3, B3. Qed.
  Lemma gm_eadd A B r c : gm A r c -> gm B r c -> gm (meadd (F:=F) (mfin A) B) r c.
  Proof. intros (A1 & A2 & A3) (B1 & B2 & B3). repeat split; cbn; try congruence.
    rewrite A3, B3, A1, B1, A2, B2, !Nat.eqb_refl. reflexivity. Qed.
  Lemma gm_eadd' (A : mat (ext F)) B r c : gm A r c -> gm B r c -> gm (meadd A B) r c.
  Proof. intros (A1 & A2 & A3) (B1 & B2 & B3). repeat split; cbn; try congruence.
    rewrite A3, B3, A1, B1, A2, B2, !Nat.eqb_refl. reflexivity. Qed.
  Lemma gm_fin A r c : gm A r c -> gm (mfin A) r c.
  Proof. intros (A1 & A2 & A3). repeat split; assumption. Qed.
End GMN.

Ltac sde := first [reflexivity | lia].
(** prove [gm e r c] following the structure of e *)
Ltac gmt :=
  lazymatch goal with
  | |- gm (set_block _ _ _ _ _ _) _ _ => apply gm_set_block; [gmt|gmt|try lia|try lia]
  | |- gm (set_mcol _ _ _) _ _ => apply gm_set_mcol; [gmt|gmt|try lia]
  | |- gm (set_mrow _ _ _) _ _ => apply gm_set_mrow; [gmt|gmt|try lia]
  | |- gm (set_middle_rows _ _ _ _) _ _ => apply gm_set_middle; [gmt|gmt|try lia]
  | |- gm (set_entry _ _ _ _) _ _ => unfold set_entry; gmt
  | |- gm (if ?b then _ else _) _ _ => destruct b eqn:?; gmt
  | |- gm (block _ _ _ _ _) _ _ => eapply gm_eq; [eapply gm_block; [gmt|try lia|try lia]|sde|sde]
  | |- gm (mcol _ _) _ _ => eapply gm_eq; [eapply gm_mcol; [gmt|try lia]|sde|sde]
  | |- gm (mrow _ _) _ _ => eapply gm_eq; [eapply gm_mrow; [gmt|try lia]|sde|sde]
  | |- gm (middle_rows _ _ _) _ _ => eapply gm_eq; [eapply gm_middle; [gmt|try lia]|sde|sde]
  | |- gm (mtrans _) _ _ => eapply gm_eq; [eapply gm_trans; gmt|sde|sde]
  | |- gm (vcat _ _) _ _ => eapply gm_eq; [eapply gm_vcat; gmt|sde|sde]
  | |- gm (hcat _ _) _ _ => eapply gm_eq; [eapply gm_hcat; gmt|sde|sde]
  | |- gm (mflat _) _ _ => eapply gm_eq; [eapply gm_flat; gmt|sde|sde]
  | |- gm (mconst _ _ _) _ _ => eapply gm_eq; [eapply gm_const|sde|sde]
  | |- gm (mjunk _ _ _) _ _ => eapply gm_eq; [eapply gm_junk|sde|sde]
  | |- gm (mzero _ _) _ _ => eapply gm_eq; [eapply gm_zero|sde|sde]
  | |- gm (mident _ _) _ _ => eapply gm_eq; [eapply gm_ident|sde|sde]
  | |- gm (mmul _ _) _ _ => eapply gm_eq; [eapply gm_mul; gmt|sde|sde]
  | |- gm (madd _ _) _ _ => eapply gm_eq; [eapply gm_add; gmt|sde|sde]
  | |- gm (mopp _) _ _ => apply gm_opp; gmt
  | |- gm (mdiag _) _ _ => eapply gm_eq; [eapply gm_diag; gmt|sde|sde]
  | |- gm (mkron _ _) _ _ => eapply gm_eq; [eapply gm_kron; gmt|sde|sde]
  | |- gm (meadd _ _) _ _ => apply gm_eadd'; gmt
  | |- gm (mfin _) _ _ => apply gm_fin; gmt
  | |- gm (loop _ _ _) _ _ => apply gm_loop; [gmt|intros ?i ?M ?Hi ?HM; gmt]
  | |- _ => first [eassumption | eapply gm_eq; [eassumption|sde|sde]]
  end.

Section Ok.
  Context {F : Type} {SO : ScalarOps F}.
  Variable junk : nat -> nat -> F.
  Variable ejunk : nat -> nat -> ext F.
  Variable d : dims.
  Notation nx := (d_nx d). Notation nu := (d_nu d). Notation ndu := (d_ndu d).
  Notation ny := (d_ny d). Notation ph := (d_ph d). Notation ch := (d_ch d).
  Notation w := (nu + nx).
  Notation N1 := ((ph + 1) * (nu + nx)).

  Record ssg (ss : ssys F) : Prop := {
    g_A : gm (ssA ss) w w; g_B : gm (ssB ss) w nu; g_C : gm (ssC ss) (nu + ny) w;
    g_Bv : gm (ssBv ss) w ndu; g_Dv : gm (ssDv ss) (nu + ny) ndu }.
  Record wg (ww : weights F) : Prop := {
    g_O : gm (wOutput ww) ny (ph + 1); g_U : gm (wU ww) nu (ph + 1); g_DU : gm (wDeltaU ww) nu ph }.
  Record limg (l : limits F) : Prop := {
    g_mnX : gm (minX l) nx (ph + 1); g_mxX : gm (maxX l) nx (ph + 1);
    g_mnY : gm (minY l) ny (ph + 1); g_mxY : gm (maxY l) ny (ph + 1);
    g_mnU : gm (minU l) nu ph; g_mxU : gm (maxU l) nu ph;
    g_sMn : gm (sMin l) (ph + 1) 1; g_sMx : gm (sMax l) (ph + 1) 1;
    g_sMu : gm (sMultiplier l) (ph + 1) N1 }.
  Record restg (b : builder F) : Prop := {
    g_leq : gm (b_leq b) (n_eq d) 1; g_ueq : gm (b_ueq b) (n_eq d) 1;
    g_lin : gm (b_lineq b) (n_ineq d) 1; g_uin : gm (b_uineq b) (n_ineq d) 1;
    g_off : gm (b_off b) (n_ineq d) 1;
    g_q : gm (pq (b_prob b)) (n_var d) 1;
    g_l : gm (pl (b_prob b)) (n_con d) 1; g_u : gm (pu (b_prob b)) (n_con d) 1 }.
  Record bgood (b : builder F) : Prop := {
    bg_ss : ssg (b_ss b); bg_w : wg (b_w b); bg_lim : limg (b_lim b); bg_r : restg b;
    bg_P : gm (pP (b_prob b)) (n_var d) (n_var d); bg_A : gm (pA (b_prob b)) (n_con d) (n_var d) }.

  Hypothesis ph_pos : 0 < ph.

  Lemma build_P_gm ss ww : ssg ss -> wg ww -> gm (build_P d ss ww) (n_var d) (n_var d).
  Proof.
    intros [] []. unfold build_P.
    assert (G : forall k, k <= ph + 1 ->
      gm (fst (loop k (build_P_body d ss ww) (mzero (nu + ny) (nu + ny), mzero (n_var d) (n_var d)))) (nu + ny) (nu + ny) /\
      gm (snd (loop k (build_P_body d ss ww) (mzero (nu + ny) (nu + ny), mzero (n_var d) (n_var d)))) (n_var d) (n_var d)).
    { induction k as [|k IH]; intros Hk; [cbn [loop fst snd]; split; gmt|]. cbn [loop].
      destruct (IH ltac:(lia)) as [I1 I2]. destruct (loop k _ _) as [wE P]. cbn [fst snd] in *.
      unfold build_P_body. cbn [fst snd]. pose proof (blk_le k (ph + 1) w ltac:(lia)).
      assert (gm (set_block (set_block wE 0 0 ny ny (mdiag (mcol (wOutput ww) k))) ny ny nu nu (mdiag (mcol (wU ww) k)))
                (nu + ny) (nu + ny)) by gmt.
      split; [assumption|].
      destruct (Nat.ltb_spec k ph); unfold n_var in *.
      - pose proof (blk_le k ph nu ltac:(lia)). gmt.
      - gmt. }
    apply (G (ph + 1)). lia.
  Qed.
  Lemma build_Aeq_gm ss : ssg ss -> gm (build_Aeq junk d ss) N1 (N1 + ph * nu).
  Proof. intros []. unfold build_Aeq. gmt. Qed.
  Lemma build_Aineq_gm ss l : ssg ss -> limg l -> gm (build_Aineq d ss l) (n_ineq d) (n_var d).
  Proof. intros [] []. unfold build_Aineq, n_ineq, n_var. gmt. Qed.
  Lemma build_A_gm ss l : ssg ss -> limg l -> gm (build_A junk d ss l) (n_con d) (n_var d).
  Proof.
    intros H1 H2. unfold build_A. pose proof (build_Aeq_gm ss H1). pose proof (build_Aineq_gm ss l H1 H2).
    unfold n_con, n_eq, n_ineq, n_var in *. gmt.
  Qed.
  Lemma build_eX_gm bX bU : gm bX nx (ph + 1) -> gm bU nu ph -> gm (build_eX ejunk d bX bU) N1 1.
  Proof.
    intros HX HU. unfold build_eX. apply gm_loop; [gmt|]. intros i M Hi HM.
    pose proof (blk_le i (ph + 1) w Hi). cbn zeta.
    assert (gm (if i =? ph then mcol bU (i - 1) else mcol bU i) nu 1).
    { destruct (Nat.eqb_spec i ph); gmt. }
    apply gm_set_middle; [assumption| |lia].
    eapply gm_eq; [eapply gm_vcat; [gmt|eassumption]|lia|lia].
  Qed.
  Lemma build_ineq_gm free eX bY bS prev : gm eX N1 1 -> gm bY ny (ph + 1) -> gm bS (ph + 1) 1 ->
    gm prev (n_ineq d) 1 -> gm (build_ineq d free eX bY bS prev) (n_ineq d) 1.
  Proof.
    intros H1 H2 H3 H4. unfold build_ineq. unfold n_ineq in *.
    assert (gm (set_middle_rows (set_middle_rows prev 0 N1 eX) N1 ((ph + 1) * ny) (mflat bY)) (N1 + ((ph + 1) * ny + ph * nu + (ph + 1))) 1).
    { apply gm_set_middle; [gmt| |lia]. eapply gm_eq; [apply gm_flat; eassumption|lia|lia]. }
    apply gm_set_middle; [|assumption|lia].
    apply gm_loop; [assumption|]. intros i M Hi HM. pose proof (blk_le i ph nu Hi).
    apply gm_set_middle; [assumption|gmt|lia].
  Qed.

  Lemma build_good b : ssg (b_ss b) -> wg (b_w b) -> limg (b_lim b) -> restg b -> bgood (build junk ejunk d b).
  Proof.
    intros H1 H2 H3 H4. pose proof H3 as []. pose proof H4 as [].
    split; try assumption.
    - split; try assumption; cbn [build b_lineq b_uineq].
      + apply build_ineq_gm; try assumption. now apply build_eX_gm.
      + apply build_ineq_gm; try assumption. now apply build_eX_gm.
    - now apply build_P_gm.
    - now apply build_A_gm.
  Qed.

  Lemma bgood_init : bgood (b_init junk ejunk d).
  Proof. unfold b_init. apply build_good; split; cbn; repeat split. Qed.

  Lemma get_body_gm ss ww yR uR duR um0 : ssg ss -> wg ww ->
    gm yR ny ph -> gm uR nu ph -> gm duR nu ph -> gm um0 ndu ph ->
    forall k q0 l0 o0, gm q0 (n_var d) 1 -> gm l0 (n_eq d) 1 -> gm o0 (n_ineq d) 1 -> k <= ph + 1 ->
    let st := loop k (get_body d ss ww yR uR duR um0) (mzero (ny + nu) (ny + nu), q0, l0, o0) in
    gm (fst (fst (fst st))) (ny + nu) (ny + nu) /\ gm (snd (fst (fst st))) (n_var d) 1 /\
    gm (snd (fst st)) (n_eq d) 1 /\ gm (snd st) (n_ineq d) 1.
  Proof.
    intros [] [] HY HU HDU HM k q0 l0 o0 Q0 L0 O0. induction k as [|k IH]; intros Hk; cbn zeta.
    - cbn [loop fst snd]. repeat split; try assumption; try apply Q0; try apply L0; apply O0.
    - cbn [loop]. specialize (IH ltac:(lia)). cbn zeta in IH.
      destruct (loop k _ _) as [[[wE q] leq] off]. cbn [fst snd] in IH. destruct IH as (I1 & I2 & I3 & I4).
      unfold get_body. cbn [fst snd].
      pose proof (blk_le k (ph + 1) w ltac:(lia)). pose proof (blk_le k (ph + 1) ny ltac:(lia)).
      set (c := if k =? 0 then 0 else k - 1).
      assert (Hc : c < ph) by (unfold c; destruct (Nat.eqb_spec k 0); lia).
      set (wE' := set_block (set_block wE _ _ _ _ _) _ _ _ _ _).
      assert (I1' : gm wE' (ny + nu) (ny + nu)) by (unfold wE'; gmt).
      assert (EE : gm (madd (mopp (vcat (mcol yR c) (mcol uR c))) (mmul (ssDv ss) (mcol um0 c))) (ny + nu) 1).
      { apply gm_add; [gmt|]. eapply gm_eq; [eapply gm_mul; [eassumption|gmt]|lia|lia]. }
      assert (CW : gm (mmul (mtrans (ssC ss)) wE') (nx + nu) (ny + nu)).
      { eapply gm_eq; [eapply gm_mul; [apply gm_trans; eassumption|eapply gm_eq; [exact I1'|lia|reflexivity]]|lia|lia]. }
      unfold n_var, n_eq, n_ineq in *.
      assert (Q1 : gm (set_middle_rows q (k * (nx + nu)) (nx + nu) (mmul (mmul (mtrans (ssC ss)) wE')
         (madd (mopp (vcat (mcol yR c) (mcol uR c))) (mmul (ssDv ss) (mcol um0 c))))) (N1 + ph * nu) 1).
      { apply gm_set_middle; [assumption| |lia]. eapply gm_mul; eassumption. }
      split; [assumption|]. split; [|split].
      + destruct (Nat.ltb_spec k ph); [|exact Q1]. pose proof (blk_le k ph nu ltac:(lia)).
        apply gm_set_middle; [exact Q1|gmt|lia].
      + destruct (Nat.ltb_spec 0 k); [|exact I3]. gmt.
      + gmt.
  Qed.

  Lemma get_good b x0 u0 yR uR duR um0 : bgood b ->
    gm x0 nx 1 -> gm u0 nu 1 -> gm yR ny ph -> gm uR nu ph -> gm duR nu ph -> gm um0 ndu ph ->
    bgood (get d b x0 u0 yR uR duR um0).
  Proof.
    intros [S W L [] P A] X U HY HU HDU HM. unfold get.
    pose proof (get_body_gm (b_ss b) (b_w b) yR uR duR um0 S W HY HU HDU HM (ph + 1)
      (mzero (mrows (pq (b_prob b))) (mcols (pq (b_prob b)))) (mzero (mrows (b_leq b)) (mcols (b_leq b)))
      (mzero (mrows (b_off b)) (mcols (b_off b)))) as G.
    cbn zeta in G. destruct (loop (ph + 1) _ _) as [[[wE q] leq] off]. cbn [fst snd] in G.
    destruct G as (_ & G2 & G3 & G4); [..|lia|].
    1-3: eapply gm_eq; [apply gm_zero| |]; [apply g_q0 || apply g_leq0 || apply g_off0|apply g_q0 || apply g_leq0 || apply g_off0].
    pose proof (blk_le 0 (ph + 1) w ltac:(lia)).
    assert (LL : gm (set_middle_rows (set_middle_rows leq 0 nx (mopp x0)) nx nu (mopp u0)) (n_eq d) 1).
    { unfold n_eq in *. gmt. }
    split; cbn [b_ss b_w b_lim b_prob pP pA]; try assumption.
    split; cbn [b_leq b_ueq b_lineq b_uineq b_off b_prob pq pl pu]; try assumption.
    - apply gm_set_middle; [apply gm_set_middle|..].
      + eapply gm_eq; [apply gm_const|apply g_l0|apply g_l0].
      + apply gm_fin. exact LL.
      + unfold n_con, n_eq. lia.
      + apply gm_eadd'; [eapply gm_eq; [exact g_lin0|unfold n_ineq; lia|reflexivity]|eapply gm_eq; [exact G4|unfold n_ineq; lia|reflexivity]].
      + unfold n_con, n_eq, n_ineq. lia.
    - apply gm_set_middle; [apply gm_set_middle|..].
      + eapply gm_eq; [apply gm_const|apply g_u0|apply g_u0].
      + apply gm_fin. exact LL.
      + unfold n_con, n_eq. lia.
      + apply gm_eadd'; [eapply gm_eq; [exact g_uin0|unfold n_ineq; lia|reflexivity]|eapply gm_eq; [exact G4|unfold n_ineq; lia|reflexivity]].
      + unfold n_con, n_eq, n_ineq. lia.
  Qed.

  (** *** setters *)
  Lemma restg_with_ss b ss : restg b -> restg (with_ss b ss). Proof. now intros []; split. Qed.
  Lemma restg_with_w b ww : restg b -> restg (with_w b ww). Proof. now intros []; split. Qed.
  Lemma restg_with_lim b l : restg b -> restg (with_lim b l). Proof. now intros []; split. Qed.
  Lemma good_ss b ss : bgood b -> ssg ss -> bgood (build junk ejunk d (with_ss b ss)).
  Proof. intros [] H. apply build_good; try assumption. now apply restg_with_ss. Qed.
  Lemma good_w b ww : bgood b -> wg ww -> bgood (build junk ejunk d (with_w b ww)).
  Proof. intros [] H. apply build_good; try assumption. now apply restg_with_w. Qed.
  Lemma good_lim b l : bgood b -> limg l -> bgood (build junk ejunk d (with_lim b l)).
  Proof. intros [] H. apply build_good; try assumption. now apply restg_with_lim. Qed.

  Lemma setStateModel_good (A B C : mat F) b : bgood b -> gm A nx nx -> gm B nx nu -> gm C ny nx ->
    bgood (b_setStateModel junk ejunk d A B C b).
  Proof.
    intros H HA HB HC. unfold b_setStateModel. apply good_ss; [exact H|].
    destruct H as [[] _ _ _ _ _]. split; cbn [ssA ssB ssC ssBv ssDv]; try assumption; gmt.
  Qed.
  Lemma setExo_good (Bd Dd : mat F) b : bgood b -> gm Bd nx ndu -> gm Dd ny ndu ->
    bgood (b_setExogenousInput junk ejunk d Bd Dd b).
  Proof.
    intros H HA HB. unfold b_setExogenousInput. apply good_ss; [exact H|].
    destruct H as [[] _ _ _ _ _]. split; cbn [ssA ssB ssC ssBv ssDv]; try assumption.
    - apply gm_set_block; try assumption; try lia. eapply gm_eq; [apply gm_zero|apply g_Bv0|apply g_Bv0].
    - apply gm_set_block; try assumption; try lia. eapply gm_eq; [apply gm_zero|apply g_Dv0|apply g_Dv0].
  Qed.
  Lemma set_step_gm {T} (M : mat T) n i v : gm M n (ph + 1) -> gm v n 1 -> i < ph -> gm (set_step M n i v) n (ph + 1).
  Proof. intros. unfold set_step. gmt. Qed.
  Lemma set_horizon_gm (M : mat (ext F)) n V : gm M n (ph + 1) -> gm V n ph -> gm (set_horizon d M n V) n (ph + 1).
  Proof. intros. unfold set_horizon. gmt. Qed.
  Lemma set_inputs_gm (M V : mat (ext F)) : ch = ph -> gm M nu ph -> gm V nu ch -> gm (set_inputs d M V) nu ph.
  Proof. intros E H1 H2. unfold set_inputs. rewrite (proj2 (Nat.ltb_ge ch ph)) by lia. gmt. Qed.
  Lemma mult_gm (M X U : mat F) : gm M (ph + 1) N1 -> gm X nx 1 -> gm U nu 1 -> gm (set_multiplier d M X U) (ph + 1) N1.
  Proof. intros. unfold set_multiplier. apply gm_loop; [assumption|]. intros i M' Hi HM.
    pose proof (blk_le i (ph + 1) (nx + nu) Hi). gmt. Qed.
  Lemma objMat_good (a e f : mat F) b : bgood b -> gm a ny ph -> gm e nu ph -> gm f nu ph ->
    bgood (b_setObjectiveMat junk ejunk d a e f b).
  Proof.
    intros H HA HB HC. unfold b_setObjectiveMat. apply good_w; [exact H|].
    destruct H as [_ [] _ _ _ _]. split; cbn [wOutput wU wDeltaU]; gmt.
  Qed.
  Lemma objStep_good i (a e f : mat F) b : i < ph -> bgood b -> gm a ny 1 -> gm e nu 1 -> gm f nu 1 ->
    bgood (b_setObjectiveStep junk ejunk d i a e f b).
  Proof.
    intros Hi H HA HB HC. unfold b_setObjectiveStep. apply good_w; [exact H|].
    destruct H as [_ [] _ _ _ _]. split; cbn [wOutput wU wDeltaU].
    - now apply set_step_gm.
    - now apply set_step_gm.
    - gmt.
  Qed.
  Lemma xbMat_good (mn mx : mat (ext F)) b : bgood b -> gm mn nx ph -> gm mx nx ph -> bgood (b_setStateBoundsMat junk ejunk d mn mx b).
  Proof. intros H ? ?. apply good_lim; [exact H|]. destruct H as [_ _ [] _ _ _]. split; cbn; try assumption; now apply set_horizon_gm. Qed.
  Lemma ybMat_good (mn mx : mat (ext F)) b : bgood b -> gm mn ny ph -> gm mx ny ph -> bgood (b_setOutputBoundsMat junk ejunk d mn mx b).
  Proof. intros H ? ?. apply good_lim; [exact H|]. destruct H as [_ _ [] _ _ _]. split; cbn; try assumption; now apply set_horizon_gm. Qed.
  Lemma ubMat_good (mn mx : mat (ext F)) b : ch = ph -> bgood b -> gm mn nu ch -> gm mx nu ch -> bgood (b_setInputBoundsMat junk ejunk d mn mx b).
  Proof. intros E H ? ?. apply good_lim; [exact H|]. destruct H as [_ _ [] _ _ _]. split; cbn; try assumption; now apply set_inputs_gm. Qed.
  Lemma xbStep_good i (mn mx : mat (ext F)) b : i < ph -> bgood b -> gm mn nx 1 -> gm mx nx 1 -> bgood (b_setStateBoundsStep junk ejunk d i mn mx b).
  Proof. intros Hi H ? ?. apply good_lim; [exact H|]. destruct H as [_ _ [] _ _ _]. split; cbn; try assumption; now apply set_step_gm. Qed.
  Lemma ybStep_good i (mn mx : mat (ext F)) b : i < ph -> bgood b -> gm mn ny 1 -> gm mx ny 1 -> bgood (b_setOutputBoundsStep junk ejunk d i mn mx b).
  Proof. intros Hi H ? ?. apply good_lim; [exact H|]. destruct H as [_ _ [] _ _ _]. split; cbn; try assumption; now apply set_step_gm. Qed.
  Lemma ubStep_good i (mn mx : mat (ext F)) b : i < ph -> bgood b -> gm mn nu 1 -> gm mx nu 1 -> bgood (b_setInputBoundsStep junk ejunk d i mn mx b).
  Proof. intros Hi H ? ?. apply good_lim; [exact H|]. destruct H as [_ _ [] _ _ _]. split; cbn [minX maxX minY maxY minU maxU sMin sMax sMultiplier]; try assumption; gmt. Qed.
  Lemma scStep_good i mn mx (X U : mat F) b : i < ph -> bgood b -> gm X nx 1 -> gm U nu 1 -> bgood (b_setScalarStep junk ejunk d i mn mx X U b).
  Proof. intros Hi H ? ?. apply good_lim; [exact H|]. destruct H as [_ _ [] _ _ _].
    split; cbn [minX maxX minY maxY minU maxU sMin sMax sMultiplier]; try assumption; try gmt. now apply mult_gm. Qed.
  Lemma scMat_good (mn mx : mat (ext F)) (X U : mat F) b : bgood b -> gm mn ph 1 -> gm mx ph 1 -> gm X nx 1 -> gm U nu 1 -> bgood (b_setScalarMat junk ejunk d mn mx X U b).
  Proof. intros H ? ? ? ?. apply good_lim; [exact H|]. destruct H as [_ _ [] _ _ _].
    split; cbn [minX maxX minY maxY minU maxU sMin sMax sMultiplier]; try assumption; try gmt. now apply mult_gm. Qed.
  Lemma replicate_gm {T} (g : nat -> nat -> T) n k v : gm v n 1 -> gm (replicate g n k v) n k.
  Proof. intros. unfold replicate. gmt. Qed.

  (** *** the whole controller *)
  Record ogood (o : lopt F) : Prop := {
    og_y : gm (o_yref o) ny ph; og_u : gm (o_uref o) nu ph; og_du : gm (o_duref o) nu ph; og_d : gm (o_dist o) ndu ph;
    og_cmd : gm (r_cmd (o_res o)) nu 1; og_st : gm (q_state (o_seq o)) (ph + 1) nx;
    og_out : gm (q_output (o_seq o)) (ph + 1) ny; og_in : gm (q_input (o_seq o)) (ph + 1) nu;
    og_warm : o_wx o = [] \/ o_wy o = [] \/ (n_var d <= length (o_wx o) /\ n_con d <= length (o_wy o)) }.
  Record lgood (s : lmpc F) : Prop := { lg_b : bgood (l_b s); lg_o : ogood (l_o s) }.

  Lemma b_ok_good b : bgood b -> b_ok b = true.
  Proof.
    intros [[] [] [] [] P A]. unfold b_ok.
    repeat (apply andb_true_iff; split); match goal with H : gm ?M _ _ |- mok ?M = true => exact (proj2 (proj2 H)) end.
  Qed.
  Lemma l_ok_good s : lgood s -> l_ok s = true.
  Proof.
    intros [B []]. unfold l_ok, o_ok. rewrite b_ok_good by assumption. cbn [andb].
    repeat (apply andb_true_iff; split); match goal with H : gm ?M _ _ |- mok ?M = true => exact (proj2 (proj2 H)) end.
  Qed.
  Lemma finish_good s : lgood s -> finish s = Ok (s, RBool true).
  Proof. intros H. unfold finish. now rewrite l_ok_good. Qed.
  Lemma lgood_init : lgood (l_init junk ejunk d).
  Proof. split; [exact bgood_init|]. split; cbn; try (repeat split; reflexivity). now left. Qed.

  Notation op_safe := (SpecLMPC.op_safe d).
  Hypothesis ch_le : ch <= ph.
  Hypothesis ph_int : (Z.of_nat ph < 1073741824)%Z.

  Lemma slice_check_good H sl : H <= ph -> slice_int sl -> slice_safe sl -> slice_unset sl = false ->
    slice_check (Z.of_nat H) sl = Ok false \/
    (slice_check (Z.of_nat H) sl = Ok true /\ exists l, slice_steps sl = Some l /\ forall i, In i l -> i < H).
  Proof.
    unfold slice_int, is_int, slice_safe, slice_check. rewrite !andb_true_iff, !Z.leb_le.
    unfold int_min, int_max. intros HH [I1 I2] [S|S] N; [congruence|].
    destruct (Z.geb_spec (sl_start sl) (sl_end sl)) as [A|A]; [now left|].
    destruct (Z.gtb_spec (sl_start sl) (Z.of_nat H)) as [B|B]; [now left|].
    destruct (Z.gtb_spec (sl_end sl) (Z.of_nat H)) as [C|C]; [now left|].
    destruct S as [S|S]; [lia|].
    assert (E : is_int (sl_start sl + sl_end sl) = true).
    { unfold is_int. rewrite andb_true_iff, !Z.leb_le. unfold int_min, int_max. lia. }
    rewrite E.
    destruct (Z.gtb_spec (sl_start sl + sl_end sl) (Z.of_nat H)) as [D|D]; [now left|]. right. split; [reflexivity|].
    unfold slice_steps. rewrite (proj2 (Z.ltb_ge (sl_end sl) 0)) by lia.
    destruct (Z.ltb_spec (sl_start sl) 0).
    - eexists; split; [reflexivity|]. intros i [].
    - eexists; split; [reflexivity|]. intros i Hi. rewrite in_seq in Hi. lia.
  Qed.

  Lemma fold_good (one : nat -> lmpc F -> lmpc F) H l : forall s, lgood s ->
    (forall i s, i < H -> lgood s -> lgood (one i s)) -> (forall i, In i l -> i < H) ->
    lgood (fold_left (fun s i => one i s) l s).
  Proof.
    induction l as [|i l IH]; intros s Hs Ho Hl; cbn [fold_left]; [exact Hs|]. apply IH; [|exact Ho|].
    - apply Ho; [apply Hl; now left|exact Hs].
    - intros k Hk. apply Hl. now right.
  Qed.

  Lemma on_slice_good H sl whole one s : H <= ph -> slice_int sl -> slice_safe sl -> lgood s ->
    (slice_unset sl = true -> lgood (whole s)) -> (forall i s, i < H -> lgood s -> lgood (one i s)) ->
    exists s' r, on_slice H sl whole one s = Ok (s', r) /\ lgood s'.
  Proof.
    intros HH HI HS Hs Hw Ho. unfold on_slice. destruct (slice_unset sl) eqn:U.
    - rewrite finish_good by auto. eexists _, _. split; [reflexivity|auto].
    - destruct (slice_check_good H sl HH HI HS U) as [->|[-> (l & -> & Hl)]].
      + eexists _, _. split; [reflexivity|exact Hs].
      + rewrite finish_good by (eapply fold_good; eauto). eexists _, _. split; [reflexivity|]. eapply fold_good; eauto.
  Qed.

  Lemma lgood_b s b : lgood s -> bgood b -> lgood (mkL b (l_o s)).
  Proof. intros [] H. now split. Qed.
  Lemma lgood_refs s (y u du : mat F) : lgood s -> gm y ny ph -> gm u nu ph -> gm du nu ph -> lgood (upd_refs y u du s).
  Proof. intros [B []] ? ? ?. split; [exact B|]. split; assumption. Qed.
  Lemma lgood_dist s (D : mat F) : lgood s -> gm D ndu ph -> lgood (upd_dist D s).
  Proof. intros [B []] ?. split; [exact B|]. split; assumption. Qed.

  Lemma l_call_dims s x0 u0 : lgood s -> cl_n (l_call d s x0 u0) = n_var d /\ cl_m (l_call d s x0 u0) = n_con d.
  Proof.
    intros [[] _]. unfold l_call, l_built, get. cbn [cl_n cl_m].
    destruct (loop _ _ _) as [[[? ?] ?] ?]. cbn [b_prob pP pA]. split; [apply bg_P0|apply bg_A0].
  Qed.
  Lemma seq_state_gm x (M : mat F) : gm M (ph + 1) nx -> gm (seq_state d x M) (ph + 1) nx.
  Proof. intros. unfold seq_state. gmt. Qed.
  Lemma seq_input_gm x (M : mat F) : gm M (ph + 1) nu -> gm (seq_input d x M) (ph + 1) nu.
  Proof. intros. unfold seq_input. gmt. Qed.
  Lemma seq_output_gm b (st ds M : mat F) : bgood b -> gm st (ph + 1) nx -> gm ds ndu ph -> gm M (ph + 1) ny ->
    gm (seq_output d b st ds M) (ph + 1) ny.
  Proof. intros [[] _ _ _ _ _] ? ? ?. unfold seq_output, mapToOutput. apply gm_loop; [assumption|]. intros i M' Hi HM.
    assert ((if i =? 0 then 0 else i - 1) < ph) by (destruct (Nat.eqb_spec i 0); lia). gmt. Qed.

  Theorem l_step_safe s op : lgood s -> op_safe op ->
    exists s' r, l_step junk ejunk d s op = Ok (s', r) /\ lgood s'.
  Proof.
    intros Hs Ho. pose proof Hs as [HB HO].
    assert (FIN : forall s', lgood s' -> exists s'' r, finish s' = Ok (s'', r) /\ lgood s'').
    { intros s' H. rewrite finish_good by assumption. eauto. }
    assert (KEEP : forall r : ret F, exists s' r', @Ok (lmpc F * ret F) (s, r) = Ok (s', r') /\ lgood s') by eauto.
    destruct op; cbn [l_step op_safe] in *; try (apply KEEP).
    - destruct Ho as (? & ? & ?). apply FIN, lgood_b; [assumption|]. now apply setStateModel_good.
    - destruct Ho as (? & ?). apply FIN, lgood_b; [assumption|]. now apply setExo_good.
    - destruct Ho as (? & ?). apply FIN, lgood_b; [assumption|]. now apply xbMat_good.
    - destruct Ho as (? & ? & ?). apply FIN, lgood_b; [assumption|]. now apply ubMat_good.
    - destruct Ho as (? & ?). apply FIN, lgood_b; [assumption|]. now apply ybMat_good.
    - destruct Ho as (? & ? & ? & ?). apply on_slice_good; try assumption; try lia.
      + intros _. apply lgood_b; [assumption|]. apply xbMat_good; try assumption; now apply replicate_gm.
      + intros i s1 Hi HG1. apply lgood_b; [assumption|]. apply xbStep_good; try assumption. apply HG1.
    - destruct Ho as (? & ? & ? & ? & ?). apply on_slice_good; try assumption; try lia.
      + intros E. apply lgood_b; [assumption|]. apply ubMat_good; auto; now apply replicate_gm.
      + intros i s1 Hi HG1. apply lgood_b; [assumption|]. apply ubStep_good; try assumption; try lia. apply HG1.
    - destruct Ho as (? & ? & ? & ?). apply on_slice_good; try assumption; try lia.
      + intros _. apply lgood_b; [assumption|]. apply ybMat_good; try assumption; now apply replicate_gm.
      + intros i s1 Hi HG1. apply lgood_b; [assumption|]. apply ybStep_good; try assumption. apply HG1.
    - destruct Ho as (? & ? & ?). apply FIN, lgood_b; [assumption|]. now apply objMat_good.
    - destruct Ho as (? & ? & ? & ? & ?). apply on_slice_good; try assumption; try lia.
      + intros _. apply lgood_b; [assumption|]. apply objMat_good; try assumption; now apply replicate_gm.
      + intros i s1 Hi HG1. apply lgood_b; [assumption|]. apply objStep_good; try assumption. apply HG1.
    - destruct Ho as (? & ? & ? & ?). apply on_slice_good; try assumption; try lia.
      + intros _. apply lgood_b; [assumption|]. apply scMat_good; try assumption; apply gm_const.
      + intros i s1 Hi HG1. apply lgood_b; [assumption|]. apply scStep_good; try assumption. apply HG1.
    - destruct (N.leb_spec (N.of_nat ph) index); [apply KEEP|]. destruct Ho.
      apply FIN, lgood_b; [assumption|]. apply scStep_good; try assumption. lia.
    - apply FIN. now apply lgood_dist.
    - destruct Ho as (? & ? & ?). apply on_slice_good; try assumption; try lia.
      + intros _. apply lgood_dist; [assumption|]. now apply replicate_gm.
      + intros i s1 Hi HG1. apply lgood_dist; [assumption|]. destruct HG1 as [_ []]. gmt.
    - destruct Ho as (? & ? & ?). apply FIN. now apply lgood_refs.
    - destruct Ho as (? & ? & ? & ? & ?). apply on_slice_good; try assumption; try lia.
      + intros _. apply lgood_refs; [assumption|..]; now apply replicate_gm.
      + intros i s1 Hi HG1. apply lgood_refs; [assumption|..]; destruct HG1 as [_ []]; gmt.
    - destruct p as [p|]; [|congruence]. eexists _, _. split; [reflexivity|].
      destruct HO. split; [assumption|]. split; assumption.
    - eexists _, _. split; [reflexivity|]. destruct HO. split; [assumption|]. split; assumption.
    - destruct Ho as (X & U & NA). pose proof HO as [].
      assert (G : bgood (l_built d s x0 u0)) by now apply get_good.
      assert (W : warm_ok (l_call d s x0 u0) = true).
      { unfold warm_ok. destruct (l_call_dims s x0 u0 Hs) as [-> ->]. cbn [l_call cl_warm]. unfold l_warm.
        destruct (lp_warm _); [|reflexivity]. cbn [andb].
        destruct og_warm0 as [E|[E|[E1 E2]]]; rewrite ?E; cbn [length]; try reflexivity.
        - rewrite andb_false_r. reflexivity.
        - destruct ((0 <? length (o_wx (l_o s))) && (0 <? length (o_wy (l_o s)))); [|reflexivity].
          now rewrite (proj2 (Nat.leb_le _ _) E1), (proj2 (Nat.leb_le _ _) E2). }
      unfold l_run. rewrite W. cbn [negb]. destruct a as [| |x y code obj]; [congruence| |].
      + match goal with |- context [if l_ok ?S then _ else _] => assert (GS : lgood S) end.
        { split; [exact G|]. split; cbn; try assumption; (eapply gm_eq; [apply gm_zero|..]);
          (apply og_st0 || apply og_out0 || apply og_in0). }
        rewrite l_ok_good by exact GS. eexists _, _. split; [reflexivity|exact GS].
      + match goal with |- context [if l_ok ?S then _ else _] => assert (GS : lgood S) end.
        { assert (S1 : gm (seq_state d x (q_state (o_seq (l_o s)))) (ph + 1) nx) by now apply seq_state_gm.
          assert (S2 : gm (seq_input d x (q_input (o_seq (l_o s)))) (ph + 1) nu) by now apply seq_input_gm.
          split; [exact G|].
          split; cbn [l_o o_yref o_uref o_duref o_dist o_res o_seq r_cmd q_state q_input q_output o_wx o_wy]; try assumption.
          - gmt.
          - now apply seq_output_gm.
          - right; right. rewrite !map_length, !seq_length. destruct (l_call_dims s x0 u0 Hs) as [-> ->]. split; lia. }
        rewrite l_ok_good by exact GS. eexists _, _. split; [reflexivity|exact GS].
  Qed.

  Theorem l_play_safe ops : forall s, lgood s -> Forall op_safe ops ->
    exists s' h, l_play junk ejunk d s ops = Ok (s', h) /\ lgood s'.
  Proof.
    induction ops as [|op ops IH]; intros s Hs Ho; cbn [l_play]; [eauto|].
    inversion Ho; subst. destruct (l_step_safe s op Hs) as (s1 & r & -> & HG1); [assumption|].
    destruct (IH s1 HG1) as (s2 & h & -> & HG2); [assumption|]. eauto.
  Qed.
End Ok.
