(** Closed forms of the values and finite-difference gradients computed by [NLFun.v]. *)
From Coq Require Import Bool Arith List Lia Ring Field.
From Verif Require Import Scalar Sums Mat Builder BuilderEnt NLMap NLTraj NLFun SpecNL NLLoop.
Import ListNotations.

Section Grad.
  Context {F : Type} {SO : ScalarOps F} {SL : ScalarLaws F}.
  Variable junk : nat -> nat -> F.
  Variable d : dims.
  Variables ni ne : nat.
  Notation nx := (d_nx d). Notation nu := (d_nu d). Notation ny := (d_ny d).
  Notation ph := (d_ph d). Notation ch := (d_ch d).
  Add Field SFg : s_field.
  Implicit Types x u : nat -> nat -> F.

  Lemma out_traj_ext og x u y v : (forall i j, i < ph + 1 -> j < nx -> x i j = y i j) -> (forall i j, i < ph + 1 -> j < nu -> u i j = v i j) ->
    forall i k, i < ph + 1 -> out_traj d og x u i k = out_traj d og y v i k.
  Proof.
    intros HX HU i k Hi. unfold out_traj. destruct og as [g|]; [|reflexivity]. unfold traj_row.
    rewrite (map_seq_ext (x i) (y i) nx) by (intros; now apply HX). rewrite (map_seq_ext (u i) (v i) nu) by (intros; now apply HU). reflexivity.
  Qed.
  Lemma obj_at_ext f og x u y v e : (forall i j, i < ph + 1 -> j < nx -> x i j = y i j) -> (forall i j, i < ph + 1 -> j < nu -> u i j = v i j) ->
    obj_at d f og x u e = obj_at d f og y v e.
  Proof.
    intros HX HU. unfold obj_at. rewrite (tab_ext (ph + 1) nx x y HX), (tab_ext (ph + 1) nu u v HU).
    rewrite (tab_ext (ph + 1) ny (out_traj d og x u) (out_traj d og y v)) by (intros; now apply out_traj_ext). reflexivity.
  Qed.
  Lemma ieq_at_ext f og k x u y v e : (forall i j, i < ph + 1 -> j < nx -> x i j = y i j) -> (forall i j, i < ph + 1 -> j < nu -> u i j = v i j) ->
    ieq_at d f og k x u e = ieq_at d f og k y v e.
  Proof.
    intros HX HU. unfold ieq_at. rewrite (tab_ext (ph + 1) nx x y HX), (tab_ext (ph + 1) nu u v HU).
    rewrite (tab_ext (ph + 1) ny (out_traj d og x u) (out_traj d og y v)) by (intros; now apply out_traj_ext). reflexivity.
  Qed.
  Lemma eqc_at_ext f k x u y v : (forall i j, i < ph + 1 -> j < nx -> x i j = y i j) -> (forall i j, i < ph + 1 -> j < nu -> u i j = v i j) ->
    eqc_at d f k x u = eqc_at d f k y v.
  Proof. intros HX HU. unfold eqc_at. now rewrite (tab_ext (ph + 1) nx x y HX), (tab_ext (ph + 1) nu u v HU). Qed.

  Lemma get_output_rep og X U x u : rep X (ph + 1) nx x -> rep U (ph + 1) nu u -> rep (get_output d og X U) (ph + 1) ny (out_traj d og x u).
  Proof.
    intros HX HU. unfold get_output, out_traj. destruct og as [g|]; [|split; [repeat split|reflexivity]].
    assert (G : forall k, k <= ph + 1 -> let Y := loop k (fun i Y => set_mrow Y i (guard (mok (mtrans (mrow X i)) && mok (mtrans (mrow U i)))
        (mtrans (mvec ny (g (lst (mtrans (mrow X i))) (lst (mtrans (mrow U i))) i))))) (mzero (ph + 1) ny) in
      gm Y (ph + 1) ny /\ forall i j, i < k -> j < ny -> ent Y i j = g (traj_row nx x i) (traj_row nu u i) i j).
    { induction k as [|k IH]; intros Hk; cbn [loop]; [split; [repeat split|lia]|].
      destruct (IH ltac:(lia)) as [GY EY]. set (Y := loop k _ _) in *. clearbody Y. cbn zeta.
      destruct (rep_trow X _ _ x k HX ltac:(lia)) as [(_ & _ & O1) L1]. destruct (rep_trow U _ _ u k HU ltac:(lia)) as [(_ & _ & O2) L2].
      split.
      - apply set_mrow_gm; [exact GY| |lia]. rewrite O1, O2. repeat split.
      - intros i j Hi Hj. destruct GY as (_ & YC & _). rewrite set_mrow_ent by (rewrite YC; exact Hj).
        destruct (Nat.eqb_spec i k) as [->|N]; [|apply EY; lia]. rewrite L1, L2. reflexivity. }
    apply (G (ph + 1) (le_n _)).
  Qed.
  Lemma obj_call_at f og X U x u e : rep X (ph + 1) nx x -> rep U (ph + 1) nu u -> obj_call d f og X U e = obj_at d f og x u e.
  Proof. intros HX HU. unfold obj_call, obj_at. rewrite (rep_rows _ _ _ _ HX), (rep_rows _ _ _ _ HU), (rep_rows _ _ _ _ (get_output_rep og _ _ _ _ HX HU)). reflexivity. Qed.
  Lemma ieq_call_at f og X U x u e k : rep X (ph + 1) nx x -> rep U (ph + 1) nu u -> ent (ieq_call d ni f og X U e) k 0 = ieq_at d f og k x u e.
  Proof. intros HX HU. unfold ieq_call, ieq_at. cbn [ent mvec]. rewrite (rep_rows _ _ _ _ HX), (rep_rows _ _ _ _ HU), (rep_rows _ _ _ _ (get_output_rep og _ _ _ _ HX HU)). reflexivity. Qed.
  Lemma eqc_call_at f X U x u k : rep X (ph + 1) nx x -> rep U (ph + 1) nu u -> ent (eqc_call ne f X U) k 0 = eqc_at d f k x u.
  Proof. intros HX HU. unfold eqc_call, eqc_at. cbn [ent mvec]. rewrite (rep_rows _ _ _ _ HX), (rep_rows _ _ _ _ HU). reflexivity. Qed.
  Lemma cdiff_gm fp fm t n : gm fp n 1 -> gm fm n 1 -> gm (cdiff (F := F) fp fm t) n 1.
  Proof. intros (A1 & A2 & A3) (B1 & B2 & B3). unfold cdiff. repeat split; cbn [mrows mcols mok]; try assumption. now rewrite A1, A3, B1, B3, Nat.eqb_refl. Qed.
  Lemma abs1_ent (M : mat F) r c X i j : rep M r c X -> i < r -> j < c -> ent (abs1 M) i j = smax (sabs (X i j)) s1.
  Proof. intros [_ E] Hi Hj. unfold abs1. cbn [ent]. now rewrite E. Qed.
  (** the step taken from the entry with linear index [j] *)
  Definition lstep (n : nat) (X : nat -> nat -> F) (j : nat) : F := smax (sabs (X (j mod n) (j / n))) s1.
  Lemma lin_abs1 (M : mat F) r c X j : rep M r c X -> 0 < r -> j < c -> lin (abs1 M) j = lstep r X j.
  Proof.
    intros H Hr Hj. unfold lin. destruct H as [(R & C & O) E]. cbn [mrows abs1 ent]. rewrite R. unfold lstep.
    rewrite E; [reflexivity|apply Nat.mod_upper_bound; lia|]. apply Nat.le_lt_trans with j; [|exact Hj]. apply Nat.div_le_upper_bound; [lia|].
    nia.
  Qed.

  Section At.
    Variables (X U : mat F) (x u : nat -> nat -> F) (e : F).
    Hypothesis HX : rep X (ph + 1) nx x.
    Hypothesis HU : rep U (ph + 1) nu u.
    Hypothesis P : 0 < ph.

    (** both rows ph-1 and ph *)
    Definition pert_last (U0 : nat -> nat -> F) (j : nat) (t : F) : nat -> nat -> F := pert (pert U0 (ph - 1) j t) ph j t.

    Definition fwd (v f0 t : F) : F := sdiv (ssub v f0) t.
    Definition ctr (vp vm t : F) : F := sdiv (ssub vp vm) (smul s2 t).

    Lemma obj_jx_ent f og f0 : let '(X', J) := obj_jx d f og X U e f0 in
      rep X' (ph + 1) nx x /\ gm J nx ph /\ forall j i, j < nx -> i < ph ->
        ent J j i = let dx := (dv_obj * lstep (ph + 1) x j)%S in fwd (obj_at d f og (pert x (i + 1) j dx) u e) f0 dx.
    Proof.
      unfold obj_jx.
      pose proof (fe_outer (ph + 1) nx nx ph x
        (fun i j '(y, J) =>
          let dx := smul dv_obj (lin (abs1 X) j) in
          let y1 := set_entry y (i + 1) j (sadd (ent y (i + 1) j) dx) in
          let fv := obj_call d f og y1 U e in
          let y2 := set_entry y1 (i + 1) j (ssub (ent y1 (i + 1) j) dx) in
          (y2, set_entry J j i (sdiv (ssub fv f0) dx)))
        (fun i j => let dx := (dv_obj * lstep (ph + 1) x j)%S in fwd (obj_at d f og (pert x (i + 1) j dx) u e) f0 dx) ph) as H.
      specialize (fun H1 => H H1 (le_n _) X (mzero nx ph) HX ltac:(repeat split)).
      cbn zeta in *.
      match type of H with ?A -> _ => assert (HA : A) end.
      { intros i j y J Hi Hj Hy. eexists _, _. split; [reflexivity|].
        pose proof (lin_abs1 X _ _ x j HX ltac:(lia) Hj) as L.
        assert (R1 : rep (set_entry y (i + 1) j (sadd (ent y (i + 1) j) (smul dv_obj (lin (abs1 X) j)))) (ph + 1) nx (pert x (i + 1) j (dv_obj * lin (abs1 X) j)%S)).
        { apply rep_bump; [exact Hy|lia|exact Hj|]. destruct Hy as [_ E]. rewrite E by lia. reflexivity. }
        split.
        - eapply rep_ext; [apply rep_set; [exact R1|lia|exact Hj]|]. intros a b Ha Hb. cbn beta.
          destruct R1 as [_ E1]. rewrite E1 by lia. unfold pert. rewrite !Nat.eqb_refl. cbn [andb].
          destruct (Nat.eqb_spec a (i + 1)), (Nat.eqb_spec b j); cbn [andb]; subst; try reflexivity. ring.
        - rewrite (obj_call_at f og _ U _ u e R1 HU), L. reflexivity. }
      specialize (H HA).
      destruct (loop ph _ _) as [X' J]. destruct H as (H1 & H2 & H3). refine (conj H1 (conj H2 _)).
      intros j i Hj Hi. rewrite H3 by exact Hj. destruct (Nat.ltb_spec i ph); [reflexivity|lia].
    Qed.

    Lemma obj_ju_ent f og f0 : let '(U1, J1) := obj_ju_inner d f og (abs1 U) X U (mzero nu ph) e f0 in
      let '(U2, J2) := obj_ju_last d f og (abs1 U) X U1 J1 e f0 in
      rep U2 (ph + 1) nu u /\ gm J2 nu ph /\ forall j i, j < nu -> i < ph ->
        ent J2 j i = let du := (dv_obj * lstep (ph + 1) u j)%S in
          fwd (obj_at d f og x (if i =? ph - 1 then pert_last u j du else pert u i j du) e) f0 du.
    Proof.
      unfold obj_ju_inner.
      pose proof (fe_outer (ph + 1) nu nu ph u
        (fun i j '(y, J) =>
          let dx := smul dv_obj (lin (abs1 U) j) in
          let y1 := set_entry y i j (sadd (ent y i j) dx) in
          let fv := obj_call d f og X y1 e in
          let y2 := set_entry y1 i j (ssub (ent y1 i j) dx) in
          (y2, set_entry J j i (sdiv (ssub fv f0) dx)))
        (fun i j => let dx := (dv_obj * lstep (ph + 1) u j)%S in fwd (obj_at d f og x (pert u i j dx) e) f0 dx) (ph - 1)) as H.
      specialize (fun H1 => H H1 ltac:(lia) U (mzero nu ph) HU ltac:(repeat split)).
      cbn zeta in *.
      match type of H with ?A -> _ => assert (HA : A) end.
      { intros i j y J Hi Hj Hy. eexists _, _. split; [reflexivity|].
        pose proof (lin_abs1 U _ _ u j HU ltac:(lia) Hj) as L.
        assert (R1 : rep (set_entry y i j (sadd (ent y i j) (smul dv_obj (lin (abs1 U) j)))) (ph + 1) nu (pert u i j (dv_obj * lin (abs1 U) j)%S)).
        { apply rep_bump; [exact Hy|lia|exact Hj|]. destruct Hy as [_ E]. rewrite E by lia. reflexivity. }
        split.
        - eapply rep_ext; [apply rep_set; [exact R1|lia|exact Hj]|]. intros a b Ha Hb. cbn beta.
          destruct R1 as [_ E1]. rewrite E1 by lia. unfold pert. rewrite !Nat.eqb_refl. cbn [andb].
          destruct (Nat.eqb_spec a i), (Nat.eqb_spec b j); cbn [andb]; subst; try reflexivity. ring.
        - rewrite (obj_call_at f og X _ x _ e HX R1), L. reflexivity. }
      specialize (H HA). clear HA.
      destruct (loop (ph - 1) _ _) as [U1 J1]. destruct H as (H1 & H2 & H3).
      unfold obj_ju_last.
      pose proof (fe_inner (ph + 1) nu nu ph (ph - 1) u
        (fun j '(u, J) =>
          let du := smul dv_obj (lin (abs1 U) j) in
          let u := set_entry u (ph - 1) j (sadd (ent u (ph - 1) j) du) in
          let u := set_entry u ph j (sadd (ent u ph j) du) in
          let fv := obj_call d f og X u e in
          let u := set_entry u (ph - 1) j (ssub (ent u (ph - 1) j) du) in
          let u := set_entry u ph j (ssub (ent u ph j) du) in
          let df := sdiv (ssub fv f0) du in
          (u, set_entry J j (ph - 1) df))
        (fun j => let dx := (dv_obj * lstep (ph + 1) u j)%S in fwd (obj_at d f og x (pert_last u j dx) e) f0 dx)) as H.
      specialize (fun H' => H H' ltac:(lia) nu U1 J1 (le_n _) H1 H2).
      match type of H with ?A -> _ => assert (HA : A) end.
      { intros j y J Hj Hy. eexists _, _. split; [reflexivity|].
        pose proof (lin_abs1 U _ _ u j HU ltac:(lia) Hj) as L. set (t := smul dv_obj (lin (abs1 U) j)) in *.
        assert (R1 : rep (set_entry y (ph - 1) j (sadd (ent y (ph - 1) j) t)) (ph + 1) nu (pert u (ph - 1) j t)).
        { apply rep_bump; [exact Hy|lia|exact Hj|]. destruct Hy as [_ E]. rewrite E by lia. reflexivity. }
        set (y1 := set_entry y (ph - 1) j _) in *. clearbody y1.
        assert (R2 : rep (set_entry y1 ph j (sadd (ent y1 ph j) t)) (ph + 1) nu (pert_last u j t)).
        { apply rep_bump; [exact R1|lia|exact Hj|]. destruct R1 as [_ E]. rewrite E by lia. reflexivity. }
        set (y2 := set_entry y1 ph j _) in *. clearbody y2.
        split.
        - eapply rep_ext; [apply rep_set; [apply rep_set; [exact R2|lia|exact Hj]|lia|exact Hj]|]. intros a b Ha Hb. cbn beta.
          rewrite ent_set_entry. destruct R2 as [_ E2]. rewrite !E2 by lia. unfold pert_last, pert. rewrite !Nat.eqb_refl.
          destruct (Nat.eqb_spec ph (ph - 1)); [lia|]. destruct (Nat.eqb_spec (ph - 1) ph); [lia|].
          destruct (Nat.eqb_spec a ph), (Nat.eqb_spec b j), (Nat.eqb_spec a (ph - 1)); cbn [andb]; subst; try reflexivity; try ring; lia.
        - rewrite (obj_call_at f og X _ x _ e HX R2). unfold t. rewrite L. reflexivity. }
      specialize (H HA). cbn zeta in H. destruct (loop nu _ _) as [U2 J2]. destruct H as (K1 & K2 & K3). refine (conj K1 (conj K2 _)).
      intros j i Hj Hi. rewrite K3. destruct (Nat.ltb_spec j nu); [|lia]. rewrite andb_true_r.
      destruct (Nat.eqb_spec i (ph - 1)); [reflexivity|]. rewrite H3 by exact Hj. destruct (Nat.ltb_spec i (ph - 1)); [reflexivity|lia].
    Qed.

    (** the three central-difference loops share this step *)
    Lemma central_step (Y y0 : nat -> nat -> F) R C a b t (y : mat F) : rep y R C Y -> a < R -> b < C ->
      let y1 := set_entry y a b (sadd (ent y a b) t) in
      let y2 := set_entry y1 a b (ssub (ent y1 a b) (smul s2 t)) in
      let y3 := set_entry y2 a b (sadd (ent y2 a b) t) in
      rep y1 R C (pert Y a b t) /\ rep y2 R C (pert Y a b (- t)%S) /\ rep y3 R C Y.
    Proof.
      intros Hy Ha Hb y1 y2 y3.
      assert (R1 : rep y1 R C (pert Y a b t)).
      { apply rep_bump; [exact Hy|exact Ha|exact Hb|]. destruct Hy as [_ E]. rewrite E by assumption. reflexivity. }
      assert (E1 : ent y1 a b = (Y a b + t)%S). { destruct R1 as [_ E]. rewrite E by assumption. unfold pert. now rewrite !Nat.eqb_refl. }
      assert (R2 : rep y2 R C (pert Y a b (- t)%S)).
      { eapply rep_ext; [apply rep_set; [exact R1|exact Ha|exact Hb]|]. intros i j Hi Hj. cbn beta. rewrite E1. unfold pert, s2.
        destruct (Nat.eqb_spec i a), (Nat.eqb_spec j b); cbn [andb]; subst; try reflexivity. ring. }
      assert (E2 : ent y2 a b = (Y a b + - t)%S). { destruct R2 as [_ E]. rewrite E by assumption. unfold pert. now rewrite !Nat.eqb_refl. }
      refine (conj R1 (conj R2 _)).
      eapply rep_ext; [apply rep_set; [exact R2|exact Ha|exact Hb]|]. intros i j Hi Hj. cbn beta. rewrite E2. unfold pert.
      destruct (Nat.eqb_spec i a), (Nat.eqb_spec j b); cbn [andb]; subst; try reflexivity. ring.
    Qed.

    Lemma ieq_jx_ent c og : let '(X', J) := ieq_jx d ni c og X U e in
      rep X' (ph + 1) nx x /\ gm J ni (ph * nx) /\ forall k i j, k < ni -> i < ph -> j < nx ->
        ent J k (i * nx + j) = let dx := (dv_con * lstep (ph + 1) x j)%S in
          ctr (ieq_at d c og k (pert x (i + 1) j dx) u e) (ieq_at d c og k (pert x (i + 1) j (- dx)%S) u e) dx.
    Proof.
      unfold ieq_jx.
      pose proof (fd_outer (ph + 1) nx ni (ph * nx) nx x
        (fun i j '(x, J) =>
      let ix := i + 1 in
      let dx := smul dv_con (lin (abs1 X) j) in
      let x := set_entry x ix j (sadd (ent x ix j) dx) in
      let fp := ieq_call d ni c og x U e in
      let x := set_entry x ix j (ssub (ent x ix j) (smul s2 dx)) in
      let fm := ieq_call d ni c og x U e in
      let x := set_entry x ix j (sadd (ent x ix j) dx) in
      (x, set_blkcol J nx i j (cdiff fp fm dx)))
        (fun i j k => let dx := (dv_con * lstep (ph + 1) x j)%S in
          ctr (ieq_at d c og k (pert x (i + 1) j dx) u e) (ieq_at d c og k (pert x (i + 1) j (- dx)%S) u e) dx) ph) as H.
      specialize (fun H1 => H H1 (le_n _) X (mzero ni (ph * nx)) HX ltac:(repeat split)).
      match type of H with ?A -> _ => assert (HA : A) end.
      { intros i j y J Hi Hj Hy. cbn zeta. eexists _, _. split; [reflexivity|].
        pose proof (lin_abs1 X _ _ x j HX ltac:(lia) Hj) as L.
        destruct (central_step x x (ph + 1) nx (i + 1) j (dv_con * lin (abs1 X) j)%S y Hy ltac:(lia) Hj) as (R1 & R2 & R3).
        refine (conj R3 (conj _ _)); [apply cdiff_gm; repeat split|].
        intros k Hk. unfold cdiff. cbn [ent]. rewrite (ieq_call_at c og _ U _ u e k R1 HU), (ieq_call_at c og _ U _ u e k R2 HU), L. reflexivity. }
      specialize (H HA). cbn zeta in *. destruct (loop ph _ _) as [X' J]. destruct H as (H1 & H2 & H3). refine (conj H1 (conj H2 _)).
      intros k i j Hk Hi Hj. rewrite H3; [|exact Hk|apply blk_lt; assumption|exact Hj]. destruct (Nat.ltb_spec i ph); [reflexivity|lia].
    Qed.
    Lemma ieq_ju_ent c og : let '(U', J) := ieq_ju d ni c og X U e in
      rep U' (ph + 1) nu u /\ gm J ni (ph * nu) /\ forall k i j, k < ni -> i < ph -> j < nu ->
        ent J k (i * nu + j) = let du := (dv_con * lstep (ph + 1) u j)%S in
          ctr (ieq_at d c og k x (pert u i j du) e) (ieq_at d c og k x (pert u i j (- du)%S) e) du.
    Proof.
      unfold ieq_ju.
      pose proof (fd_outer (ph + 1) nu ni (ph * nu) nu u
        (fun i j '(u, J) =>
      let du := smul dv_con (lin (abs1 U) j) in
      let u := set_entry u i j (sadd (ent u i j) du) in
      let fp := ieq_call d ni c og X u e in
      let u := set_entry u i j (ssub (ent u i j) (smul s2 du)) in
      let fm := ieq_call d ni c og X u e in
      let u := set_entry u i j (sadd (ent u i j) du) in
      (u, set_blkcol J nu i j (cdiff fp fm du)))
        (fun i j k => let du := (dv_con * lstep (ph + 1) u j)%S in
          ctr (ieq_at d c og k x (pert u i j du) e) (ieq_at d c og k x (pert u i j (- du)%S) e) du) ph) as H.
      specialize (fun H1 => H H1 (le_n _) U (mzero ni (ph * nu)) HU ltac:(repeat split)).
      match type of H with ?A -> _ => assert (HA : A) end.
      { intros i j y J Hi Hj Hy. cbn zeta. eexists _, _. split; [reflexivity|].
        pose proof (lin_abs1 U _ _ u j HU ltac:(lia) Hj) as L.
        destruct (central_step u u (ph + 1) nu i j (dv_con * lin (abs1 U) j)%S y Hy ltac:(lia) Hj) as (R1 & R2 & R3).
        refine (conj R3 (conj _ _)); [apply cdiff_gm; repeat split|].
        intros k Hk. unfold cdiff. cbn [ent]. rewrite (ieq_call_at c og X _ x _ e k HX R1), (ieq_call_at c og X _ x _ e k HX R2), L. reflexivity. }
      specialize (H HA). cbn zeta in *. destruct (loop ph _ _) as [U' J]. destruct H as (H1 & H2 & H3). refine (conj H1 (conj H2 _)).
      intros k i j Hk Hi Hj. rewrite H3; [|exact Hk|apply blk_lt; assumption|exact Hj]. destruct (Nat.ltb_spec i ph); [reflexivity|lia].
    Qed.
    Lemma ieq_je_ent c og k : gm (ieq_je d ni c og X U e) ni 1 /\
      ent (ieq_je d ni c og X U e) k 0 = let de := (smax dv_con (sabs e) * dv_con)%S in
        ctr (ieq_at d c og k x u (e + de)%S) (ieq_at d c og k x u (e - de)%S) de.
    Proof.
      split; [apply cdiff_gm; repeat split|]. unfold ieq_je, cdiff. cbn [ent].
      rewrite !(ieq_call_at c og X U x u _ k HX HU). reflexivity.
    Qed.

    Lemma eqc_jx_ent c : let '(X', J) := eqc_jx d ne c X U in
      rep X' (ph + 1) nx x /\ gm J ne (ph * nx) /\ forall k i j, k < ne -> i < ph -> j < nx ->
        ent J k (i * nx + j) = let dx := (dv_con * smax (sabs (x (i + 1)%nat j)) s1)%S in
          ctr (eqc_at d c k (pert x (i + 1) j dx) u) (eqc_at d c k (pert x (i + 1) j (- dx)%S) u) dx.
    Proof.
      unfold eqc_jx.
      pose proof (fd_outer (ph + 1) nx ne (ph * nx) nx x
        (fun i j '(x, J) =>
      let ix := i + 1 in
      let dx := smul dv_con (ent (abs1 X) ix j) in
      let x := set_entry x ix j (sadd (ent x ix j) dx) in
      let fp := eqc_call ne c x U in
      let x := set_entry x ix j (ssub (ent x ix j) (smul s2 dx)) in
      let fm := eqc_call ne c x U in
      let x := set_entry x ix j (sadd (ent x ix j) dx) in
      (x, set_blkcol J nx i j (cdiff fp fm dx)))
        (fun i j k => let dx := (dv_con * smax (sabs (x (i + 1)%nat j)) s1)%S in
          ctr (eqc_at d c k (pert x (i + 1) j dx) u) (eqc_at d c k (pert x (i + 1) j (- dx)%S) u) dx) ph) as H.
      specialize (fun H1 => H H1 (le_n _) X (mzero ne (ph * nx)) HX ltac:(repeat split)).
      match type of H with ?A -> _ => assert (HA : A) end.
      { intros i j y J Hi Hj Hy. cbn zeta. eexists _, _. split; [reflexivity|].
        pose proof (abs1_ent X _ _ x (i + 1) j HX ltac:(lia) Hj) as L.
        destruct (central_step x x (ph + 1) nx (i + 1) j (dv_con * ent (abs1 X) (i + 1) j)%S y Hy ltac:(lia) Hj) as (R1 & R2 & R3).
        refine (conj R3 (conj _ _)); [apply cdiff_gm; repeat split|].
        intros k Hk. unfold cdiff. cbn [ent]. rewrite (eqc_call_at c _ U _ u k R1 HU), (eqc_call_at c _ U _ u k R2 HU), L. reflexivity. }
      specialize (H HA). cbn zeta in *. destruct (loop ph _ _) as [X' J]. destruct H as (H1 & H2 & H3). refine (conj H1 (conj H2 _)).
      intros k i j Hk Hi Hj. rewrite H3; [|exact Hk|apply blk_lt; assumption|exact Hj]. destruct (Nat.ltb_spec i ph); [reflexivity|lia].
    Qed.
    Lemma eqc_ju_ent c : let '(U1, J1) := eqc_ju_inner d ne c (abs1 U) X U (mzero ne (ph * nu)) in
      let '(U2, J2) := eqc_ju_last d ne c (abs1 U) X U1 J1 in
      gm J2 ne (ph * nu) /\ forall k i j, k < ne -> i < ph -> j < nu ->
        ent J2 k (i * nu + j) = let du := (dv_con * smax (sabs (u (ph - 1)%nat j)) s1)%S in
          let pt t := if i =? ph - 1 then pert_last u j t else pert u i j t in
          ctr (eqc_at d c k x (pt du)) (eqc_at d c k x (pt (- du)%S)) du.
    Proof.
      unfold eqc_ju_inner.
      pose proof (fd_outer (ph + 1) nu ne (ph * nu) nu u
        (fun i j '(u, J) =>
      let du := smul dv_con (ent (abs1 U) (ph - 1) j) in
      let u := set_entry u i j (sadd (ent u i j) du) in
      let fp := eqc_call ne c X u in
      let u := set_entry u i j (ssub (ent u i j) (smul s2 du)) in
      let fm := eqc_call ne c X u in
      let u := set_entry u i j (sadd (ent u i j) du) in
      (u, set_blkcol J nu i j (cdiff fp fm du)))
        (fun i j k => let du := (dv_con * smax (sabs (u (ph - 1)%nat j)) s1)%S in
          ctr (eqc_at d c k x (pert u i j du)) (eqc_at d c k x (pert u i j (- du)%S)) du) (ph - 1)) as H.
      specialize (fun H1 => H H1 ltac:(apply Nat.mul_le_mono_r; lia) U (mzero ne (ph * nu)) HU ltac:(repeat split)).
      match type of H with ?A -> _ => assert (HA : A) end.
      { intros i j y J Hi Hj Hy. cbn zeta. eexists _, _. split; [reflexivity|].
        pose proof (abs1_ent U _ _ u (ph - 1) j HU ltac:(lia) Hj) as L.
        destruct (central_step u u (ph + 1) nu i j (dv_con * ent (abs1 U) (ph - 1) j)%S y Hy ltac:(lia) Hj) as (R1 & R2 & R3).
        refine (conj R3 (conj _ _)); [apply cdiff_gm; repeat split|].
        intros k Hk. unfold cdiff. cbn [ent]. rewrite (eqc_call_at c X _ x _ k HX R1), (eqc_call_at c X _ x _ k HX R2), L. reflexivity. }
      specialize (H HA). clear HA. cbn zeta in *. destruct (loop (ph - 1) _ _) as [U1 J1]. destruct H as (H1 & H2 & H3).
      unfold eqc_ju_last.
      pose proof (fd_inner (ph + 1) nu ne (ph * nu) nu (ph - 1) u
        (fun j '(u, J) =>
      let du := smul dv_con (ent (abs1 U) (ph - 1) j) in
      let u := set_entry u (ph - 1) j (sadd (ent u (ph - 1) j) du) in
      let u := set_entry u ph j (sadd (ent u ph j) du) in
      let fp := eqc_call ne c X u in
      let u := set_entry u (ph - 1) j (ssub (ent u (ph - 1) j) (smul s2 du)) in
      let u := set_entry u ph j (ssub (ent u ph j) (smul s2 du)) in
      let fm := eqc_call ne c X u in
      let u := set_entry u (ph - 1) j (sadd (ent u (ph - 1) j) du) in
      let u := set_entry u ph j (sadd (ent u ph j) du) in
      (u, set_blkcol J nu (ph - 1) j (cdiff fp fm du)))
        (fun j k => let du := (dv_con * smax (sabs (u (ph - 1)%nat j)) s1)%S in
          ctr (eqc_at d c k x (pert_last u j du)) (eqc_at d c k x (pert_last u j (- du)%S)) du)) as H.
      specialize (fun H' => H H' ltac:(pose proof (blk_le (ph - 1) ph nu ltac:(lia)); lia) nu U1 J1 (le_n _) H1 H2).
      match type of H with ?A -> _ => assert (HA : A) end.
      { intros j y J Hj Hy. cbn zeta. eexists _, _. split; [reflexivity|].
        pose proof (abs1_ent U _ _ u (ph - 1) j HU ltac:(lia) Hj) as L. set (t := smul dv_con (ent (abs1 U) (ph - 1) j)) in *.
        assert (R1 : rep (set_entry y (ph - 1) j (sadd (ent y (ph - 1) j) t)) (ph + 1) nu (pert u (ph - 1) j t)).
        { apply rep_bump; [exact Hy|lia|exact Hj|]. destruct Hy as [_ E]. rewrite E by lia. reflexivity. }
        set (y1 := set_entry y (ph - 1) j _) in *. clearbody y1.
        assert (R2 : rep (set_entry y1 ph j (sadd (ent y1 ph j) t)) (ph + 1) nu (pert_last u j t)).
        { apply rep_bump; [exact R1|lia|exact Hj|]. destruct R1 as [_ E]. rewrite E by lia. reflexivity. }
        set (y2 := set_entry y1 ph j _) in *. clearbody y2.
        assert (R3 : rep (set_entry y2 (ph - 1) j (ssub (ent y2 (ph - 1) j) (smul s2 t))) (ph + 1) nu (pert (pert u (ph - 1) j (- t)%S) ph j t)).
        { eapply rep_ext; [apply rep_set; [exact R2|lia|exact Hj]|]. intros a b Ha Hb. cbn beta. destruct R2 as [_ E]. rewrite E by lia.
          unfold pert_last, pert, s2. rewrite !Nat.eqb_refl. destruct (Nat.eqb_spec (ph - 1) ph); [lia|].
          destruct (Nat.eqb_spec a (ph - 1)), (Nat.eqb_spec b j), (Nat.eqb_spec a ph); cbn [andb]; subst; try reflexivity; try ring; lia. }
        set (y3 := set_entry y2 (ph - 1) j _) in *. clearbody y3.
        assert (R4 : rep (set_entry y3 ph j (ssub (ent y3 ph j) (smul s2 t))) (ph + 1) nu (pert_last u j (- t)%S)).
        { eapply rep_ext; [apply rep_set; [exact R3|lia|exact Hj]|]. intros a b Ha Hb. cbn beta. destruct R3 as [_ E]. rewrite E by lia.
          unfold pert_last, pert, s2. rewrite !Nat.eqb_refl. destruct (Nat.eqb_spec ph (ph - 1)); [lia|].
          destruct (Nat.eqb_spec a (ph - 1)), (Nat.eqb_spec b j), (Nat.eqb_spec a ph); cbn [andb]; subst; try reflexivity; try ring; lia. }
        set (y4 := set_entry y3 ph j _) in *. clearbody y4.
        refine (conj _ (conj _ _)).
        - eapply rep_ext; [apply rep_set; [apply rep_set; [exact R4|lia|exact Hj]|lia|exact Hj]|]. intros a b Ha Hb. cbn beta.
          rewrite ent_set_entry. destruct R4 as [_ E2]. rewrite !E2 by lia. unfold pert_last, pert. rewrite !Nat.eqb_refl.
          destruct (Nat.eqb_spec ph (ph - 1)); [lia|]. destruct (Nat.eqb_spec (ph - 1) ph); [lia|].
          destruct (Nat.eqb_spec a ph), (Nat.eqb_spec b j), (Nat.eqb_spec a (ph - 1)); cbn [andb]; subst; try reflexivity; try ring; lia.
        - apply cdiff_gm; repeat split.
        - intros k Hk. unfold cdiff. cbn [ent]. rewrite (eqc_call_at c X _ x _ k HX R2), (eqc_call_at c X _ x _ k HX R4). unfold t. rewrite L. reflexivity. }
      specialize (H HA). cbn zeta in *. destruct (loop nu _ _) as [U2 J2]. destruct H as (_ & K2 & K3). refine (conj K2 _).
      intros k i j Hk Hi Hj. pose proof (blk_lt i ph nu j Hi Hj) as Hij. rewrite K3 by assumption.
      pose proof (blk_le (ph - 1) ph nu ltac:(lia)) as Hb.
      destruct (Nat.eqb_spec i (ph - 1)) as [->|N].
      - destruct (Nat.leb_spec ((ph - 1) * nu) ((ph - 1) * nu + j)), (Nat.ltb_spec ((ph - 1) * nu + j) ((ph - 1) * nu + nu)); cbn [andb]; try lia.
        replace ((ph - 1) * nu + j - (ph - 1) * nu) with j by lia. reflexivity.
      - pose proof (blk_le i (ph - 1) nu ltac:(lia)). destruct (Nat.leb_spec ((ph - 1) * nu) (i * nu + j)); [lia|]. cbn [andb].
        rewrite H3 by assumption. destruct (Nat.ltb_spec i (ph - 1)); [reflexivity|lia].
    Qed.
  End At.
End Grad.
