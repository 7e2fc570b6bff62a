(** The evaluations of [NLTrace.v] in IEEE doubles, loop by loop. *)
From Coq Require Import Bool Arith ZArith Lia Reals Lra List.
From Flocq Require Import Core.
From Verif Require Import Scalar ScalarR Double DoubleR DoubleStep Sums Mat Builder BuilderEnt NLMap NLTraj NLFun SpecNL NLLoop NLGrad NLEval NLDyn NLMPC NLTrace SpecTrace NLTraceEnt NLShape SpecDrift NLDrift.
Import ListNotations.
Local Open Scope nat_scope.
Notation RR := Reals.Rdefinitions.R.

Section Drift.
  Variable d : dims.
  Notation nx := (d_nx d). Notation nu := (d_nu d). Notation ny := (d_ny d).
  Notation ph := (d_ph d). Notation ch := (d_ch d).
  Variable B : RR.
  Hypothesis HB : (1 <= B <= big0)%R.
  Hypothesis P : 0 < ph.
  Notation D := (4 * (uro * B))%R.
  Variables (X U : nat -> nat -> dbl) (e : dbl).
  Hypothesis HS : small d B X U e.
  Variables (Xm Um : mat dbl).
  Hypothesis RX : rep Xm (ph + 1) nx X.
  Hypothesis RU : rep Um (ph + 1) nu U.

  Lemma X_ok i j : i < ph + 1 -> j < nx -> okd B (X i j). Proof. intros Hi Hj. apply HS; lia. Qed.
  Lemma U_ok i j : i < ph + 1 -> j < nu -> okd B (U i j). Proof. intros Hi Hj. apply HS; lia. Qed.
  Lemma e_ok : okd B e. Proof. apply HS. Qed.
  Lemma nth_ok (Y : nat -> nat -> dbl) c j : (forall i k, i < ph + 1 -> k < c -> okd B (Y i k)) -> j < c -> okd B (nth_entry d Y j).
  Proof. intros H Hj. unfold nth_entry. apply H; [apply Nat.mod_upper_bound; lia|]. eapply Nat.le_lt_trans; [apply Nat.div_le_upper_bound with (q := j)|exact Hj]; nia. Qed.

  (** the increments, in doubles and in real numbers *)
  Lemma dvo_R : (dv_obj : RR) = (1 / 1000000)%R. Proof. unfold dv_obj, sdec, s2. cbn [spos sdiv smul sadd s1 R_ops]. f_equal. unfold s2. cbn. lra. Qed.
  Lemma dvc_R : (dv_con : RR) = (/ 67108864)%R. Proof. unfold dv_con, sdec, s2. cbn [spos sdiv smul sadd s1 R_ops]. unfold s2. cbn. unfold Rdiv. rewrite Rmult_1_l. f_equal. lra. Qed.
  Definition good_inc (t : dbl) (tau : RR) : Prop := okd (B / 100) t /\ (- (/100 * (uro * B)) <= rval t - tau <= /100 * (uro * B))%R.
  Lemma widen t tau : okd (B / 100) t -> (- (/200 * (uro * B)) <= rval t - tau <= /200 * (uro * B))%R -> good_inc t tau.
  Proof. intros H1 H2. split; [exact H1|]. pose proof (uroB B (proj1 HB)). lra. Qed.
  Lemma dvo_small : (Rabs (rval (dv_obj : dbl)) <= / 1000)%R /\ (Rabs (rval (dv_obj : dbl) - dv_obj) <= uro / 1000)%R.
  Proof. destruct dv_obj_val as [_ V]. rewrite V, dvo_R, uro_val. split; apply Rabs_le; lra. Qed.
  Lemma dvc_small : (Rabs (rval (dv_con : dbl)) <= / 1000)%R /\ (Rabs (rval (dv_con : dbl) - dv_con) <= uro / 1000)%R.
  Proof. destruct dv_con_val as [_ V]. rewrite V, dvc_R, uro_val. split; apply Rabs_le; lra. Qed.
  Lemma inc_obj v : okd B v -> good_inc (smul dv_obj (mag v)) (smul dv_obj (mag (rval v))).
  Proof.
    intros H. destruct (mag_ok B v (proj1 HB) H) as [M E]. destruct dvo_small as [S1 S2]. rewrite mag_R, <- E.
    destruct (incr B HB _ dv_obj _ (proj1 dv_obj_val) M S1 S2) as [Q1 Q2]. apply widen; [exact Q1|exact Q2].
  Qed.
  Lemma inc_con v : okd B v -> good_inc (smul dv_con (mag v)) (smul dv_con (mag (rval v))).
  Proof.
    intros H. destruct (mag_ok B v (proj1 HB) H) as [M E]. destruct dvc_small as [S1 S2]. rewrite mag_R, <- E.
    destruct (incr B HB _ dv_con _ (proj1 dv_con_val) M S1 S2) as [Q1 Q2]. apply widen; [exact Q1|exact Q2].
  Qed.
  (** the increment of the slack: relative to max(c, |e|) *)
  Lemma inc_slack (c : dbl) (cR : RR) : okd 1 c -> (Rabs (rval c) <= / 1000)%R -> (Rabs (rval c - cR) <= uro / 1000)%R ->
    good_inc (smul (smax c (sabs e)) c) (smul (smax cR (sabs (rval e))) cR).
  Proof.
    intros Oc S1 S2. destruct (abs_ok B e e_ok) as [Oa Ea]. destruct (max_ok B c (sabs e) (okd_mono 1 B c (proj1 HB) Oc) Oa) as [Om Em].
    rewrite mul_sym, Rmax_s, Rabs_s. destruct (incr B HB c cR _ Oc Om S1 S2) as [Q1 Q2]. split; [exact Q1|]. rewrite Em, Ea in Q2.
    set (m1 := Rmax (rval c) (Rabs (rval e))) in *. set (m2 := Rmax cR (Rabs (rval e))) in *.
    assert (M : (Rabs (m1 - m2) <= uro / 1000)%R).
    { unfold m1, m2, Rmax. apply Rabs_le_inv in S2. apply Rabs_le. uros. destruct (Rle_dec (rval c) (Rabs (rval e))), (Rle_dec cR (Rabs (rval e))); lra. }
    assert (C1 : (Rabs cR <= 1)%R). { apply Rabs_le_inv in S1, S2. apply Rabs_le. uros. lra. }
    assert (K : (Rabs (cR * (m1 - m2)) <= 1 * (uro / 1000))%R) by (rewrite Rabs_mult; apply Rmult_le_compat; try apply Rabs_pos; assumption).
    apply Rabs_le_inv in K. pose proof (uroB B (proj1 HB)). uros. assert (uro * 1 <= uro * B)%R by (apply Rmult_le_compat_l; lra).
    cbn [smul R_ops]. lra.
  Qed.

  Lemma X_near : tnear B (ph + 1) nx X (reals X).
  Proof. intros i j Hi Hj. apply near_of. exact (self_near B HB (ph + 1) nx X X_ok i j Hi Hj). Qed.
  Lemma U_near : tnear B (ph + 1) nu U (reals U).
  Proof. intros i j Hi Hj. apply near_of. exact (self_near B HB (ph + 1) nu U U_ok i j Hi Hj). Qed.
  Lemma e_near : near D e (rval e).
  Proof. apply near_of. destruct e_ok as (a & b & _). refine (conj a (conj b _)). pose proof (uroB B (proj1 HB)). lra. Qed.

  (** a point of the objective or of the inequalities: near, and the measured state untouched *)
  Definition nr (p : (nat -> nat -> dbl) * (nat -> nat -> dbl) * dbl) (q : (nat -> nat -> RR) * (nat -> nat -> RR) * RR) : Prop :=
    near_pt d D p q /\ forall j, j < nx -> fst (fst p) 0 j = X 0 j.
  Lemma nr_intro Y V f y v g : tnear B (ph + 1) nx Y y -> tnear B (ph + 1) nu V v -> near D f g -> (forall j, j < nx -> Y 0 j = X 0 j) -> nr (Y, V, f) (y, v, g).
  Proof. intros H1 H2 H3 H4. split; [|exact H4]. refine (conj _ (conj _ H3)); intros i j Hi Hj; [apply H1|apply H2]; lia. Qed.
  Definition nr2 (p : (nat -> nat -> dbl) * (nat -> nat -> dbl)) (q : (nat -> nat -> RR) * (nat -> nat -> RR)) : Prop :=
    near_pt2 d D p q /\ forall j, j < nx -> fst p 0 j = X 0 j.
  Lemma nr2_intro Y V y v : tnear B (ph + 1) nx Y y -> tnear B (ph + 1) nu V v -> (forall j, j < nx -> Y 0 j = X 0 j) -> nr2 (Y, V) (y, v).
  Proof. intros H1 H2 H4. split; [|exact H4]. split; intros i j Hi Hj; [apply H1|apply H2]; lia. Qed.

  (** what is still untouched before step (i, j) *)
  Definition fx (i j a b : nat) : Prop := a = 0 \/ i + 1 < a \/ (a = i + 1 /\ j <= b).
  Definition fu (i j a b : nat) : Prop := i < a \/ (a = i /\ j <= b).
  Definition fl (j a b : nat) : Prop := (a = ph - 1 \/ a = ph) /\ j <= b.
  Notation dtx := (dtab B (ph + 1) nx X). Notation dtu := (dtab B (ph + 1) nu U).

  Section Calls.
    Variable og : option (out_t dbl).
    Notation RXt := (reals X). Notation RUt := (reals U). Notation re := (rval e).

    Lemma obj_jx_dr : exists X' ps, obj_jx_calls d og Xm Um e = (X', flat_map (obj_shown d og) ps) /\
      Forall2 nr ps (each ph nx (fun i j => [(pert RXt (i + 1) j (dv_obj * mag (nth_entry d RXt j))%S, RUt, re)])) /\ dtx (fun a _ => a = 0) X'.
    Proof.
      destruct (walk2 (obj_shown d og) nr (fun i j => dtx (fx i j)) (fun i j '(x, L) =>
        let dx := smul dv_obj (lin (abs1 Xm) j) in
        let x1 := set_entry x (i + 1) j (sadd (ent x (i + 1) j) dx) in
        (set_entry x1 (i + 1) j (ssub (ent x1 (i + 1) j) dx), L ++ obj_pt d og x1 Um e))
        (fun i j => [(pert RXt (i + 1) j (dv_obj * mag (nth_entry d RXt j))%S, RUt, re)]) ph nx Xm) as (X' & ps & E & F2 & I).
      - intros i j x L Hi Hj HI. rewrite (lin_mag d Xm nx X j RX Hj). destruct (inc_obj _ (nth_ok X nx j X_ok Hj)) as [T1 T2].
        destruct (dtab_fwd B HB (ph + 1) nx X X_ok (i + 1) j ltac:(lia) Hj _ _ T1 T2 (fx i j) (fx i (S j)) x HI ltac:(unfold fx; lia) ltac:(unfold fx; lia)) as [(Y & R1 & N1 & Z1) I1].
        eexists. exists [(Y, U, e)]. split; [cbn [flat_map]; rewrite app_nil_r, <- (obj_pt_at d og _ Um Y U e R1 RU); reflexivity|]. split; [|exact I1].
        constructor; [|constructor]. apply nr_intro; [exact N1|exact U_near|exact e_near|]. intros k Hk. apply Z1; [lia|exact Hk|]. now left.
      - intros i x Hi. apply dtab_mono. intros a b _ Hb. unfold fx. lia.
      - apply dtab_init; [exact HB|exact X_ok|exact RX].
      - exists X', ps. split; [exact E|]. split; [exact F2|]. revert I. apply dtab_mono. intros a b _ _ ->. now left.
    Qed.

    (** the states after their loop *)
    Variable Xd : mat dbl.
    Hypothesis DX : dtx (fun a _ => a = 0) Xd.
    Lemma Xd_tab : exists Y, rep Xd (ph + 1) nx Y /\ tnear B (ph + 1) nx Y RXt /\ forall j, j < nx -> Y 0 j = X 0 j.
    Proof. destruct (dtab_near _ _ _ _ _ _ DX) as (Y & r & n & z). exists Y. split; [exact r|]. split; [exact n|]. intros j Hj. apply z; [lia|exact Hj|reflexivity]. Qed.

    Lemma obj_ju_dr : exists U' ps, obj_ju_calls d og (abs1 Um) Xd Um e = (U', flat_map (obj_shown d og) ps) /\
      Forall2 nr ps (each (ph - 1) nu (fun i j => [(RXt, pert RUt i j (dv_obj * mag (nth_entry d RUt j))%S, re)])) /\ dtu (fu (ph - 1) 0) U'.
    Proof.
      destruct Xd_tab as (Y & RY & NY & ZY).
      destruct (walk2 (obj_shown d og) nr (fun i j => dtu (fu i j)) (fun i j '(u, L) =>
        let du := smul dv_obj (lin (abs1 Um) j) in
        let u1 := set_entry u i j (sadd (ent u i j) du) in
        (set_entry u1 i j (ssub (ent u1 i j) du), L ++ obj_pt d og Xd u1 e))
        (fun i j => [(RXt, pert RUt i j (dv_obj * mag (nth_entry d RUt j))%S, re)]) (ph - 1) nu Um) as (U' & ps & E & F2 & I).
      - intros i j x L Hi Hj HI. rewrite (lin_mag d Um nu U j RU Hj). destruct (inc_obj _ (nth_ok U nu j U_ok Hj)) as [T1 T2].
        destruct (dtab_fwd B HB (ph + 1) nu U U_ok i j ltac:(lia) Hj _ _ T1 T2 (fu i j) (fu i (S j)) x HI ltac:(unfold fu; lia) ltac:(unfold fu; lia)) as [(V & R1 & N1 & Z1) I1].
        eexists. exists [(Y, V, e)]. split; [cbn [flat_map]; rewrite app_nil_r, <- (obj_pt_at d og Xd _ Y V e RY R1); reflexivity|]. split; [|exact I1].
        constructor; [|constructor]. apply nr_intro; [exact NY|exact N1|exact e_near|exact ZY].
      - intros i x Hi. apply dtab_mono. intros a b _ Hb. unfold fu. lia.
      - apply dtab_init; [exact HB|exact U_ok|exact RU].
      - exists U', ps. split; [exact E|]. split; [exact F2|exact I].
    Qed.
    Lemma obj_jl_dr Ud : dtu (fu (ph - 1) 0) Ud -> exists U' ps, obj_jl_calls d og (abs1 Um) Xd Ud e = (U', flat_map (obj_shown d og) ps) /\
      Forall2 nr ps (flat_map (fun j => [(RXt, pert2 d RUt j (dv_obj * mag (nth_entry d RUt j))%S, re)]) (seq 0 nu)) /\ dtu (fun _ _ => False) U'.
    Proof.
      intros DU. destruct Xd_tab as (Y & RY & NY & ZY).
      destruct (walk1 (obj_shown d og) nr (fun j => dtu (fl j)) (fun j '(u, L) =>
        let du := smul dv_obj (lin (abs1 Um) j) in
        let u1 := set_entry u (ph - 1) j (sadd (ent u (ph - 1) j) du) in
        let u2 := set_entry u1 ph j (sadd (ent u1 ph j) du) in
        let u3 := set_entry u2 (ph - 1) j (ssub (ent u2 (ph - 1) j) du) in
        (set_entry u3 ph j (ssub (ent u3 ph j) du), L ++ obj_pt d og Xd u2 e))
        (fun j => [(RXt, pert2 d RUt j (dv_obj * mag (nth_entry d RUt j))%S, re)]) nu) with (k := nu) (x := Ud) (L := @nil (ucall dbl)) as (U' & ps & E & F2 & I).
      - intros j x L Hj HI. rewrite (lin_mag d Um nu U j RU Hj). destruct (inc_obj _ (nth_ok U nu j U_ok Hj)) as [T1 T2].
        destruct (@pair_fwd (ph + 1) nu (ph - 1) ph j ltac:(lia) ltac:(lia) Hj ltac:(lia) B HB U U_ok _ _ T1 T2 (fl j) (fl (S j)) x HI ltac:(unfold fl; lia) ltac:(unfold fl; lia) ltac:(unfold fl; lia))
          as [(V & R1 & N1 & Z1) I1].
        eexists. exists [(Y, V, e)]. split; [cbn [flat_map]; rewrite app_nil_r, <- (obj_pt_at d og Xd _ Y V e RY R1); reflexivity|]. split; [|exact I1].
        constructor; [|constructor]. apply nr_intro; [exact NY|exact N1|exact e_near|exact ZY].
      - exact (le_n _).
      - revert DU. apply dtab_mono. intros a b Ha _. unfold fu, fl. lia.
      - exists U', ps. split; [exact E|]. split; [exact F2|]. revert I. apply dtab_mono. intros a b _ _ [].
    Qed.
    Lemma obj_je_dr Ud : dtu (fun _ _ => False) Ud -> exists ps, obj_je_calls d og Xd Ud e = flat_map (obj_shown d og) ps /\
      Forall2 nr ps (let de := (smax (sdec 1%positive 1000000%positive) (sabs re) * dv_obj)%S in [(RXt, RUt, (re + de)%S); (RXt, RUt, (re - de)%S)]).
    Proof.
      intros DU. destruct Xd_tab as (Y & RY & NY & ZY). destruct (dtab_near _ _ _ _ _ _ DU) as (V & RV & NV & _). unfold obj_je_calls.
      destruct (inc_slack dv_obj dv_obj (proj1 dv_obj_val) (proj1 dvo_small) (proj2 dvo_small)) as [T1 T2]. fold (dv_obj (F := dbl)). fold (dv_obj (F := RR)). cbn zeta.
      set (de := smul (smax dv_obj (sabs e)) dv_obj) in *.
      exists [(Y, V, sadd e de); (Y, V, ssub e de)]. split.
      - cbn [flat_map]. now rewrite app_nil_r, !(obj_pt_at d og Xd Ud Y V _ RY RV).
      - constructor; [|constructor; [|constructor]]; (apply nr_intro; [exact NY|exact NV| |exact ZY]); apply near_of.
        + exact (proj1 (fwd_num B HB e de _ e_ok T1 T2)).
        + exact (sub_num B HB e de _ e_ok T1 T2).
    Qed.

    Lemma ieq_jx_dr : exists X' ps, ieq_jx_calls d og Xm Um e = (X', flat_map (ieq_shown d og) ps) /\
      Forall2 nr ps (each ph nx (fun i j => [(pert RXt (i + 1) j (dv_con * mag (nth_entry d RXt j))%S, RUt, re); (pert RXt (i + 1) j (- (dv_con * mag (nth_entry d RXt j)))%S, RUt, re)])) /\
      dtx (fun a _ => a = 0) X'.
    Proof.
      destruct (walk2 (ieq_shown d og) nr (fun i j => dtx (fx i j)) (fun i j '(x, L) =>
        let dx := smul dv_con (lin (abs1 Xm) j) in
        let x1 := set_entry x (i + 1) j (sadd (ent x (i + 1) j) dx) in
        let x2 := set_entry x1 (i + 1) j (ssub (ent x1 (i + 1) j) (smul s2 dx)) in
        (set_entry x2 (i + 1) j (sadd (ent x2 (i + 1) j) dx), (L ++ ieq_pt d og x1 Um e) ++ ieq_pt d og x2 Um e))
        (fun i j => [(pert RXt (i + 1) j (dv_con * mag (nth_entry d RXt j))%S, RUt, re); (pert RXt (i + 1) j (- (dv_con * mag (nth_entry d RXt j)))%S, RUt, re)]) ph nx Xm) as (X' & ps & E & F2 & I).
      - intros i j x L Hi Hj HI. rewrite (lin_mag d Xm nx X j RX Hj). destruct (inc_con _ (nth_ok X nx j X_ok Hj)) as [T1 T2].
        destruct (dtab_cen B HB (ph + 1) nx X X_ok (i + 1) j ltac:(lia) Hj _ _ T1 T2 (fx i j) (fx i (S j)) x HI ltac:(unfold fx; lia) ltac:(unfold fx; lia)) as ((Y & R1 & N1 & Z1) & (Y2 & R2 & N2 & Z2) & I1).
        eexists. exists [(Y, U, e); (Y2, U, e)]. split; [cbn [flat_map]; rewrite app_nil_r, app_assoc, <- (ieq_pt_at d og _ Um Y U e R1 RU), <- (ieq_pt_at d og _ Um Y2 U e R2 RU); reflexivity|].
        split; [|exact I1]. constructor; [|constructor; [|constructor]].
        + apply nr_intro; [exact N1|exact U_near|exact e_near|]. intros k Hk. apply Z1; [lia|exact Hk|]. now left.
        + apply nr_intro; [exact N2|exact U_near|exact e_near|]. intros k Hk. apply Z2; [lia|exact Hk|]. now left.
      - intros i x Hi. apply dtab_mono. intros a b _ Hb. unfold fx. lia.
      - apply dtab_init; [exact HB|exact X_ok|exact RX].
      - exists X', ps. split; [exact E|]. split; [exact F2|]. revert I. apply dtab_mono. intros a b _ _ ->. now left.
    Qed.
    Lemma ieq_ju_dr : exists U' ps, ieq_ju_calls d og Xd Um e = (U', flat_map (ieq_shown d og) ps) /\
      Forall2 nr ps (each ph nu (fun i j => [(RXt, pert RUt i j (dv_con * mag (nth_entry d RUt j))%S, re); (RXt, pert RUt i j (- (dv_con * mag (nth_entry d RUt j)))%S, re)])) /\
      dtu (fun _ _ => False) U'.
    Proof.
      destruct Xd_tab as (Y & RY & NY & ZY).
      destruct (walk2 (ieq_shown d og) nr (fun i j => dtu (fu i j)) (fun i j '(u, L) =>
        let du := smul dv_con (lin (abs1 Um) j) in
        let u1 := set_entry u i j (sadd (ent u i j) du) in
        let u2 := set_entry u1 i j (ssub (ent u1 i j) (smul s2 du)) in
        (set_entry u2 i j (sadd (ent u2 i j) du), (L ++ ieq_pt d og Xd u1 e) ++ ieq_pt d og Xd u2 e))
        (fun i j => [(RXt, pert RUt i j (dv_con * mag (nth_entry d RUt j))%S, re); (RXt, pert RUt i j (- (dv_con * mag (nth_entry d RUt j)))%S, re)]) ph nu Um) as (U' & ps & E & F2 & I).
      - intros i j x L Hi Hj HI. rewrite (lin_mag d Um nu U j RU Hj). destruct (inc_con _ (nth_ok U nu j U_ok Hj)) as [T1 T2].
        destruct (dtab_cen B HB (ph + 1) nu U U_ok i j ltac:(lia) Hj _ _ T1 T2 (fu i j) (fu i (S j)) x HI ltac:(unfold fu; lia) ltac:(unfold fu; lia)) as ((V & R1 & N1 & _) & (V2 & R2 & N2 & _) & I1).
        eexists. exists [(Y, V, e); (Y, V2, e)]. split; [cbn [flat_map]; rewrite app_nil_r, app_assoc, <- (ieq_pt_at d og Xd _ Y V e RY R1), <- (ieq_pt_at d og Xd _ Y V2 e RY R2); reflexivity|].
        split; [|exact I1]. constructor; [|constructor; [|constructor]]; (apply nr_intro; [exact NY|assumption|exact e_near|exact ZY]).
      - intros i x Hi. apply dtab_mono. intros a b _ Hb. unfold fu. lia.
      - apply dtab_init; [exact HB|exact U_ok|exact RU].
      - exists U', ps. split; [exact E|]. split; [exact F2|]. revert I. apply dtab_mono. intros a b _ _ [].
    Qed.
    Lemma ieq_je_dr Ud : dtu (fun _ _ => False) Ud -> exists ps, ieq_je_calls d og Xd Ud e = flat_map (ieq_shown d og) ps /\
      Forall2 nr ps (let de := (smax dv_con (sabs re) * dv_con)%S in [(RXt, RUt, (re + de)%S); (RXt, RUt, (re - de)%S)]).
    Proof.
      intros DU. destruct Xd_tab as (Y & RY & NY & ZY). destruct (dtab_near _ _ _ _ _ _ DU) as (V & RV & NV & _). unfold ieq_je_calls.
      destruct (inc_slack dv_con dv_con (proj1 dv_con_val) (proj1 dvc_small) (proj2 dvc_small)) as [T1 T2]. cbn zeta.
      set (de := smul (smax dv_con (sabs e)) dv_con) in *.
      exists [(Y, V, sadd e de); (Y, V, ssub e de)]. split.
      - cbn [flat_map]. now rewrite app_nil_r, !(ieq_pt_at d og Xd Ud Y V _ RY RV).
      - constructor; [|constructor; [|constructor]]; (apply nr_intro; [exact NY|exact NV| |exact ZY]); apply near_of.
        + exact (proj1 (fwd_num B HB e de _ e_ok T1 T2)).
        + exact (sub_num B HB e de _ e_ok T1 T2).
    Qed.

    Lemma eqc_jx_dr : exists X' ps, eqc_jx_calls d Xm Um = (X', flat_map (eqc_shown d) ps) /\
      Forall2 nr2 ps (each ph nx (fun i j => [(pert RXt (i + 1) j (dv_con * mag (RXt (i + 1)%nat j))%S, RUt); (pert RXt (i + 1) j (- (dv_con * mag (RXt (i + 1)%nat j)))%S, RUt)])) /\
      dtx (fun a _ => a = 0) X'.
    Proof.
      destruct (walk2 (eqc_shown d) nr2 (fun i j => dtx (fx i j)) (fun i j '(x, L) =>
        let dx := smul dv_con (ent (abs1 Xm) (i + 1) j) in
        let x1 := set_entry x (i + 1) j (sadd (ent x (i + 1) j) dx) in
        let x2 := set_entry x1 (i + 1) j (ssub (ent x1 (i + 1) j) (smul s2 dx)) in
        (set_entry x2 (i + 1) j (sadd (ent x2 (i + 1) j) dx), (L ++ eqc_pt x1 Um) ++ eqc_pt x2 Um))
        (fun i j => [(pert RXt (i + 1) j (dv_con * mag (RXt (i + 1)%nat j))%S, RUt); (pert RXt (i + 1) j (- (dv_con * mag (RXt (i + 1)%nat j)))%S, RUt)]) ph nx Xm) as (X' & ps & E & F2 & I).
      - intros i j x L Hi Hj HI. rewrite (abs1_ent Xm _ _ X (i + 1) j RX ltac:(lia) Hj). change (smax (sabs (X (i + 1)%nat j)) s1) with (mag (X (i + 1)%nat j)).
        destruct (inc_con _ (X_ok (i + 1) j ltac:(lia) Hj)) as [T1 T2].
        destruct (dtab_cen B HB (ph + 1) nx X X_ok (i + 1) j ltac:(lia) Hj _ _ T1 T2 (fx i j) (fx i (S j)) x HI ltac:(unfold fx; lia) ltac:(unfold fx; lia)) as ((Y & R1 & N1 & Z1) & (Y2 & R2 & N2 & Z2) & I1).
        eexists. exists [(Y, U); (Y2, U)]. split; [cbn [flat_map]; rewrite app_nil_r, app_assoc, <- (eqc_pt_at d _ Um Y U R1 RU), <- (eqc_pt_at d _ Um Y2 U R2 RU); reflexivity|].
        split; [|exact I1]. constructor; [|constructor; [|constructor]].
        + apply nr2_intro; [exact N1|exact U_near|]. intros k Hk. apply Z1; [lia|exact Hk|]. now left.
        + apply nr2_intro; [exact N2|exact U_near|]. intros k Hk. apply Z2; [lia|exact Hk|]. now left.
      - intros i x Hi. apply dtab_mono. intros a b _ Hb. unfold fx. lia.
      - apply dtab_init; [exact HB|exact X_ok|exact RX].
      - exists X', ps. split; [exact E|]. split; [exact F2|]. revert I. apply dtab_mono. intros a b _ _ ->. now left.
    Qed.
    Lemma eqc_ju_dr : exists U' ps, eqc_ju_calls d (abs1 Um) Xd Um = (U', flat_map (eqc_shown d) ps) /\
      Forall2 nr2 ps (each (ph - 1) nu (fun i j => [(RXt, pert RUt i j (dv_con * mag (RUt (ph - 1)%nat j))%S); (RXt, pert RUt i j (- (dv_con * mag (RUt (ph - 1)%nat j)))%S)])) /\
      dtu (fu (ph - 1) 0) U'.
    Proof.
      destruct Xd_tab as (Y & RY & NY & ZY).
      destruct (walk2 (eqc_shown d) nr2 (fun i j => dtu (fu i j)) (fun i j '(u, L) =>
        let du := smul dv_con (ent (abs1 Um) (ph - 1) j) in
        let u1 := set_entry u i j (sadd (ent u i j) du) in
        let u2 := set_entry u1 i j (ssub (ent u1 i j) (smul s2 du)) in
        (set_entry u2 i j (sadd (ent u2 i j) du), (L ++ eqc_pt Xd u1) ++ eqc_pt Xd u2))
        (fun i j => [(RXt, pert RUt i j (dv_con * mag (RUt (ph - 1)%nat j))%S); (RXt, pert RUt i j (- (dv_con * mag (RUt (ph - 1)%nat j)))%S)]) (ph - 1) nu Um) as (U' & ps & E & F2 & I).
      - intros i j x L Hi Hj HI. rewrite (abs1_ent Um _ _ U (ph - 1) j RU ltac:(lia) Hj). change (smax (sabs (U (ph - 1)%nat j)) s1) with (mag (U (ph - 1)%nat j)).
        destruct (inc_con _ (U_ok (ph - 1) j ltac:(lia) Hj)) as [T1 T2].
        destruct (dtab_cen B HB (ph + 1) nu U U_ok i j ltac:(lia) Hj _ _ T1 T2 (fu i j) (fu i (S j)) x HI ltac:(unfold fu; lia) ltac:(unfold fu; lia)) as ((V & R1 & N1 & _) & (V2 & R2 & N2 & _) & I1).
        eexists. exists [(Y, V); (Y, V2)]. split; [cbn [flat_map]; rewrite app_nil_r, app_assoc, <- (eqc_pt_at d Xd _ Y V RY R1), <- (eqc_pt_at d Xd _ Y V2 RY R2); reflexivity|].
        split; [|exact I1]. constructor; [|constructor; [|constructor]]; (apply nr2_intro; [exact NY|assumption|exact ZY]).
      - intros i x Hi. apply dtab_mono. intros a b _ Hb. unfold fu. lia.
      - apply dtab_init; [exact HB|exact U_ok|exact RU].
      - exists U', ps. split; [exact E|]. split; [exact F2|exact I].
    Qed.
    Lemma eqc_jl_dr Ud : dtu (fu (ph - 1) 0) Ud -> exists U' ps, eqc_jl_calls d (abs1 Um) Xd Ud = (U', flat_map (eqc_shown d) ps) /\
      Forall2 nr2 ps (flat_map (fun j => [(RXt, pert2 d RUt j (dv_con * mag (RUt (ph - 1)%nat j))%S); (RXt, pert2 d RUt j (- (dv_con * mag (RUt (ph - 1)%nat j)))%S)]) (seq 0 nu)).
    Proof.
      intros DU. destruct Xd_tab as (Y & RY & NY & ZY).
      destruct (walk1 (eqc_shown d) nr2 (fun j => dtu (fl j)) (fun j '(u, L) =>
        let du := smul dv_con (ent (abs1 Um) (ph - 1) j) in
        let u1 := set_entry u (ph - 1) j (sadd (ent u (ph - 1) j) du) in
        let u2 := set_entry u1 ph j (sadd (ent u1 ph j) du) in
        let u3 := set_entry u2 (ph - 1) j (ssub (ent u2 (ph - 1) j) (smul s2 du)) in
        let u4 := set_entry u3 ph j (ssub (ent u3 ph j) (smul s2 du)) in
        let u5 := set_entry u4 (ph - 1) j (sadd (ent u4 (ph - 1) j) du) in
        (set_entry u5 ph j (sadd (ent u5 ph j) du), (L ++ eqc_pt Xd u2) ++ eqc_pt Xd u4))
        (fun j => [(RXt, pert2 d RUt j (dv_con * mag (RUt (ph - 1)%nat j))%S); (RXt, pert2 d RUt j (- (dv_con * mag (RUt (ph - 1)%nat j)))%S)]) nu) with (k := nu) (x := Ud) (L := @nil (ucall dbl)) as (U' & ps & E & F2 & I).
      - intros j x L Hj HI. rewrite (abs1_ent Um _ _ U (ph - 1) j RU ltac:(lia) Hj). change (smax (sabs (U (ph - 1)%nat j)) s1) with (mag (U (ph - 1)%nat j)).
        destruct (inc_con _ (U_ok (ph - 1) j ltac:(lia) Hj)) as [T1 T2].
        destruct (@pair_cen (ph + 1) nu (ph - 1) ph j ltac:(lia) ltac:(lia) Hj ltac:(lia) B HB U U_ok _ _ T1 T2 (fl j) (fl (S j)) x HI ltac:(unfold fl; lia) ltac:(unfold fl; lia) ltac:(unfold fl; lia))
          as ((V & R1 & N1 & _) & (V2 & R2 & N2 & _) & I1).
        eexists. exists [(Y, V); (Y, V2)]. split; [cbn [flat_map]; rewrite app_nil_r, app_assoc, <- (eqc_pt_at d Xd _ Y V RY R1), <- (eqc_pt_at d Xd _ Y V2 RY R2); reflexivity|]. split; [|exact I1].
        constructor; [|constructor; [|constructor]]; (apply nr2_intro; [exact NY|assumption|exact ZY]).
      - exact (le_n _).
      - revert DU. apply dtab_mono. intros a b Ha _. unfold fu, fl. lia.
      - exists U', ps. split; [exact E|exact F2].
    Qed.
  End Calls.
End Drift.
