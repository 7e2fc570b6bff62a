(** Property C74: where the user's functions are evaluated in double precision. *)
From Coq Require Import Bool Arith ZArith Lia Reals Lra List.
From Coq Require Import Floats.SpecFloat.
From Flocq Require Import Core.
From Verif Require Import Scalar ScalarR Double DoubleR DoubleStep Sums Mat Builder BuilderEnt LMPC NLMap NLTraj NLFun SpecNL NLLoop NLGrad NLEval NLDyn NLMPC SpecNLC SpecNLP NLRef NLRun NLTrace SpecTrace NLTraceEnt NLShape SpecDrift NLDrift NLDrift2 PropNL3 PropDouble Slice.
Import ListNotations.
Local Open Scope nat_scope.

(** the vectors handed to the dynamics *)
Section Vec.
  Variable d : dims.
  Notation nx := (d_nx d). Notation nu := (d_nu d).
  Variable B : RR.
  Hypothesis HB : (1 <= B <= big0)%R.
  Notation D := (4 * (uro * B))%R.
  Definition put (v : nat -> dbl) (k : nat) (w : dbl) : nat -> dbl := fun i => if i =? k then w else v i.
  Lemma rv_put (V : mat dbl) n v k w : rv V n v -> k < n -> rv (set_entry V k 0 w) n (put v k w).
  Proof.
    intros H Hk. assert (R : rep V n 1 (fun i _ => v i)). { destruct H as [G E]. split; [exact G|]. intros i j Hi Hj. replace j with 0 by lia. now apply E. }
    destruct (rep_set V n 1 _ k 0 w R Hk ltac:(lia)) as [G E]. split; [exact G|]. intros i Hi. rewrite E by lia. unfold put. now rewrite andb_true_r.
  Qed.
  Lemma put_near1 (v : nat -> dbl) n k w s : (forall i, i < n -> okd B (v i)) -> nearr D w (rval (v k) + s)%R ->
    forall j, j < n -> near D (put v k w j) (bump (fun i => rval (v i)) k s j).
  Proof.
    intros Hv Hw j Hj. unfold put, bump. destruct (Nat.eqb_spec j k) as [->|N]; [now apply near_of|]. apply near_of. destruct (Hv j Hj) as (a & b & _).
    refine (conj a (conj b _)). pose proof (uroB B (proj1 HB)). lra.
  Qed.
  Lemma vec_self (v : nat -> dbl) n : (forall i, i < n -> okd B (v i)) -> forall j, j < n -> near D (v j) (rval (v j)).
  Proof. intros Hv j Hj. apply near_of. destruct (Hv j Hj) as (a & b & _). refine (conj a (conj b _)). pose proof (uroB B (proj1 HB)). lra. Qed.

  Lemma dyn_around_dr (X U : mat dbl) x u p : rv X nx x -> rv U nu u -> (forall j, j < nx -> okd B (x j)) -> (forall j, j < nu -> okd B (u j)) ->
    exists ps, dyn_jac_calls d X U p = flat_map (dyn_shown d p) ps /\
      Forall2 (near_vecs d D) ps (dyn_around d (fun j => rval (x j)) (fun j => rval (u j))).
  Proof.
    intros HX HU OX OU.
    exists (flat_map (fun j => [(put x j (sadd (x j) (smul dv_con (mag (x j)))), u); (put x j (ssub (x j) (smul dv_con (mag (x j)))), u)]) (seq 0 nx) ++
            flat_map (fun j => [(x, put u j (sadd (u j) (smul dv_con (mag (u j))))); (x, put u j (ssub (u j) (smul dv_con (mag (u j)))))]) (seq 0 nu)).
    split.
    - unfold dyn_jac_calls. rewrite flat_map_app, !flat_flat. cbn zeta.
      rewrite (app_loop nx (fun i => dyn_pt (set_entry X i 0 (sadd (ent X i 0) (smul dv_con (ent (abs1 X) i 0)))) U p ++
        dyn_pt (set_entry X i 0 (ssub (ent X i 0) (smul dv_con (ent (abs1 X) i 0)))) U p)).
      rewrite (app_loop nu (fun i => dyn_pt X (set_entry U i 0 (sadd (ent U i 0) (smul dv_con (ent (abs1 U) i 0)))) p ++
        dyn_pt X (set_entry U i 0 (ssub (ent U i 0) (smul dv_con (ent (abs1 U) i 0)))) p)).
      cbn [app]. f_equal.
      + rewrite !flat_map_concat_map. f_equal. apply map_ext_in. intros j Hj. apply in_seq in Hj. cbn [flat_map dyn_shown app]. unfold dyn_pt. cbn [app].
        rewrite (abs1_v X nx x j HX ltac:(lia)). change (smax (sabs (x j)) s1) with (mag (x j)).
        assert (EX : ent X j 0 = x j) by (destruct HX as [_ E]; apply E; lia). rewrite EX, (rv_lst U _ _ HU).
        now rewrite (rv_lst _ _ _ (rv_put X nx x j (sadd (x j) (smul dv_con (mag (x j)))) HX ltac:(lia))), (rv_lst _ _ _ (rv_put X nx x j (ssub (x j) (smul dv_con (mag (x j)))) HX ltac:(lia))).
      + rewrite !flat_map_concat_map. f_equal. apply map_ext_in. intros j Hj. apply in_seq in Hj. cbn [flat_map dyn_shown app]. unfold dyn_pt. cbn [app].
        rewrite (abs1_v U nu u j HU ltac:(lia)). change (smax (sabs (u j)) s1) with (mag (u j)).
        assert (EX : ent U j 0 = u j) by (destruct HU as [_ E]; apply E; lia). rewrite EX, (rv_lst X _ _ HX).
        now rewrite (rv_lst _ _ _ (rv_put U nu u j (sadd (u j) (smul dv_con (mag (u j)))) HU ltac:(lia))), (rv_lst _ _ _ (rv_put U nu u j (ssub (u j) (smul dv_con (mag (u j)))) HU ltac:(lia))).
    - unfold dyn_around. apply Forall2_app.
      + assert (G : forall l, (forall j, In j l -> j < nx) -> Forall2 (near_vecs d D)
          (flat_map (fun j => [(put x j (sadd (x j) (smul dv_con (mag (x j)))), u); (put x j (ssub (x j) (smul dv_con (mag (x j)))), u)]) l)
          (flat_map (fun j => let t := (dv_con * mag (rval (x j)))%S in [(bump (fun i => rval (x i)) j t, fun i => rval (u i)); (bump (fun i => rval (x i)) j (- t)%S, fun i => rval (u i))]) l)).
        { induction l as [|j l IH]; intros Hl; [constructor|]. cbn [flat_map]. apply Forall2_app; [|apply IH; intros; apply Hl; now right].
          specialize (Hl j (or_introl eq_refl)). destruct (inc_con B HB _ (OX j Hl)) as [T1 T2]. cbn zeta.
          constructor; [|constructor; [|constructor]]; (split; [|now apply vec_self]); cbn [fst snd]; apply put_near1; try assumption.
          - exact (proj1 (fwd_num B HB _ _ _ (OX j Hl) T1 T2)).
          - exact (sub_num B HB _ _ _ (OX j Hl) T1 T2). }
        apply G. intros j Hj. apply in_seq in Hj. lia.
      + assert (G : forall l, (forall j, In j l -> j < nu) -> Forall2 (near_vecs d D)
          (flat_map (fun j => [(x, put u j (sadd (u j) (smul dv_con (mag (u j))))); (x, put u j (ssub (u j) (smul dv_con (mag (u j)))))]) l)
          (flat_map (fun j => let t := (dv_con * mag (rval (u j)))%S in [(fun i => rval (x i), bump (fun i => rval (u i)) j t); (fun i => rval (x i), bump (fun i => rval (u i)) j (- t)%S)]) l)).
        { induction l as [|j l IH]; intros Hl; [constructor|]. cbn [flat_map]. apply Forall2_app; [|apply IH; intros; apply Hl; now right].
          specialize (Hl j (or_introl eq_refl)). destruct (inc_con B HB _ (OU j Hl)) as [T1 T2]. cbn zeta.
          constructor; [|constructor; [|constructor]]; (split; [now apply vec_self|]); cbn [fst snd]; apply put_near1; try assumption.
          - exact (proj1 (fwd_num B HB _ _ _ (OU j Hl) T1 T2)).
          - exact (sub_num B HB _ _ _ (OU j Hl) T1 T2). }
        apply G. intros j Hj. apply in_seq in Hj. lia.
  Qed.
End Vec.

Section Main.
  Variable junk : nat -> nat -> dbl.
  Variable d : dims.
  Variables ni ne : nat.
  Variable dyn_eq : bool.
  Notation nx := (d_nx d). Notation nu := (d_nu d). Notation ny := (d_ny d).
  Notation ph := (d_ph d). Notation ch := (d_ch d). Notation N := (n_dec d).
  Notation reached := (nreached junk d ni ne dyn_eq).
  Notation cf := (ncfg_run d ni ne).

  (** [X], [U], [e]: the trajectories and the slack on which the objective is evaluated when NLopt asks for its value at [z] *)
  Definition shows (s : nmpc dbl) (og : option (out_t dbl)) (x0 : mat dbl) (z : list dbl) (X U : nat -> nat -> dbl) (e : dbl) : Prop :=
    eval_obj_calls d false s x0 z = obj_shown d og (X, U, e).

  Lemma tab_inj r c (X Y : nat -> nat -> dbl) : tab r c X = tab r c Y -> forall i j, i < r -> j < c -> X i j = Y i j.
  Proof.
    intros H i j Hi Hj. assert (E : nth j (nth i (tab r c X) []) s0 = nth j (nth i (tab r c Y) []) s0) by now rewrite H.
    unfold tab in E. assert (L : forall Z : nat -> nat -> dbl, nth j (nth i (map (fun i => map (Z i) (seq 0 c)) (seq 0 r)) []) s0 = Z i j).
    { intros Z. rewrite (nth_indep _ [] (map (Z 0) (seq 0 c))) by now rewrite map_length, seq_length.
      rewrite (map_nth (fun i => map (Z i) (seq 0 c)) (seq 0 r) 0 i), seq_nth by exact Hi. cbn [Nat.add].
      rewrite (nth_indep _ s0 (Z i 0)) by now rewrite map_length, seq_length. rewrite map_nth, seq_nth by exact Hj. reflexivity. }
    now rewrite !L in E.
  Qed.
  Section At.
    Variables (s : nmpc dbl) (h : list (nop dbl * ret dbl)) (x0 : mat dbl) (z : list dbl).
    Hypothesis C0 : 0 < ch.
    Hypothesis C : ch <= ph.
    Hypothesis HR : reached s h.
    Hypothesis G0 : gm x0 nx 1.
    Hypothesis HZ : length z = n_dec d.
    Lemma at_NR : NR d s (cf h). Proof. exact (nreached_NR junk d ni ne dyn_eq C0 C s h HR). Qed.
    Lemma at_ph : 0 < ph. Proof. lia. Qed.
    Lemma at_out : n_out s = k_out (cf h). Proof. exact (nr_out d s _ at_NR). Qed.
    Lemma at_gm : gm (vec_of z) N 1. Proof. rewrite <- HZ. repeat split. Qed.
    Lemma at_X : gm (unwrap_X d (n_map s) (vec_of z) x0) (ph + 1) nx.
    Proof. exact (proj1 (unwrap_X_ent d (n_map s) _ _ (vec_of z) x0 (nr_map d s _ at_NR) at_gm G0 at_ph C0 C)). Qed.
    Lemma at_U : gm (unwrap_U d (n_map s) (vec_of z)) (ph + 1) nu.
    Proof. exact (unwrap_U_gm d (n_map s) _ _ (vec_of z) (nr_map d s _ at_NR) at_gm at_ph C0 C). Qed.
    Lemma self_rep (M : mat dbl) r c : gm M r c -> rep M r c (ent M).
    Proof. intros H. split; [exact H|reflexivity]. Qed.
    Lemma shows_rep X U e : shows s (k_out (cf h)) x0 z X U e ->
      rep (unwrap_X d (n_map s) (vec_of z) x0) (ph + 1) nx X /\ rep (unwrap_U d (n_map s) (vec_of z)) (ph + 1) nu U /\ unwrap_e (vec_of z) = e.
    Proof.
      unfold shows, eval_obj_calls, obj_calls. rewrite app_nil_r. rewrite (obj_pt_at d _ _ _ _ _ _ (self_rep _ _ _ at_X) (self_rep _ _ _ at_U)), at_out.
      unfold obj_shown. intros H. apply app_inj_tail in H as [_ H]. inversion H as [[E1 E2 E3 E4]]. refine (conj _ (conj _ eq_refl)).
      - split; [exact at_X|]. now apply tab_inj.
      - split; [exact at_U|]. now apply tab_inj.
    Qed.

    Variables (B : RR) (X U : nat -> nat -> dbl) (e : dbl).
    Hypothesis HB : (1 <= B <= powerRZ 2 1000)%R.
    Hypothesis HN : shows s (k_out (cf h)) x0 z X U e.
    Hypothesis HS : small d B X U e.
    Lemma HB' : (1 <= B <= big0)%R.
    Proof. destruct HB as [H1 H2]. split; [exact H1|]. unfold big0. rewrite bpow_powerRZ. exact H2. Qed.
    Lemma D_eq : (4 * (uro * B) = / 2251799813685248 * B)%R.
    Proof. rewrite uro_val. lra. Qed.
    Lemma split2 {A A'} (Q : A -> Prop) (T : A -> A' -> Prop) l l' : Forall2 (fun p q => T p q /\ Q p) l l' -> Forall2 T l l' /\ Forall Q l.
    Proof. induction 1 as [|p q l l' [H1 H2] _ [I1 I2]]; split; constructor; assumption. Qed.
    Notation D := (/ 2251799813685248 * B)%R.

    Lemma obj_drift : exists ps,
      eval_obj_calls d true s x0 z = flat_map (obj_shown d (k_out (cf h))) ((X, U, e) :: ps) /\
      Forall2 (near_pt d D) ((X, U, e) :: ps) (obj_points d (reals X) (reals U) (rval e)) /\
      Forall (fun p => forall j, j < nx -> fst (fst p) 0 j = X 0 j) ps.
    Proof.
      destruct (shows_rep X U e HN) as (RX & RU & Ee). pose proof HB' as HB'. pose proof at_ph as P. unfold eval_obj_calls, obj_calls. rewrite Ee, at_out.
      set (Xm := unwrap_X d (n_map s) (vec_of z) x0) in *. set (Um := unwrap_U d (n_map s) (vec_of z)) in *. clearbody Xm Um. cbn zeta.
      set (og := k_out (cf h)).
      destruct (obj_jx_dr d B HB' P X U e HS Xm Um RX RU og) as (X' & p1 & -> & F1 & I1).
      destruct (obj_ju_dr d B HB' P X U e HS Um RU og X' I1) as (U' & p2 & -> & F2 & I2).
      destruct (obj_jl_dr d B HB' P X U e HS Um RU og X' I1 U' I2) as (U'' & p3 & -> & F3 & I3).
      destruct (obj_je_dr d B HB' P X U e HS og X' I1 U'' I3) as (p4 & -> & F4).
      exists (p1 ++ p2 ++ p3 ++ p4). rewrite (obj_pt_at d og Xm Um X U e RX RU). split; [cbn [flat_map]; now rewrite !flat_map_app|].
      pose proof (Forall2_app F1 (Forall2_app F2 (Forall2_app F3 F4))) as F. apply split2 in F as [F G]. rewrite D_eq in F. split; [|exact G].
      unfold obj_points. cbn zeta. constructor; [|exact F]. rewrite <- D_eq.
      refine (conj _ (conj _ (e_near d B HB' X U e HS))); intros i j Hi Hj; [apply (X_near d B HB' P X U e HS)|apply (U_near d B HB' P X U e HS)]; lia.
    Qed.
    Lemma ieq_drift hg : exists ps,
      eval_con_calls d hg s x0 KIneq z = flat_map (ieq_shown d (k_out (cf h))) ((X, U, e) :: ps) /\
      Forall2 (near_pt d D) ((X, U, e) :: ps) (ieq_points d (reals X) (reals U) (rval e)) /\
      Forall (fun p => forall j, j < nx -> fst (fst p) 0 j = X 0 j) ps.
    Proof.
      destruct (shows_rep X U e HN) as (RX & RU & Ee). pose proof HB' as HB'. pose proof at_ph as P. unfold eval_con_calls, ieq_calls. rewrite Ee, at_out.
      set (Xm := unwrap_X d (n_map s) (vec_of z) x0) in *. set (Um := unwrap_U d (n_map s) (vec_of z)) in *. clearbody Xm Um. cbn zeta.
      set (og := k_out (cf h)).
      destruct (ieq_jx_dr d B HB' P X U e HS Xm Um RX RU og) as (X' & p1 & -> & F1 & I1).
      destruct (ieq_ju_dr d B HB' P X U e HS Um RU og X' I1) as (U' & p2 & -> & F2 & I2).
      destruct (ieq_je_dr d B HB' P X U e HS og X' I1 U' I2) as (p4 & -> & F4).
      exists (p1 ++ p2 ++ p4). rewrite (ieq_pt_at d og Xm Um X U e RX RU). split; [cbn [flat_map]; now rewrite !flat_map_app|].
      pose proof (Forall2_app F1 (Forall2_app F2 F4)) as F. apply split2 in F as [F G]. rewrite D_eq in F. split; [|exact G].
      unfold ieq_points. cbn zeta. constructor; [|exact F]. rewrite <- D_eq.
      refine (conj _ (conj _ (e_near d B HB' X U e HS))); intros i j Hi Hj; [apply (X_near d B HB' P X U e HS)|apply (U_near d B HB' P X U e HS)]; lia.
    Qed.
    Lemma eqc_drift hg : exists ps,
      eval_con_calls d hg s x0 KEq z = flat_map (eqc_shown d) ((X, U) :: ps) /\
      Forall2 (near_pt2 d D) ((X, U) :: ps) (eqc_points d (reals X) (reals U)) /\
      Forall (fun p => forall j, j < nx -> fst p 0 j = X 0 j) ps.
    Proof.
      destruct (shows_rep X U e HN) as (RX & RU & Ee). pose proof HB' as HB'. pose proof at_ph as P. unfold eval_con_calls, eqc_calls.
      set (Xm := unwrap_X d (n_map s) (vec_of z) x0) in *. set (Um := unwrap_U d (n_map s) (vec_of z)) in *. clearbody Xm Um. cbn zeta.
      destruct (eqc_jx_dr d B HB' P X U e HS Xm Um RX RU) as (X' & p1 & -> & F1 & I1).
      destruct (eqc_ju_dr d B HB' P X U e HS Um RU X' I1) as (U' & p2 & -> & F2 & I2).
      destruct (eqc_jl_dr d B HB' P X U e HS Um RU X' I1 U' I2) as (U'' & p3 & -> & F3).
      exists (p1 ++ p2 ++ p3). rewrite (eqc_pt_at d Xm Um X U RX RU). split; [cbn [flat_map]; now rewrite !flat_map_app|].
      pose proof (Forall2_app F1 (Forall2_app F2 F3)) as F. apply split2 in F as [F G]. rewrite D_eq in F. split; [|exact G].
      unfold eqc_points. cbn zeta. constructor; [|exact F]. rewrite <- D_eq.
      split; intros i j Hi Hj; [apply (X_near d B HB' P X U e HS)|apply (U_near d B HB' P X U e HS)]; lia.
    Qed.
    Lemma dyn_drift hg : let cont := match k_ts (cf h) with Some _ => true | None => false end in
      exists ps : nat -> list ((nat -> dbl) * (nat -> dbl)),
      eval_con_calls d hg s x0 KDyn z = flat_map (fun p => flat_map (dyn_shown d p) ((X p, U p) :: ps p)) (seq 0 ph) /\
      forall p, p < ph -> Forall2 (near_vecs d D) ((X p, U p) :: ps p) (dyn_points d hg cont (reals X) (reals U) p).
    Proof.
      intros cont. destruct (shows_rep X U e HN) as (RX & RU & Ee). pose proof HB' as HB'. pose proof at_ph as P. unfold eval_con_calls, dyn_calls.
      rewrite (nr_ts d s _ at_NR). fold cont. clearbody cont.
      set (Xm := unwrap_X d (n_map s) (vec_of z) x0) in *. set (Um := unwrap_U d (n_map s) (vec_of z)) in *. clearbody Xm Um. cbn zeta.
      rewrite (app_loop ph (fun i => dyn_pt (mtrans (mrow Xm i)) (mtrans (mrow Um i)) i ++
        (if cont then dyn_pt (mtrans (mrow Xm (i + 1))) (mtrans (mrow Um i)) i else []) ++
        (if hg then dyn_jac_calls d (mtrans (mrow Xm i)) (mtrans (mrow Um i)) i else []) ++
        (if hg && cont then dyn_jac_calls d (mtrans (mrow Xm (i + 1))) (mtrans (mrow Um i)) i else []))). cbn [app].
      assert (K : forall p, exists l, p < ph -> dyn_pt (mtrans (mrow Xm p)) (mtrans (mrow Um p)) p ++
        (if cont then dyn_pt (mtrans (mrow Xm (p + 1))) (mtrans (mrow Um p)) p else []) ++
        (if hg then dyn_jac_calls d (mtrans (mrow Xm p)) (mtrans (mrow Um p)) p else []) ++
        (if hg && cont then dyn_jac_calls d (mtrans (mrow Xm (p + 1))) (mtrans (mrow Um p)) p else []) = flat_map (dyn_shown d p) ((X p, U p) :: l) /\
        Forall2 (near_vecs d D) ((X p, U p) :: l) (dyn_points d hg cont (reals X) (reals U) p)).
      { intros p. destruct (lt_dec p ph) as [Hp|Hp]; [|exists []; lia].
        pose proof (trow_rv d Xm nx _ p RX ltac:(lia)) as V1. pose proof (trow_rv d Xm nx _ (p + 1) RX ltac:(lia)) as V2. pose proof (trow_rv d Um nu _ p RU ltac:(lia)) as V3.
        assert (O1 : forall j, j < nx -> okd B (X p j)) by (intros; apply HS; lia). assert (O2 : forall j, j < nx -> okd B (X (p + 1) j)) by (intros; apply HS; lia).
        assert (O3 : forall j, j < nu -> okd B (U p j)) by (intros; apply HS; lia).
        destruct (dyn_around_dr d B HB' _ _ _ _ p V1 V3 O1 O3) as (l1 & E1 & F1). destruct (dyn_around_dr d B HB' _ _ _ _ p V2 V3 O2 O3) as (l2 & E2 & F2). rewrite D_eq in F1, F2.
        exists ((if cont then [(X (p + 1), U p)] else []) ++ (if hg then l1 else []) ++ (if hg && cont then l2 else [])). intros _.
        assert (N1 : near_vecs d D (X p, U p) (reals X p, reals U p)). { rewrite <- D_eq. split; cbn [fst snd]; intros j Hj; [exact (vec_self B HB' (X p) nx O1 j Hj)|exact (vec_self B HB' (U p) nu O3 j Hj)]. }
        assert (N2 : near_vecs d D (X (p + 1), U p) (reals X (p + 1), reals U p)). { rewrite <- D_eq. split; cbn [fst snd]; intros j Hj; [exact (vec_self B HB' (X (p + 1)) nx O2 j Hj)|exact (vec_self B HB' (U p) nu O3 j Hj)]. }
        rewrite E1, E2. unfold dyn_pt. rewrite (rv_lst _ _ _ V1), (rv_lst _ _ _ V2), (rv_lst _ _ _ V3). split.
        - cbn [flat_map dyn_shown]. rewrite !flat_map_app. destruct hg, cont; cbn [andb flat_map app dyn_shown]; rewrite ?app_nil_r; reflexivity.
        - unfold dyn_points. cbn [app]. constructor; [exact N1|]. apply Forall2_app; [destruct cont; [constructor; [exact N2|constructor]|constructor]|].
          apply Forall2_app; [destruct hg; [exact F1|constructor]|]. destruct (hg && cont); [exact F2|constructor]. }
      assert (CH : exists ps : nat -> list ((nat -> dbl) * (nat -> dbl)), forall p, p < ph -> dyn_pt (mtrans (mrow Xm p)) (mtrans (mrow Um p)) p ++
        (if cont then dyn_pt (mtrans (mrow Xm (p + 1))) (mtrans (mrow Um p)) p else []) ++
        (if hg then dyn_jac_calls d (mtrans (mrow Xm p)) (mtrans (mrow Um p)) p else []) ++
        (if hg && cont then dyn_jac_calls d (mtrans (mrow Xm (p + 1))) (mtrans (mrow Um p)) p else []) = flat_map (dyn_shown d p) ((X p, U p) :: ps p) /\
        Forall2 (near_vecs d D) ((X p, U p) :: ps p) (dyn_points d hg cont (reals X) (reals U) p)).
      { clear - K. set (n := ph) in K |- *. clearbody n. induction n as [|n IH]; [exists (fun _ => []); lia|].
        destruct IH as (ps & Hps). { intros p. destruct (K p) as (l & Hl). exists l. intros Hp. apply Hl. lia. }
        destruct (K n) as (l & Hl). exists (fun p => if p =? n then l else ps p). intros p Hp. destruct (Nat.eqb_spec p n) as [->|Hne]; [apply Hl; lia|apply Hps; lia]. }
      destruct CH as (ps & Hps). exists ps. split; [|intros p Hp; now apply Hps].
      rewrite !flat_map_concat_map. f_equal. apply map_ext_in. intros p Hp. apply in_seq in Hp. apply Hps. lia.
    Qed.
  End At.

  (** the calls of the objective, with gradient, are those of exact arithmetic on the trajectories shown when the value alone is asked for, in the
      same order, with every number within 2^-51 B: the trajectories handed back after each perturbation are restored up to that much only *)
  Theorem C74_objective_calls s h x0 z B X U e :
    0 < ch -> ch <= ph -> reached s h -> gm x0 nx 1 -> length z = n_dec d ->
    (1 <= B <= powerRZ 2 1000)%R -> shows s (k_out (cf h)) x0 z X U e -> small d B X U e ->
    exists ps,
      eval_obj_calls d true s x0 z = flat_map (obj_shown d (k_out (cf h))) ((X, U, e) :: ps) /\
      Forall2 (near_pt d (/ 2251799813685248 * B)%R) ((X, U, e) :: ps) (obj_points d (reals X) (reals U) (rval e)) /\
      Forall (fun p => forall j, j < nx -> fst (fst p) 0 j = X 0 j) ps.
  Proof. intros. eapply obj_drift; eassumption. Qed.
  Theorem C74_inequality_calls s h x0 z B X U e hg :
    0 < ch -> ch <= ph -> reached s h -> gm x0 nx 1 -> length z = n_dec d ->
    (1 <= B <= powerRZ 2 1000)%R -> shows s (k_out (cf h)) x0 z X U e -> small d B X U e ->
    exists ps,
      eval_con_calls d hg s x0 KIneq z = flat_map (ieq_shown d (k_out (cf h))) ((X, U, e) :: ps) /\
      Forall2 (near_pt d (/ 2251799813685248 * B)%R) ((X, U, e) :: ps) (ieq_points d (reals X) (reals U) (rval e)) /\
      Forall (fun p => forall j, j < nx -> fst (fst p) 0 j = X 0 j) ps.
  Proof. intros. eapply ieq_drift; eassumption. Qed.
  Theorem C74_equality_calls s h x0 z B X U e hg :
    0 < ch -> ch <= ph -> reached s h -> gm x0 nx 1 -> length z = n_dec d ->
    (1 <= B <= powerRZ 2 1000)%R -> shows s (k_out (cf h)) x0 z X U e -> small d B X U e ->
    exists ps,
      eval_con_calls d hg s x0 KEq z = flat_map (eqc_shown d) ((X, U) :: ps) /\
      Forall2 (near_pt2 d (/ 2251799813685248 * B)%R) ((X, U) :: ps) (eqc_points d (reals X) (reals U)) /\
      Forall (fun p => forall j, j < nx -> fst p 0 j = X 0 j) ps.
  Proof. intros. eapply eqc_drift; eassumption. Qed.
  Theorem C74_dynamics_calls s h x0 z B X U e hg :
    0 < ch -> ch <= ph -> reached s h -> gm x0 nx 1 -> length z = n_dec d ->
    (1 <= B <= powerRZ 2 1000)%R -> shows s (k_out (cf h)) x0 z X U e -> small d B X U e ->
    exists ps : nat -> list ((nat -> dbl) * (nat -> dbl)),
      eval_con_calls d hg s x0 KDyn z = flat_map (fun p => flat_map (dyn_shown d p) ((X p, U p) :: ps p)) (seq 0 ph) /\
      forall p, p < ph -> Forall2 (near_vecs d (/ 2251799813685248 * B)%R) ((X p, U p) :: ps p)
        (dyn_points d hg (match k_ts (cf h) with Some _ => true | None => false end) (reals X) (reals U) p).
  Proof. intros. eapply dyn_drift; eassumption. Qed.
End Main.

(** the probes of the dynamics always move the entry they are meant to move *)
Lemma probe_up x : okd (powerRZ 2 1000) x -> (rval (sadd x (smul dv_con (mag x))) > rval x)%R.
Proof.
  intros (a & b & c). set (Bx := Rmax (Rabs (rval x)) 1).
  assert (HB : (1 <= Bx <= big0)%R). { split; [apply Rmax_r|]. apply Rmax_lub; [unfold big0; rewrite bpow_powerRZ; exact c|exact big0_ge1]. }
  assert (O : okd Bx x) by (refine (conj a (conj b _)); apply Rmax_l).
  destruct (inc_con Bx HB x O) as [T1 T2]. destruct (fwd_num Bx HB x _ _ O T1 T2) as [(_ & _ & N) _]. rewrite mag_R in N. fold Bx in N.
  pose proof (uroB Bx (proj1 HB)). cbn [smul R_ops] in N. rewrite dvc_R in N. lra.
Qed.
Lemma nth_map_seq (f : nat -> dbl) n j : j < n -> nth j (map f (seq 0 n)) s0 = f j.
Proof. intros H. rewrite (nth_indep _ s0 (f 0)) by now rewrite map_length, seq_length. rewrite map_nth, seq_nth by exact H. reflexivity. Qed.
Theorem C74_dynamics_probes_move junk d ni ne dyn_eq (s : nmpc dbl) h x0 z X U e p j :
  0 < d_ch d -> d_ch d <= d_ph d -> nreached junk d ni ne dyn_eq s h -> gm x0 (d_nx d) 1 -> length z = n_dec d ->
  shows d s (k_out (ncfg_run d ni ne h)) x0 z X U e -> p < d_ph d -> j < d_nx d -> okd (powerRZ 2 1000) (X p j) ->
  exists x u, In (UDyn x u p) (eval_con_calls d true s x0 KDyn z) /\ (rval (nth j x s0) > rval (X p j))%R /\
    length x = d_nx d /\ (forall k, k < d_nx d -> k <> j -> nth k x s0 = X p k).
Proof.
  intros C0 C HR G0 HZ HN Hp Hj O. destruct (shows_rep junk d ni ne dyn_eq s h x0 z C0 C HR G0 HZ X U e HN) as (RX & RU & _).
  set (Xm := unwrap_X d (n_map s) (vec_of z) x0) in *. set (Um := unwrap_U d (n_map s) (vec_of z)) in *.
  pose proof (trow_rv d Xm _ _ p RX ltac:(lia)) as V1. pose proof (trow_rv d Um _ _ p RU ltac:(lia)) as V3.
  pose proof (rv_put (mtrans (mrow Xm p)) (d_nx d) (X p) j (sadd (X p j) (smul dv_con (mag (X p j)))) V1 Hj) as V4.
  exists (map (put (X p) j (sadd (X p j) (smul dv_con (mag (X p j))))) (seq 0 (d_nx d))), (lst (mtrans (mrow Um p))).
  refine (conj _ (conj _ (conj _ _))).
  - unfold eval_con_calls, dyn_calls. fold Xm Um. cbn zeta. rewrite (app_loop (d_ph d) (fun i => dyn_pt (mtrans (mrow Xm i)) (mtrans (mrow Um i)) i ++
        (if match n_ts s with Some _ => true | None => false end then dyn_pt (mtrans (mrow Xm (i + 1))) (mtrans (mrow Um i)) i else []) ++
        dyn_jac_calls d (mtrans (mrow Xm i)) (mtrans (mrow Um i)) i ++
        (if true && match n_ts s with Some _ => true | None => false end then dyn_jac_calls d (mtrans (mrow Xm (i + 1))) (mtrans (mrow Um i)) i else []))). cbn [app].
    apply in_flat_map. exists p. split; [apply in_seq; lia|]. apply in_or_app. right. apply in_or_app. right. apply in_or_app. left.
    unfold dyn_jac_calls. cbn zeta. apply in_or_app. left.
    rewrite (app_loop (d_nx d) (fun i => dyn_pt (set_entry (mtrans (mrow Xm p)) i 0 (sadd (ent (mtrans (mrow Xm p)) i 0) (smul dv_con (ent (abs1 (mtrans (mrow Xm p))) i 0)))) (mtrans (mrow Um p)) p ++
        dyn_pt (set_entry (mtrans (mrow Xm p)) i 0 (ssub (ent (mtrans (mrow Xm p)) i 0) (smul dv_con (ent (abs1 (mtrans (mrow Xm p))) i 0)))) (mtrans (mrow Um p)) p)). cbn [app].
    apply in_flat_map. exists j. split; [apply in_seq; lia|]. left. unfold dyn_pt.
    rewrite (abs1_v _ (d_nx d) (X p) j V1 Hj). change (smax (sabs (X p j)) s1) with (mag (X p j)).
    assert (EX : ent (mtrans (mrow Xm p)) j 0 = X p j) by (destruct V1 as [_ E]; now apply E). rewrite EX. now rewrite (rv_lst _ _ _ V4).
  - rewrite nth_map_seq by exact Hj. unfold put. rewrite Nat.eqb_refl. now apply probe_up.
  - now rewrite map_length, seq_length.
  - intros k Hk Hne. rewrite nth_map_seq by exact Hk. unfold put. destruct (Nat.eqb_spec k j); [contradiction|reflexivity].
Qed.

(** what the trajectories of the value evaluation are, in the machine's arithmetic *)
Theorem C74_nominal_point junk d ni ne dyn_eq (s : nmpc dbl) h x0 z :
  0 < d_ch d -> d_ch d <= d_ph d -> nreached junk d ni ne dyn_eq s h -> gm x0 (d_nx d) 1 -> length z = n_dec d ->
  let c := ncfg_run d ni ne h in let nx := d_nx d in let nu := d_nu d in let ph := d_ph d in
  (forall k, k < nu * d_ch d -> is_fin (dvar z (ph * nx + k)) = true) ->
  exists X U, shows d s (k_out c) x0 z X U (dvar z (v_slack d)) /\
    (forall i j, i <= ph -> j < nx -> X i j = sdiv (if i =? 0 then ent x0 j 0 else dvar z ((i - 1) * nx + j)) (sdiv s1 (k_sx c j))) /\
    (forall i j, i <= ph -> j < nu -> dsame (U i j) (smul (k_su c j) (dvar z (ph * nx + (Nat.min i (d_ch d - 1) * nu + j))))) /\
    ((forall j, j < nx -> k_sx c j = s1) -> (forall j, j < nx -> is_double (ent x0 j 0) = true) -> (forall k, k < ph * nx -> is_double (dvar z k) = true) ->
       forall i j, i <= ph -> j < nx -> X i j = if i =? 0 then ent x0 j 0 else dvar z ((i - 1) * nx + j)).
Proof.
  intros C0 C HR G0 HZ c nx nu ph FZ. pose proof (at_NR junk d ni ne dyn_eq s h C0 C HR) as H. pose proof (at_gm d z HZ) as GZ. assert (P : 0 < d_ph d) by lia.
  pose proof (nr_map d s _ H) as HM.
  destruct (unwrap_X_ent d (n_map s) _ _ (vec_of z) x0 HM GZ G0 P C0 C) as [GX EX]. destruct (unwrap_U_sum d (n_map s) _ _ (vec_of z) HM GZ P C0 C) as [GU EU].
  exists (ent (unwrap_X d (n_map s) (vec_of z) x0)), (ent (unwrap_U d (n_map s) (vec_of z))). fold c in EX. refine (conj _ (conj EX (conj _ _))).
  - unfold shows, eval_obj_calls, obj_calls. rewrite app_nil_r. rewrite (obj_pt_at d _ _ _ _ _ _ (self_rep _ _ _ GX) (self_rep _ _ _ GU)).
    rewrite (unwrap_e_ent d (vec_of z) GZ P C0 C). now rewrite (at_out junk d ni ne dyn_eq s h C0 C HR).
  - intros i j Hi Hj. rewrite EU by assumption. set (a := Nat.min i (d_ph d - 1)). assert (Ha : a < d_ph d) by (unfold a; lia).
    replace (Nat.min i (d_ch d - 1)) with (Nat.min a (d_ch d - 1)) by (unfold a; lia). set (b := Nat.min a (d_ch d - 1)). assert (Hb : b < d_ch d) by (unfold b; lia).
    assert (Lt : b * d_nu d + j < d_nu d * d_ch d). { pose proof (blk_le b (d_ch d) (d_nu d) Hb). unfold nu in Hj. lia. }
    pose proof (mi_z2u_e d _ _ _ HM a b j j Ha Hb Hj Hj) as E1. fold b in E1. rewrite !Nat.eqb_refl in E1. cbn [andb] in E1. fold c in E1. rewrite <- E1.
    apply (dsum_single (d_nu d * d_ch d) (fun q => smul (ent (mp_z2u (n_map s)) (a * d_nu d + j) q) (dvar z (d_ph d * d_nx d + q))) (b * d_nu d + j) Lt).
    intros k Hk Hne. apply dmul_zero_fin; [|now apply FZ].
    assert (Hn : d_nu d <> 0) by (unfold nu in Hj; lia). rewrite (Nat.div_mod k (d_nu d) Hn) in Hne |- *. rewrite (Nat.mul_comm (d_nu d) (k / d_nu d)) in Hne |- *.
    assert (Kq : k mod d_nu d < d_nu d) by (now apply Nat.mod_upper_bound). assert (Kb : k / d_nu d < d_ch d) by (apply Nat.div_lt_upper_bound; lia).
    rewrite (mi_z2u_e d _ _ _ HM a (k / d_nu d) j (k mod d_nu d) Ha Kb Hj Kq). fold b.
    destruct (Nat.eqb_spec (k / d_nu d) b), (Nat.eqb_spec j (k mod d_nu d)); cbn [andb]; try reflexivity. exfalso. apply Hne. congruence.
  - intros S1 D0 DZ i j Hi Hj. rewrite EX by assumption. rewrite S1 by exact Hj. replace (sdiv s1 s1 : dbl) with (s1 : dbl) by (vm_compute; reflexivity).
    destruct (Nat.eqb_spec i 0); apply ddiv_one; [now apply D0|]. apply DZ. unfold ph, nx in *. nia.
Qed.

(** *** Findings, on the controller of C63 (one state, ph = 2, objective evaluated at unscaled states) *)
Definition v_ops : list (nop dbl) := [NSetInputScale (dvec [dz 2; sdiv s1 (dz 4)])].
Definition v_s : nmpc dbl := match n_life dj wd 1 0 false v_ops with Ok (s, _) => s | UB => n_init wd end.
Definition v_h : list (nop dbl * ret dbl) := match n_life dj wd 1 0 false v_ops with Ok (_, h) => h | UB => [] end.
Lemma v_reached : nreached dj wd 1 0 false v_s v_h.
Proof. exists v_ops. split; [repeat constructor|]. vm_compute. reflexivity. Qed.
Definition v_z (a b : dbl) : list dbl := [a; b; dz 5; dz 6; dz 7; dz 3; s0].
Definition v_x0 : mat dbl := dvec [s1].
(** the states shown by a call of the objective *)
Definition obj_states (c : ucall dbl) : list (rows dbl) := match c with UObj X _ _ _ => [X] | _ => [] end.
Definition v_tiny : list dbl := v_z (sdiv s1 (dz 100000000000000000000)) s1.   (* 1e-20 and 1 *)
Definition v_large : list dbl := v_z (dz 3) (dz 1099511627776).               (* 3 and 2^40 *)
Definition v_X (z : list dbl) (i j : nat) : dbl := match i with 0 => s1 | S k => nth k z s0 end.
Definition v_U (i j : nat) : dbl := nth j (nth (Nat.min i 1) [[dz 10; sdiv (dz 3) (dz 2)]; [dz 14; sdiv (dz 3) (dz 4)]] []) s0.
Lemma v_shows_tiny : shows wd v_s (k_out (ncfg_run wd 1 0 v_h)) v_x0 v_tiny (v_X v_tiny) v_U s0.
Proof. vm_compute. reflexivity. Qed.
Lemma v_shows_large : shows wd v_s (k_out (ncfg_run wd 1 0 v_h)) v_x0 v_large (v_X v_large) v_U s0.
Proof. vm_compute. reflexivity. Qed.
Lemma v_gm : gm v_x0 (d_nx wd) 1. Proof. repeat split. Qed.

(** FINDING: perturbed entries are not restored; later evaluations see other entries changed as well *)
Theorem C74_only_the_perturbed_entry_refuted :
  ~ (forall junk d ni ne dyn_eq (s : nmpc dbl) h x0 z X U e, 0 < d_ch d -> d_ch d <= d_ph d -> nreached junk d ni ne dyn_eq s h -> gm x0 (d_nx d) 1 -> length z = n_dec d ->
       shows d s (k_out (ncfg_run d ni ne h)) x0 z X U e ->
       forall X' Y' U' e', In (UObj X' Y' U' e') (eval_obj_calls d true s x0 z) ->
         exists a b, forall i j, i <= d_ph d -> j < d_nx d -> ~ (i = a /\ j = b) -> nth j (nth i X' []) s0 = X i j).
Proof.
  intros H. specialize (H dj wd 1 0 false v_s v_h v_x0 v_tiny (v_X v_tiny) v_U s0 ltac:(cbn; lia) ltac:(cbn; lia) v_reached v_gm eq_refl v_shows_tiny).
  destruct (nth 2 (eval_obj_calls wd true v_s v_x0 v_tiny) (UEqc [] [])) as [X' Y' U' e'|X' Y' U' e'|X' U'|x u p|x u p] eqn:E;
    try (apply (f_equal (fun c => match c with UObj _ _ _ _ => true | _ => false end)) in E; vm_compute in E; discriminate E).
  assert (I : In (UObj X' Y' U' e') (eval_obj_calls wd true v_s v_x0 v_tiny)).
  { rewrite <- E. apply nth_In. replace (length (eval_obj_calls wd true v_s v_x0 v_tiny)) with 9 by (vm_compute; reflexivity). lia. }
  destruct (H X' Y' U' e' I) as (a & b & K).
  assert (EX : X' = match nth 2 (eval_obj_calls wd true v_s v_x0 v_tiny) (UEqc [] []) with UObj X _ _ _ => X | _ => [] end) by now rewrite E.
  clear E I. subst X'.
  assert (K1 : ~ (1 = a /\ 0 = b) -> False). { intros N. specialize (K 1 0 ltac:(cbn; lia) ltac:(cbn; lia) N). vm_compute in K. discriminate K. }
  assert (K2 : ~ (2 = a /\ 0 = b) -> False). { intros N. specialize (K 2 0 ltac:(cbn; lia) ltac:(cbn; lia) N). vm_compute in K. discriminate K. }
  clear K. lia.
Qed.
(** FINDING: a probe whose size is taken from another entry (C69) can vanish in the rounding: the objective is then asked again about the unperturbed point *)
Theorem C74_every_probe_moves_refuted :
  ~ (forall junk d ni ne dyn_eq (s : nmpc dbl) h x0 z X U e, 0 < d_ch d -> d_ch d <= d_ph d -> nreached junk d ni ne dyn_eq s h -> gm x0 (d_nx d) 1 -> length z = n_dec d ->
       shows d s (k_out (ncfg_run d ni ne h)) x0 z X U e ->
       forall c rest, filter (fun c => negb (is_out c)) (eval_obj_calls d true s x0 z) = c :: rest -> ~ In c rest).
Proof.
  intros H. specialize (H dj wd 1 0 false v_s v_h v_x0 v_large (v_X v_large) v_U s0 ltac:(cbn; lia) ltac:(cbn; lia) v_reached v_gm eq_refl v_shows_large).
  refine (H _ _ eq_refl _). vm_compute. right. left. reflexivity.
Qed.
