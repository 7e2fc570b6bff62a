(** Closed forms of the call traces of [NLTrace.v]. *)
From Coq Require Import Bool Arith List Lia Ring Field BinPos.
From Verif Require Import Scalar Sums Mat Builder BuilderEnt NLMap NLTraj NLFun SpecNL NLLoop NLGrad NLEval NLDyn NLMPC NLTrace SpecTrace.
Import ListNotations.

Section TraceEnt.
  Context {F : Type} {SO : ScalarOps F} {SL : ScalarLaws F}.
  Variable d : dims.
  Notation nx := (d_nx d). Notation nu := (d_nu d). Notation ny := (d_ny d).
  Notation ph := (d_ph d). Notation ch := (d_ch d).
  Add Field SFtr : s_field.

  (** loops that append *)
  Lemma app_loop {T} n (pts : nat -> list T) L : loop n (fun i L => L ++ pts i) L = L ++ flat_map pts (seq 0 n).
  Proof.
    induction n as [|n IH]; cbn [loop]; [now rewrite app_nil_r|]. rewrite IH, seq_S, flat_map_app. cbn [flat_map Nat.add]. now rewrite app_nil_r, app_assoc.
  Qed.
  Lemma tr_inner {T} R C (X : nat -> nat -> F) w (body : nat -> mat F * list T -> mat F * list T) (pts : nat -> list T) :
    (forall j x L, j < w -> rep x R C X -> exists x', body j (x, L) = (x', L ++ pts j) /\ rep x' R C X) ->
    forall k x L, k <= w -> rep x R C X -> exists x', loop k body (x, L) = (x', L ++ flat_map pts (seq 0 k)) /\ rep x' R C X.
  Proof.
    intros HB. induction k as [|k IH]; intros x L Hk HX; cbn [loop]; [exists x; split; [now rewrite app_nil_r|exact HX]|].
    destruct (IH x L ltac:(lia) HX) as (x1 & -> & H1). destruct (HB k x1 (L ++ flat_map pts (seq 0 k)) ltac:(lia) H1) as (x2 & -> & H2).
    exists x2. split; [|exact H2]. f_equal. rewrite seq_S, flat_map_app. cbn [flat_map Nat.add]. now rewrite app_nil_r, app_assoc.
  Qed.
  Lemma tr_outer {T} R C (X : nat -> nat -> F) n w (body : nat -> nat -> mat F * list T -> mat F * list T) (pts : nat -> nat -> list T) :
    (forall i j x L, i < n -> j < w -> rep x R C X -> exists x', body i j (x, L) = (x', L ++ pts i j) /\ rep x' R C X) ->
    forall x, rep x R C X -> exists x', loop n (fun i st => loop w (body i) st) (x, []) = (x', each n w pts) /\ rep x' R C X.
  Proof.
    intros HB x HX. apply (tr_inner R C X n (fun i st => loop w (body i) st) (fun i => flat_map (pts i) (seq 0 w))) with (L := []); [|exact (le_n _)|exact HX].
    intros i y L Hi Hy. apply (tr_inner R C X w (body i) (pts i)); [|exact (le_n _)|exact Hy]. intros j y' L' Hj Hy'. now apply HB.
  Qed.
  Lemma each_flat {T V} (f : T -> list V) n m (pts : nat -> nat -> list T) : flat_map f (each n m pts) = each n m (fun i j => flat_map f (pts i j)).
  Proof.
    unfold each. generalize (seq 0 n) as l. intros l. induction l as [|i l IH]; [reflexivity|]. cbn [flat_map]. rewrite flat_map_app, IH. f_equal.
    generalize (seq 0 m) as k. induction k as [|j k IHk]; [reflexivity|]. cbn [flat_map]. now rewrite flat_map_app, IHk.
  Qed.
  Lemma flat_flat {T V W} (f : V -> list W) (g : T -> list V) l : flat_map f (flat_map g l) = flat_map (fun x => flat_map f (g x)) l.
  Proof. induction l as [|a l IH]; [reflexivity|]. cbn [flat_map]. now rewrite flat_map_app, IH. Qed.

  Lemma out_calls_at (og : option (out_t F)) (X U : mat F) x u : rep X (ph + 1) nx x -> rep U (ph + 1) nu u -> out_calls d og X U = outs d og x u.
  Proof.
    intros HX HU. unfold out_calls, outs. destruct og as [g|]; [|reflexivity].
    rewrite (app_loop (ph + 1) (fun i => [UOut (lst (mtrans (mrow X i))) (lst (mtrans (mrow U i))) i]) []). cbn [app].
    assert (Q : forall l, (forall i, In i l -> i < ph + 1) -> flat_map (fun i => [UOut (lst (mtrans (mrow X i))) (lst (mtrans (mrow U i))) i]) l =
      map (fun i => UOut (traj_row nx x i) (traj_row nu u i) i) l).
    { induction l as [|i l IH]; intros Hl; [reflexivity|]. cbn [flat_map map app]. rewrite IH by (intros; apply Hl; now right). f_equal.
      specialize (Hl i (or_introl eq_refl)). destruct (rep_trow X _ _ x i HX Hl) as [_ ->]. destruct (rep_trow U _ _ u i HU Hl) as [_ ->]. reflexivity. }
    apply Q. intros i Hi. apply in_seq in Hi. lia.
  Qed.
  Lemma obj_pt_at (og : option (out_t F)) (X U : mat F) x u e : rep X (ph + 1) nx x -> rep U (ph + 1) nu u -> obj_pt d og X U e = obj_shown d og (x, u, e).
  Proof. intros HX HU. unfold obj_pt, obj_shown. now rewrite (out_calls_at og X U x u HX HU), (rep_rows _ _ _ _ HX), (rep_rows _ _ _ _ HU), (rep_rows _ _ _ _ (get_output_rep d og _ _ _ _ HX HU)). Qed.
  Lemma ieq_pt_at (og : option (out_t F)) (X U : mat F) x u e : rep X (ph + 1) nx x -> rep U (ph + 1) nu u -> ieq_pt d og X U e = ieq_shown d og (x, u, e).
  Proof. intros HX HU. unfold ieq_pt, ieq_shown. now rewrite (out_calls_at og X U x u HX HU), (rep_rows _ _ _ _ HX), (rep_rows _ _ _ _ HU), (rep_rows _ _ _ _ (get_output_rep d og _ _ _ _ HX HU)). Qed.
  Lemma eqc_pt_at (X U : mat F) x u : rep X (ph + 1) nx x -> rep U (ph + 1) nu u -> eqc_pt X U = eqc_shown d (x, u).
  Proof. intros HX HU. unfold eqc_pt, eqc_shown. now rewrite (rep_rows _ _ _ _ HX), (rep_rows _ _ _ _ HU). Qed.
  Lemma lin_mag (M : mat F) c (X : nat -> nat -> F) j : rep M (ph + 1) c X -> j < c -> lin (abs1 M) j = mag (nth_entry d X j).
  Proof. intros H Hj. now rewrite (lin_abs1 M (ph + 1) c X j H ltac:(lia) Hj). Qed.
  Lemma fwd_step (Y : nat -> nat -> F) R C a b t (y : mat F) : rep y R C Y -> a < R -> b < C ->
    let y1 := set_entry y a b (sadd (ent y a b) t) in
    rep y1 R C (pert Y a b t) /\ rep (set_entry y1 a b (ssub (ent y1 a b) t)) R C Y.
  Proof.
    intros Hy Ha Hb y1.
    assert (R1 : rep y1 R C (pert Y a b t)).
    { apply rep_bump; [exact Hy|exact Ha|exact Hb|]. destruct Hy as [_ E]. rewrite E by assumption. reflexivity. }
    split; [exact R1|]. assert (E1 : ent y1 a b = (Y a b + t)%S). { destruct R1 as [_ E]. rewrite E by assumption. unfold pert. now rewrite !Nat.eqb_refl. }
    eapply rep_ext; [apply rep_set; [exact R1|exact Ha|exact Hb]|]. intros i j Hi Hj. cbn beta. rewrite E1. unfold pert.
    destruct (Nat.eqb_spec i a), (Nat.eqb_spec j b); cbn [andb]; subst; try reflexivity. ring.
  Qed.
  (** rows ph-1 and ph moved together by +t or by -2t *)
  Lemma pair_step (U : nat -> nat -> F) (y : mat F) j (t s : F) : 0 < ph -> j < nu -> rep y (ph + 1) nu (pert2 d U j s) ->
    let y1 := set_entry y (ph - 1) j (sadd (ent y (ph - 1) j) t) in
    rep (set_entry y1 ph j (sadd (ent y1 ph j) t)) (ph + 1) nu (pert2 d U j (s + t)%S).
  Proof.
    intros P Hj Hy y1.
    assert (R1 : rep y1 (ph + 1) nu (pert (pert2 d U j s) (ph - 1) j t)).
    { apply rep_bump; [exact Hy|lia|exact Hj|]. destruct Hy as [_ E]. rewrite E by lia. reflexivity. }
    eapply rep_ext; [apply rep_bump with (t := t); [exact R1|lia|exact Hj|destruct R1 as [_ E]; rewrite E by lia; reflexivity]|].
    intros a b Ha Hb. unfold pert2, pert. destruct (Nat.eqb_spec a ph), (Nat.eqb_spec b j), (Nat.eqb_spec a (ph - 1)); cbn [andb]; subst; try reflexivity; try ring; lia.
  Qed.
  Lemma pert2_0 (U : nat -> nat -> F) j i k : pert2 d U j s0 i k = U i k.
  Proof. unfold pert2, pert. destruct ((i =? ph) && (k =? j)), ((i =? ph - 1) && (k =? j)); ring. Qed.
  Lemma sub_as_add (a b : F) : ssub a b = sadd a (sopp b). Proof. cbn. ring. Qed.

  Section At.
    Variables (X U : mat F) (x u : nat -> nat -> F) (e : F).
    Hypothesis HX : rep X (ph + 1) nx x.
    Hypothesis HU : rep U (ph + 1) nu u.
    Hypothesis P : 0 < ph.
    Notation dxo j := (dv_obj * mag (nth_entry d x j))%S.
    Notation duo j := (dv_obj * mag (nth_entry d u j))%S.
    Notation dxc j := (dv_con * mag (nth_entry d x j))%S.
    Notation duc j := (dv_con * mag (nth_entry d u j))%S.

    Lemma obj_jx_tr og : exists X', obj_jx_calls d og X U e = (X', flat_map (obj_shown d og) (each ph nx (fun i j => [(pert x (i + 1) j (dxo j), u, e)]))) /\ rep X' (ph + 1) nx x.
    Proof.
      rewrite each_flat. unfold obj_jx_calls. apply (tr_outer (ph + 1) nx x ph nx) with (x := X); [|exact HX].
      intros i j y L Hi Hj Hy. rewrite (lin_mag X nx x j HX Hj).
      destruct (fwd_step x (ph + 1) nx (i + 1) j (dxo j) y Hy ltac:(lia) Hj) as [R1 R2]. eexists. split; [|exact R2].
      cbn [flat_map]. rewrite app_nil_r. now rewrite (obj_pt_at og _ U _ u e R1 HU).
    Qed.
    Lemma obj_ju_tr og : exists U', obj_ju_calls d og (abs1 U) X U e = (U', flat_map (obj_shown d og) (each (ph - 1) nu (fun i j => [(x, pert u i j (duo j), e)]))) /\ rep U' (ph + 1) nu u.
    Proof.
      rewrite each_flat. unfold obj_ju_calls. apply (tr_outer (ph + 1) nu u (ph - 1) nu) with (x := U); [|exact HU].
      intros i j y L Hi Hj Hy. rewrite (lin_mag U nu u j HU Hj).
      destruct (fwd_step u (ph + 1) nu i j (duo j) y Hy ltac:(lia) Hj) as [R1 R2]. eexists. split; [|exact R2].
      cbn [flat_map]. rewrite app_nil_r. now rewrite (obj_pt_at og X _ x _ e HX R1).
    Qed.
    Lemma obj_jl_tr og V : rep V (ph + 1) nu u ->
      exists U', obj_jl_calls d og (abs1 U) X V e = (U', flat_map (obj_shown d og) (flat_map (fun j => [(x, pert2 d u j (duo j), e)]) (seq 0 nu))) /\ rep U' (ph + 1) nu u.
    Proof.
      intros HV. rewrite flat_flat. unfold obj_jl_calls.
      apply (tr_inner (ph + 1) nu u nu) with (k := nu) (x := V) (L := []); [|exact (le_n _)|exact HV].
      intros j y L Hj Hy. rewrite (lin_mag U nu u j HU Hj). cbn zeta.
      assert (H0 : rep y (ph + 1) nu (pert2 d u j s0)) by (eapply rep_ext; [exact Hy|]; intros; symmetry; apply pert2_0).
      pose proof (pair_step u y j (duo j) s0 P Hj H0) as R1. cbn zeta in R1.
      match type of R1 with rep ?m _ _ _ => set (y2 := m) in * end. clearbody y2.
      pose proof (pair_step u y2 j (- duo j)%S _ P Hj R1) as R2. cbn zeta in R2. rewrite <- !sub_as_add in R2. eexists. split; [|eapply rep_ext; [exact R2|]].
      - cbn [flat_map]. rewrite app_nil_r. f_equal. f_equal. apply (obj_pt_at og X _ x _ e HX). eapply rep_ext; [exact R1|].
        intros a b _ _. unfold pert2, pert. destruct ((a =? ph) && (b =? j)), ((a =? ph - 1) && (b =? j)); ring.
      - intros a b _ _. rewrite <- (pert2_0 u j a b). unfold pert2, pert. destruct ((a =? ph) && (b =? j)), ((a =? ph - 1) && (b =? j)); ring.
    Qed.
    Lemma obj_je_tr og : obj_je_calls d og X U e = flat_map (obj_shown d og)
      [(x, u, (e + smax (sdec 1%positive 1000000%positive) (sabs e) * dv_obj)%S); (x, u, (e - smax (sdec 1%positive 1000000%positive) (sabs e) * dv_obj)%S)].
    Proof. unfold obj_je_calls. cbn [flat_map]. rewrite app_nil_r. now rewrite !(obj_pt_at og X U x u _ HX HU). Qed.

    Lemma ieq_jx_tr og : exists X', ieq_jx_calls d og X U e =
      (X', flat_map (ieq_shown d og) (each ph nx (fun i j => [(pert x (i + 1) j (dxc j), u, e); (pert x (i + 1) j (- dxc j)%S, u, e)]))) /\ rep X' (ph + 1) nx x.
    Proof.
      rewrite each_flat. unfold ieq_jx_calls. apply (tr_outer (ph + 1) nx x ph nx) with (x := X); [|exact HX].
      intros i j y L Hi Hj Hy. rewrite (lin_mag X nx x j HX Hj).
      destruct (central_step x x (ph + 1) nx (i + 1) j (dxc j) y Hy ltac:(lia) Hj) as (R1 & R2 & R3). eexists. split; [|exact R3].
      cbn [flat_map]. rewrite app_nil_r. rewrite (ieq_pt_at og _ U _ u e R1 HU), (ieq_pt_at og _ U _ u e R2 HU). now rewrite app_assoc.
    Qed.
    Lemma ieq_ju_tr og : exists U', ieq_ju_calls d og X U e =
      (U', flat_map (ieq_shown d og) (each ph nu (fun i j => [(x, pert u i j (duc j), e); (x, pert u i j (- duc j)%S, e)]))) /\ rep U' (ph + 1) nu u.
    Proof.
      rewrite each_flat. unfold ieq_ju_calls. apply (tr_outer (ph + 1) nu u ph nu) with (x := U); [|exact HU].
      intros i j y L Hi Hj Hy. rewrite (lin_mag U nu u j HU Hj).
      destruct (central_step u u (ph + 1) nu i j (duc j) y Hy ltac:(lia) Hj) as (R1 & R2 & R3). eexists. split; [|exact R3].
      cbn [flat_map]. rewrite app_nil_r. rewrite (ieq_pt_at og X _ x _ e HX R1), (ieq_pt_at og X _ x _ e HX R2). now rewrite app_assoc.
    Qed.
    Lemma ieq_je_tr og : ieq_je_calls d og X U e = flat_map (ieq_shown d og) [(x, u, (e + smax dv_con (sabs e) * dv_con)%S); (x, u, (e - smax dv_con (sabs e) * dv_con)%S)].
    Proof. unfold ieq_je_calls. cbn [flat_map]. rewrite app_nil_r. now rewrite !(ieq_pt_at og X U x u _ HX HU). Qed.

    Lemma eqc_jx_tr : exists X', eqc_jx_calls d X U =
      (X', flat_map (eqc_shown d) (each ph nx (fun i j => let t := (dv_con * mag (x (i + 1)%nat j))%S in [(pert x (i + 1) j t, u); (pert x (i + 1) j (- t)%S, u)]))) /\ rep X' (ph + 1) nx x.
    Proof.
      rewrite each_flat. unfold eqc_jx_calls. apply (tr_outer (ph + 1) nx x ph nx) with (x := X); [|exact HX].
      intros i j y L Hi Hj Hy. rewrite (abs1_ent X _ _ x (i + 1) j HX ltac:(lia) Hj). change (smax (sabs (x (i + 1)%nat j)) s1) with (mag (x (i + 1)%nat j)).
      destruct (central_step x x (ph + 1) nx (i + 1) j (dv_con * mag (x (i + 1)%nat j))%S y Hy ltac:(lia) Hj) as (R1 & R2 & R3). eexists. split; [|exact R3].
      cbn [flat_map]. rewrite app_nil_r. rewrite (eqc_pt_at _ U _ u R1 HU), (eqc_pt_at _ U _ u R2 HU). now rewrite app_assoc.
    Qed.
    Lemma eqc_ju_tr : exists U', eqc_ju_calls d (abs1 U) X U =
      (U', flat_map (eqc_shown d) (each (ph - 1) nu (fun i j => let t := (dv_con * mag (u (ph - 1)%nat j))%S in [(x, pert u i j t); (x, pert u i j (- t)%S)]))) /\ rep U' (ph + 1) nu u.
    Proof.
      rewrite each_flat. unfold eqc_ju_calls. apply (tr_outer (ph + 1) nu u (ph - 1) nu) with (x := U); [|exact HU].
      intros i j y L Hi Hj Hy. rewrite (abs1_ent U _ _ u (ph - 1) j HU ltac:(lia) Hj). change (smax (sabs (u (ph - 1)%nat j)) s1) with (mag (u (ph - 1)%nat j)).
      destruct (central_step u u (ph + 1) nu i j (dv_con * mag (u (ph - 1)%nat j))%S y Hy ltac:(lia) Hj) as (R1 & R2 & R3). eexists. split; [|exact R3].
      cbn [flat_map]. rewrite app_nil_r. rewrite (eqc_pt_at X _ x _ HX R1), (eqc_pt_at X _ x _ HX R2). now rewrite app_assoc.
    Qed.
    Lemma eqc_jl_tr V : rep V (ph + 1) nu u -> exists U', eqc_jl_calls d (abs1 U) X V =
      (U', flat_map (eqc_shown d) (flat_map (fun j => let t := (dv_con * mag (u (ph - 1)%nat j))%S in [(x, pert2 d u j t); (x, pert2 d u j (- t)%S)]) (seq 0 nu))) /\ rep U' (ph + 1) nu u.
    Proof.
      intros HV. rewrite flat_flat. unfold eqc_jl_calls.
      apply (tr_inner (ph + 1) nu u nu) with (k := nu) (x := V) (L := []); [|exact (le_n _)|exact HV].
      intros j y L Hj Hy. rewrite (abs1_ent U _ _ u (ph - 1) j HU ltac:(lia) Hj). change (smax (sabs (u (ph - 1)%nat j)) s1) with (mag (u (ph - 1)%nat j)).
      set (t := (dv_con * mag (u (ph - 1)%nat j))%S). cbn zeta.
      assert (H0 : rep y (ph + 1) nu (pert2 d u j s0)) by (eapply rep_ext; [exact Hy|]; intros; symmetry; apply pert2_0).
      pose proof (pair_step u y j t s0 P Hj H0) as R1. cbn zeta in R1.
      match type of R1 with rep ?m _ _ _ => set (y2 := m) in * end. clearbody y2.
      pose proof (pair_step u y2 j (- (s2 * t))%S _ P Hj R1) as R2. cbn zeta in R2. rewrite <- !sub_as_add in R2.
      match type of R2 with rep ?m _ _ _ => set (y3 := m) in * end.
      pose proof (pair_step u y3 j t _ P Hj R2) as R3. cbn zeta in R3. eexists. split; [|eapply rep_ext; [exact R3|]].
      - cbn [flat_map]. rewrite app_nil_r. rewrite <- app_assoc. f_equal. f_equal. f_equal.
        + apply (eqc_pt_at X _ x _ HX). eapply rep_ext; [exact R1|].
          intros a b _ _. unfold pert2, pert. destruct ((a =? ph) && (b =? j)), ((a =? ph - 1) && (b =? j)); ring.
        + apply (eqc_pt_at X _ x _ HX). eapply rep_ext; [exact R2|].
          intros a b _ _. unfold pert2, pert, s2. destruct ((a =? ph) && (b =? j)), ((a =? ph - 1) && (b =? j)); ring.
      - intros a b _ _. rewrite <- (pert2_0 u j a b). unfold pert2, pert, s2. destruct ((a =? ph) && (b =? j)), ((a =? ph - 1) && (b =? j)); ring.
    Qed.
  End At.

  Lemma dyn_around_tr (X U : mat F) xv uv p : rv X nx xv -> rv U nu uv -> dyn_jac_calls d X U p = flat_map (dyn_shown d p) (dyn_around d xv uv).
  Proof.
    intros HX HU. unfold dyn_jac_calls, dyn_around. rewrite flat_map_app, !flat_flat. cbn zeta.
    rewrite (app_loop nx (fun i => dyn_pt (set_entry X i 0 (sadd (ent X i 0) (smul dv_con (ent (abs1 X) i 0)))) U p ++
      dyn_pt (set_entry X i 0 (ssub (ent X i 0) (smul dv_con (ent (abs1 X) i 0)))) U p)).
    rewrite (app_loop nu (fun i => dyn_pt X (set_entry U i 0 (sadd (ent U i 0) (smul dv_con (ent (abs1 U) i 0)))) p ++
      dyn_pt X (set_entry U i 0 (ssub (ent U i 0) (smul dv_con (ent (abs1 U) i 0)))) p)).
    cbn [app]. f_equal.
    - rewrite !flat_map_concat_map. f_equal. apply map_ext_in. intros j Hj. apply in_seq in Hj. cbn [flat_map dyn_shown app]. unfold dyn_pt. cbn [app].
      rewrite (abs1_v X nx xv j HX ltac:(lia)). change (smax (sabs (xv j)) s1) with (mag (xv j)).
      assert (EX : ent X j 0 = xv j) by (destruct HX as [_ E]; apply E; lia). rewrite EX, (rv_lst U _ _ HU).
      rewrite (rv_lst _ _ _ (rv_set X nx xv j (dv_con * mag (xv j))%S _ HX ltac:(lia) eq_refl)).
      rewrite (rv_lst _ _ _ (rv_set X nx xv j (- (dv_con * mag (xv j)))%S _ HX ltac:(lia) (sub_as_add _ _))). reflexivity.
    - rewrite !flat_map_concat_map. f_equal. apply map_ext_in. intros j Hj. apply in_seq in Hj. cbn [flat_map dyn_shown app]. unfold dyn_pt. cbn [app].
      rewrite (abs1_v U nu uv j HU ltac:(lia)). change (smax (sabs (uv j)) s1) with (mag (uv j)).
      assert (EX : ent U j 0 = uv j) by (destruct HU as [_ E]; apply E; lia). rewrite EX, (rv_lst X _ _ HX).
      rewrite (rv_lst _ _ _ (rv_set U nu uv j (dv_con * mag (uv j))%S _ HU ltac:(lia) eq_refl)).
      rewrite (rv_lst _ _ _ (rv_set U nu uv j (- (dv_con * mag (uv j)))%S _ HU ltac:(lia) (sub_as_add _ _))). reflexivity.
  Qed.

  (** ** the whole evaluations *)
  Variables (m : mapping F) (su sx : nat -> F).
  Hypothesis HM : map_is d m su sx.
  Hypothesis P : 0 < ph.
  Hypothesis C0 : 0 < ch.
  Hypothesis C : ch <= ph.
  Variables (xm x0 : mat F) (z xi : nat -> F).
  Hypothesis HX : gm xm (n_dec d) 1.
  Hypothesis HX0 : gm x0 nx 1.
  Hypothesis HZ : forall k, k < n_dec d -> ent xm k 0 = z k.
  Hypothesis Sx0 : forall j, j < nx -> sx j <> s0.
  Hypothesis Hxi : forall j, j < nx -> xi j = (sx j * ent x0 j 0)%S.
  Notation Xt := (st_traj d sx xi z). Notation Ut := (in_traj d su z). Notation et := (z (v_slack d)).
  Let TX := traj_X d m su sx HM P C0 C xm x0 z xi HX HX0 HZ Sx0 Hxi.
  Let TU := traj_U d m su sx HM P C0 C xm z HX HZ.
  Let TE := traj_e d P C0 C xm z HX HZ.

  Lemma obj_calls_at hg og : obj_calls d m hg og x0 xm = flat_map (obj_shown d og) (if hg then obj_points d Xt Ut et else [(Xt, Ut, et)]).
  Proof.
    unfold obj_calls. rewrite TE. pose proof TX as TX. pose proof TU as TU. set (X := unwrap_X d m xm x0) in *. set (U := unwrap_U d m xm) in *. clearbody X U. cbn zeta.
    rewrite (obj_pt_at og X U _ _ et TX TU). destruct hg; [|cbn [flat_map]; now rewrite app_nil_r].
    destruct (obj_jx_tr X U _ _ et TX TU P og) as (X' & -> & R1). destruct (obj_ju_tr X' U _ _ et R1 TU P og) as (U' & -> & R2).
    destruct (obj_jl_tr X' U _ _ et R1 TU P og U' R2) as (U'' & -> & R3). rewrite (obj_je_tr X' U'' _ _ et R1 R3 og).
    unfold obj_points. cbn zeta. rewrite !flat_map_app. cbn [flat_map]. rewrite !app_nil_r. reflexivity.
  Qed.
  Lemma ieq_calls_at og : ieq_calls d m og x0 xm = flat_map (ieq_shown d og) (ieq_points d Xt Ut et).
  Proof.
    unfold ieq_calls. rewrite TE. pose proof TX as TX. pose proof TU as TU. set (X := unwrap_X d m xm x0) in *. set (U := unwrap_U d m xm) in *. clearbody X U. cbn zeta.
    rewrite (ieq_pt_at og X U _ _ et TX TU).
    destruct (ieq_jx_tr X U _ _ et TX TU P og) as (X' & -> & R1). destruct (ieq_ju_tr X' U _ _ et R1 TU P og) as (U' & -> & R2).
    rewrite (ieq_je_tr X' U' _ _ et R1 R2 og).
    unfold ieq_points. cbn zeta. rewrite !flat_map_app. cbn [flat_map]. rewrite !app_nil_r. reflexivity.
  Qed.
  Lemma eqc_calls_at : eqc_calls d m x0 xm = flat_map (eqc_shown d) (eqc_points d Xt Ut).
  Proof.
    unfold eqc_calls. pose proof TX as TX. pose proof TU as TU. set (X := unwrap_X d m xm x0) in *. set (U := unwrap_U d m xm) in *. clearbody X U. cbn zeta.
    rewrite (eqc_pt_at X U _ _ TX TU).
    destruct (eqc_jx_tr X U _ _ TX TU P) as (X' & -> & R1). destruct (eqc_ju_tr X' U _ _ R1 TU P) as (U' & -> & R2).
    destruct (eqc_jl_tr X' U _ _ R1 TU P U' R2) as (U'' & -> & R3).
    unfold eqc_points. cbn zeta. rewrite !flat_map_app. cbn [flat_map]. rewrite !app_nil_r. reflexivity.
  Qed.
  Lemma dyn_calls_at hg cont : dyn_calls d m hg cont x0 xm = flat_map (fun p => flat_map (dyn_shown d p) (dyn_points d hg cont Xt Ut p)) (seq 0 ph).
  Proof.
    unfold dyn_calls. pose proof TX as TX. pose proof TU as TU. set (X := unwrap_X d m xm x0) in *. set (U := unwrap_U d m xm) in *. clearbody X U. cbn zeta.
    rewrite (app_loop ph (fun i => dyn_pt (mtrans (mrow X i)) (mtrans (mrow U i)) i ++
      (if cont then dyn_pt (mtrans (mrow X (i + 1))) (mtrans (mrow U i)) i else []) ++
      (if hg then dyn_jac_calls d (mtrans (mrow X i)) (mtrans (mrow U i)) i else []) ++
      (if hg && cont then dyn_jac_calls d (mtrans (mrow X (i + 1))) (mtrans (mrow U i)) i else []))).
    cbn [app]. rewrite !flat_map_concat_map. f_equal. apply map_ext_in. intros p Hp. apply in_seq in Hp.
    pose proof (trow_rv d X nx _ p TX ltac:(lia)) as V1. pose proof (trow_rv d X nx _ (p + 1) TX ltac:(lia)) as V2. pose proof (trow_rv d U nu _ p TU ltac:(lia)) as V3.
    rewrite (dyn_around_tr _ _ _ _ p V1 V3), (dyn_around_tr _ _ _ _ p V2 V3). unfold dyn_points. rewrite !flat_map_app.
    unfold dyn_pt. rewrite (rv_lst _ _ _ V1), (rv_lst _ _ _ V2), (rv_lst _ _ _ V3). cbn [flat_map dyn_shown]. rewrite app_nil_r.
    destruct hg, cont; cbn [andb flat_map app dyn_shown]; rewrite ?app_nil_r; reflexivity.
  Qed.
End TraceEnt.
