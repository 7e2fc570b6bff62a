(** The trace of [NLTrace.v] contains every call on which the results of [NLFun.v] depend (no scalar law is used). *)
From Coq Require Import Bool Arith List Lia BinPos.
From Verif Require Import Scalar Sums Mat Builder NLMap NLFun NLMPC NLTrace SpecTrace.
Import ListNotations.

Section Same.
  Context {F : Type} {SO : ScalarOps F}.
  Variable junk : nat -> nat -> F.
  Variable d : dims.
  Variables ni ne : nat.
  Notation nx := (d_nx d). Notation nu := (d_nu d). Notation ny := (d_ny d).
  Notation ph := (d_ph d). Notation ch := (d_ch d).

  Variable agree : ucall F -> Prop.
  Definition all_agree (l : list (ucall F)) : Prop := forall c, In c l -> agree c.
  Lemma all_app l k : all_agree (l ++ k) <-> all_agree l /\ all_agree k.
  Proof. unfold all_agree. split; [intros H; split; intros c Hc; apply H, in_or_app; auto|intros [A B] c Hc; apply in_app_or in Hc as [|]; auto]. Qed.
  (** [b] and [b'] do the same when the calls recorded by [bt] agree; the three move the same matrix *)
  Definition par {T} (b b' : mat F * T -> mat F * T) (bt : mat F * list (ucall F) -> mat F * list (ucall F)) : Prop :=
    forall x J L, exists x' J' l, b (x, J) = (x', J') /\ bt (x, L) = (x', L ++ l) /\ (all_agree l -> b' (x, J) = (x', J')).
  Lemma par_loop {T} n (b b' : nat -> mat F * T -> mat F * T) bt : (forall j, j < n -> par (b j) (b' j) (bt j)) -> par (loop n b) (loop n b') (loop n bt).
  Proof.
    induction n as [|n IH]; intros H x J L; cbn [loop].
    - exists x, J, []. refine (conj eq_refl (conj _ _)); [now rewrite app_nil_r|reflexivity].
    - destruct (IH ltac:(intros; apply H; lia) x J L) as (x1 & J1 & l1 & E1 & E2 & E3).
      destruct (H n (Nat.lt_succ_diag_r n) x1 J1 (L ++ l1)) as (x2 & J2 & l2 & E4 & E5 & E6).
      exists x2, J2, (l1 ++ l2). rewrite E1, E2. refine (conj E4 (conj _ _)); [now rewrite app_assoc|].
      intros A. apply all_app in A as [A1 A2]. rewrite (E3 A1). exact (E6 A2).
  Qed.
  Lemma par_run {T} (b b' : mat F * T -> mat F * T) bt x J : par b b' bt ->
    fst (b (x, J)) = fst (bt (x, [])) /\ (all_agree (snd (bt (x, []))) -> b' (x, J) = b (x, J)).
  Proof. intros H. destruct (H x J []) as (x' & J' & l & -> & -> & E). cbn [fst snd app]. auto. Qed.
  (** vector-valued loops: only a list is threaded *)
  Definition lpar {T} (b b' : T -> T) (bt : list (ucall F) -> list (ucall F)) : Prop :=
    forall J L, exists l, bt L = L ++ l /\ (all_agree l -> b' J = b J).
  Lemma lpar_loop {T} n (b b' : nat -> T -> T) bt : (forall j, j < n -> lpar (b j) (b' j) (bt j)) -> lpar (loop n b) (loop n b') (loop n bt).
  Proof.
    induction n as [|n IH]; intros H J L; cbn [loop].
    - exists []. split; [now rewrite app_nil_r|reflexivity].
    - destruct (IH ltac:(intros; apply H; lia) J L) as (l1 & -> & E3).
      destruct (H n (Nat.lt_succ_diag_r n) (loop n b J) (L ++ l1)) as (l2 & -> & E6).
      exists (l1 ++ l2). split; [now rewrite app_assoc|].
      intros A. apply all_app in A as [A1 A2]. rewrite (E3 A1). exact (E6 A2).
  Qed.
  Lemma lpar_run {T} (b b' : T -> T) bt J : lpar b b' bt -> all_agree (bt []) -> b' J = b J.
  Proof. intros H A. destruct (H J []) as (l & E & E'). apply E'. rewrite E in A. exact A. Qed.

  Variables (og og' : option (out_t F)).
  Hypothesis Hout : og = None <-> og' = None.
  Hypothesis Gout : forall x u i, agree (UOut x u i) -> option_map (fun g => g x u i) og = option_map (fun g => g x u i) og'.

  Lemma out_same X U : all_agree (out_calls d og X U) -> get_output d og' X U = get_output d og X U.
  Proof.
    unfold out_calls, get_output. destruct og as [g|], og' as [g'|].
    - intros A. apply (lpar_run (loop (ph + 1) _) (loop (ph + 1) _) (loop (ph + 1) (fun i L => L ++ [UOut (lst (mtrans (mrow X i))) (lst (mtrans (mrow U i))) i])) _); [|exact A].
      apply lpar_loop. intros i Hi J L. eexists. split; [reflexivity|]. intros B.
      specialize (Gout _ _ _ (B _ (or_introl eq_refl))). cbn [option_map] in Gout. apply (f_equal (fun o => match o with Some v => v | None => fun _ => s0 end)) in Gout. now rewrite Gout.
    - destruct Hout as [_ H]. discriminate (H eq_refl).
    - destruct Hout as [H _]. discriminate (H eq_refl).
    - reflexivity.
  Qed.

  Section Obj.
    Variables f f' : obj_t F.
    Hypothesis Gf : forall X Y U e, agree (UObj X Y U e) -> f X Y U e = f' X Y U e.
    Lemma obj_same X U e : all_agree (obj_pt d og X U e) -> obj_call d f' og' X U e = obj_call d f og X U e.
    Proof. intros A. apply all_app in A as [A1 A2]. unfold obj_call. rewrite (out_same X U A1). symmetry. apply Gf, A2. now left. Qed.
    Lemma obj_jx_par X U e f0 : fst (obj_jx d f og X U e f0) = fst (obj_jx_calls d og X U e) /\
      (all_agree (snd (obj_jx_calls d og X U e)) -> obj_jx d f' og' X U e f0 = obj_jx d f og X U e f0).
    Proof.
      unfold obj_jx, obj_jx_calls. apply par_run. apply par_loop. intros i Hi. apply par_loop. intros j Hj x J L.
      eexists _, _, _. refine (conj eq_refl (conj eq_refl _)). intros A. now rewrite (obj_same _ U e A).
    Qed.
    Lemma obj_ju_par Ua X U J e f0 : fst (obj_ju_inner d f og Ua X U J e f0) = fst (obj_ju_calls d og Ua X U e) /\
      (all_agree (snd (obj_ju_calls d og Ua X U e)) -> obj_ju_inner d f' og' Ua X U J e f0 = obj_ju_inner d f og Ua X U J e f0).
    Proof.
      unfold obj_ju_inner, obj_ju_calls. apply par_run. apply par_loop. intros i Hi. apply par_loop. intros j Hj x J' L.
      eexists _, _, _. refine (conj eq_refl (conj eq_refl _)). intros A. now rewrite (obj_same X _ e A).
    Qed.
    Lemma obj_jl_par Ua X U J e f0 : fst (obj_ju_last d f og Ua X U J e f0) = fst (obj_jl_calls d og Ua X U e) /\
      (all_agree (snd (obj_jl_calls d og Ua X U e)) -> obj_ju_last d f' og' Ua X U J e f0 = obj_ju_last d f og Ua X U J e f0).
    Proof.
      unfold obj_ju_last, obj_jl_calls. apply par_run. apply par_loop. intros j Hj x J' L.
      eexists _, _, _. refine (conj eq_refl (conj eq_refl _)). intros A. now rewrite (obj_same X _ e A).
    Qed.
    Lemma obj_je_par X U e : all_agree (obj_je_calls d og X U e) -> obj_je d f' og' X U e = obj_je d f og X U e.
    Proof. intros A. apply all_app in A as [A1 A2]. unfold obj_je. now rewrite (obj_same X U _ A1), (obj_same X U _ A2). Qed.
    Lemma obj_ev_same m x0 x : all_agree (obj_calls d m true og x0 x) -> obj_evaluate junk d m f' og' x0 x = obj_evaluate junk d m f og x0 x.
    Proof.
      unfold obj_calls, obj_evaluate, obj_jacobian. set (X := unwrap_X d m x x0). set (U := unwrap_U d m x). set (e := unwrap_e x). clearbody X U e. cbn zeta.
      intros A. apply all_app in A as [A1 A]. rewrite (obj_same X U e A1). set (f0 := obj_call d f og X U e). clearbody f0.
      pose proof (obj_jx_par X U e f0) as [B1 B2]. destruct (obj_jx_calls d og X U e) as [X' Lx]. cbn [fst snd] in *.
      pose proof (obj_ju_par (abs1 U) X' U (mzero nu ph) e f0) as [C1 C2]. destruct (obj_ju_calls d og (abs1 U) X' U e) as [U' Lu]. cbn [fst snd] in *.
      pose proof (fun J => obj_jl_par (abs1 U) X' U' J e f0) as D. destruct (obj_jl_calls d og (abs1 U) X' U' e) as [U'' Ll]. cbn [fst snd] in *.
      apply all_app in A as [A2 A]. apply all_app in A as [A3 A]. apply all_app in A as [A4 A5].
      rewrite (B2 A2). destruct (obj_jx d f og X U e f0) as [X1 Jx]. cbn [fst] in B1. subst X1.
      rewrite (C2 A3). destruct (obj_ju_inner d f og (abs1 U) X' U (mzero nu ph) e f0) as [U1 Ju]. cbn [fst] in C1. subst U1.
      destruct (D Ju) as [D1 D2]. rewrite (D2 A4). destruct (obj_ju_last d f og (abs1 U) X' U' Ju e f0) as [U2 Jl]. cbn [fst] in D1. subst U2.
      rewrite (obj_je_par X' U'' e A5). reflexivity.
    Qed.
    Lemma obj_val_same m x0 x : all_agree (obj_calls d m false og x0 x) -> fst (obj_evaluate junk d m f' og' x0 x) = fst (obj_evaluate junk d m f og x0 x).
    Proof.
      unfold obj_calls, obj_evaluate. cbn zeta. intros A. rewrite app_nil_r in A.
      assert (Q : forall (c : obj_t F) o v, fst (let '(Jx, Jmv, Je) := obj_jacobian d c o (unwrap_X d m x x0) (unwrap_U d m x) v (unwrap_e x) in
        let '(c0, g) := put_cols Jx 0 (mjunk junk (n_dec d) 1) in
        let '(_, jv) := put_cols Jmv 0 (mjunk junk (ph * nu) 1) in
        let '(_, g0) := loop (ch * nu) (fun j '(c1, g0) => (S c1, set_entry g0 c1 0 (ent (mmul (mtrans (mp_z2u m)) jv) j 0))) (c0, g) in
        (v, guard (mok (mmul (mtrans (mp_z2u m)) jv)) (set_entry g0 (n_dec d - 1) 0 Je))) = v).
      { intros c o v. destruct (obj_jacobian _ _ _ _ _ _ _) as [[Jx Jmv] Je]. destruct (put_cols Jx _ _) as [c0 g]. destruct (put_cols Jmv _ _) as [c1 jv].
        destruct (loop _ _ _) as [c2 g0]. reflexivity. }
      rewrite !Q. exact (obj_same _ _ _ A).
    Qed.
  End Obj.

  Section Ieq.
    Variables f f' : ieq_t F.
    Hypothesis Gf : forall X Y U e, agree (UIeq X Y U e) -> f X Y U e = f' X Y U e.
    Lemma ieq_same X U e : all_agree (ieq_pt d og X U e) -> ieq_call d ni f' og' X U e = ieq_call d ni f og X U e.
    Proof. intros A. apply all_app in A as [A1 A2]. unfold ieq_call. rewrite (out_same X U A1). f_equal. symmetry. apply Gf, A2. now left. Qed.
    Lemma ieq_jx_par X U e : fst (ieq_jx d ni f og X U e) = fst (ieq_jx_calls d og X U e) /\
      (all_agree (snd (ieq_jx_calls d og X U e)) -> ieq_jx d ni f' og' X U e = ieq_jx d ni f og X U e).
    Proof.
      unfold ieq_jx, ieq_jx_calls. apply par_run. apply par_loop. intros i Hi. apply par_loop. intros j Hj x J L.
      eexists _, _, _. refine (conj eq_refl (conj _ _)); [cbv zeta; f_equal; symmetry; apply app_assoc|].
      intros A. apply all_app in A as [A1 A2]. cbv zeta. now rewrite (ieq_same _ U e A1), (ieq_same _ U e A2).
    Qed.
    Lemma ieq_ju_par X U e : fst (ieq_ju d ni f og X U e) = fst (ieq_ju_calls d og X U e) /\
      (all_agree (snd (ieq_ju_calls d og X U e)) -> ieq_ju d ni f' og' X U e = ieq_ju d ni f og X U e).
    Proof.
      unfold ieq_ju, ieq_ju_calls. apply par_run. apply par_loop. intros i Hi. apply par_loop. intros j Hj x J L.
      eexists _, _, _. refine (conj eq_refl (conj _ _)); [cbv zeta; f_equal; symmetry; apply app_assoc|].
      intros A. apply all_app in A as [A1 A2]. cbv zeta. now rewrite (ieq_same X _ e A1), (ieq_same X _ e A2).
    Qed.
    Lemma ieq_ev_same m x0 x : all_agree (ieq_calls d m og x0 x) -> ieq_evaluate junk d ni m f' og' x0 x = ieq_evaluate junk d ni m f og x0 x.
    Proof.
      unfold ieq_calls, ieq_evaluate. set (X := unwrap_X d m x x0). set (U := unwrap_U d m x). set (e := unwrap_e x). clearbody X U e. cbn zeta.
      intros A. apply all_app in A as [A1 A]. rewrite (ieq_same X U e A1).
      pose proof (ieq_jx_par X U e) as [B1 B2]. destruct (ieq_jx_calls d og X U e) as [X' Lx]. cbn [fst snd] in *.
      pose proof (ieq_ju_par X' U e) as [C1 C2]. destruct (ieq_ju_calls d og X' U e) as [U' Lu]. cbn [fst snd] in *.
      apply all_app in A as [A2 A]. apply all_app in A as [A3 A4].
      rewrite (B2 A2). destruct (ieq_jx d ni f og X U e) as [X1 Jx]. cbn [fst] in B1. subst X1.
      rewrite (C2 A3). destruct (ieq_ju d ni f og X' U e) as [U1 Ju]. cbn [fst] in C1. subst U1.
      apply all_app in A4 as [A4 A5]. unfold ieq_je. rewrite (ieq_same X' U' _ A4), (ieq_same X' U' _ A5). reflexivity.
    Qed.
  End Ieq.

  Section Eqc.
    Variables f f' : eqc_t F.
    Hypothesis Gf : forall X U, agree (UEqc X U) -> f X U = f' X U.
    Lemma eqc_same X U : all_agree (eqc_pt X U) -> eqc_call ne f' X U = eqc_call ne f X U.
    Proof. intros A. unfold eqc_call. f_equal. symmetry. apply Gf, A. now left. Qed.
    Lemma eqc_jx_par X U : fst (eqc_jx d ne f X U) = fst (eqc_jx_calls d X U) /\
      (all_agree (snd (eqc_jx_calls d X U)) -> eqc_jx d ne f' X U = eqc_jx d ne f X U).
    Proof.
      unfold eqc_jx, eqc_jx_calls. apply par_run. apply par_loop. intros i Hi. apply par_loop. intros j Hj x J L.
      eexists _, _, _. refine (conj eq_refl (conj _ _)); [cbv zeta; f_equal; symmetry; apply app_assoc|].
      intros A. apply all_app in A as [A1 A2]. cbv zeta. now rewrite (eqc_same _ U A1), (eqc_same _ U A2).
    Qed.
    Lemma eqc_ju_par Ua X U J : fst (eqc_ju_inner d ne f Ua X U J) = fst (eqc_ju_calls d Ua X U) /\
      (all_agree (snd (eqc_ju_calls d Ua X U)) -> eqc_ju_inner d ne f' Ua X U J = eqc_ju_inner d ne f Ua X U J).
    Proof.
      unfold eqc_ju_inner, eqc_ju_calls. apply par_run. apply par_loop. intros i Hi. apply par_loop. intros j Hj x J' L.
      eexists _, _, _. refine (conj eq_refl (conj _ _)); [cbv zeta; f_equal; symmetry; apply app_assoc|].
      intros A. apply all_app in A as [A1 A2]. cbv zeta. now rewrite (eqc_same X _ A1), (eqc_same X _ A2).
    Qed.
    Lemma eqc_jl_par Ua X U J : fst (eqc_ju_last d ne f Ua X U J) = fst (eqc_jl_calls d Ua X U) /\
      (all_agree (snd (eqc_jl_calls d Ua X U)) -> eqc_ju_last d ne f' Ua X U J = eqc_ju_last d ne f Ua X U J).
    Proof.
      unfold eqc_ju_last, eqc_jl_calls. apply par_run. apply par_loop. intros j Hj x J' L.
      eexists _, _, _. refine (conj eq_refl (conj _ _)); [cbv zeta; f_equal; symmetry; apply app_assoc|].
      intros A. apply all_app in A as [A1 A2]. cbv zeta. now rewrite (eqc_same X _ A1), (eqc_same X _ A2).
    Qed.
    Lemma eqc_ev_same m x0 x : all_agree (eqc_calls d m x0 x) -> eqc_evaluate junk d ne m f' x0 x = eqc_evaluate junk d ne m f x0 x.
    Proof.
      unfold eqc_calls, eqc_evaluate. set (X := unwrap_X d m x x0). set (U := unwrap_U d m x). clearbody X U. cbn zeta.
      intros A. apply all_app in A as [A1 A]. rewrite (eqc_same X U A1).
      pose proof (eqc_jx_par X U) as [B1 B2]. destruct (eqc_jx_calls d X U) as [X' Lx]. cbn [fst snd] in *.
      pose proof (eqc_ju_par (abs1 U) X' U (mzero ne (ph * nu))) as [C1 C2]. destruct (eqc_ju_calls d (abs1 U) X' U) as [U' Lu]. cbn [fst snd] in *.
      pose proof (fun J => eqc_jl_par (abs1 U) X' U' J) as D. destruct (eqc_jl_calls d (abs1 U) X' U') as [U'' Ll]. cbn [fst snd] in *.
      apply all_app in A as [A2 A]. apply all_app in A as [A3 A4].
      rewrite (B2 A2). destruct (eqc_jx d ne f X U) as [X1 Jx]. cbn [fst] in B1. subst X1.
      rewrite (C2 A3). destruct (eqc_ju_inner d ne f (abs1 U) X' U (mzero ne (ph * nu))) as [U1 Ju]. cbn [fst] in C1. subst U1.
      destruct (D Ju) as [D1 D2]. rewrite (D2 A4). reflexivity.
    Qed.
  End Eqc.

  Section Dyn.
    Variables f f' : dyn_t F.
    Hypothesis Gf : forall x u p, agree (UDyn x u p) -> f x u p = f' x u p.
    Lemma dyn_same x u p : all_agree (dyn_pt x u p) -> dyn_call d f' x u p = dyn_call d f x u p.
    Proof. intros A. unfold dyn_call. f_equal. symmetry. apply Gf, A. now left. Qed.
    Lemma dyn_jac_same x u p : all_agree (dyn_jac_calls d x u p) -> dyn_jac d f' x u p = dyn_jac d f x u p.
    Proof.
      unfold dyn_jac_calls, dyn_jac. cbn zeta. intros A. apply all_app in A as [A1 A2]. f_equal.
      - refine (lpar_run _ _ _ _ _ A1). apply lpar_loop. intros i Hi J L. eexists. split; [reflexivity|].
        intros B. apply all_app in B as [B1 B2]. now rewrite (dyn_same _ u p B1), (dyn_same _ u p B2).
      - refine (lpar_run _ _ _ _ _ A2). apply lpar_loop. intros i Hi J L. eexists. split; [reflexivity|].
        intros B. apply all_app in B as [B1 B2]. now rewrite (dyn_same x _ p B1), (dyn_same x _ p B2).
    Qed.
    Lemma seq_ev_same m ts x0 x : all_agree (dyn_calls d m true (match ts with Some _ => true | None => false end) x0 x) ->
      seq_evaluate junk d m f' ts x0 x = seq_evaluate junk d m f ts x0 x.
    Proof.
      unfold dyn_calls, seq_evaluate. set (X := unwrap_X d m x x0). set (U := unwrap_U d m x). clearbody X U. cbn zeta. intros A.
      assert (Q : forall s0, loop ph (match ts with Some t => seq_body_cont d m f' t X U | None => seq_body_disc d m f' X U end) s0 =
        loop ph (match ts with Some t => seq_body_cont d m f t X U | None => seq_body_disc d m f X U end) s0).
      { intros s0'. refine (lpar_run (loop ph _) (loop ph _) _ s0' _ A). apply lpar_loop. intros i Hi J L. eexists. split; [reflexivity|]. cbn [andb].
        intros B. destruct J as [[[ic ceq] Jx] Jmv]. destruct ts as [t|].
        - apply all_app in B as [B1 B]. apply all_app in B as [B2 B]. apply all_app in B as [B3 B4].
          unfold seq_body_cont. cbv zeta. rewrite (dyn_same _ _ i B1), (dyn_same _ _ i B2), (dyn_jac_same _ _ i B3), (dyn_jac_same _ _ i B4). reflexivity.
        - apply all_app in B as [B1 B]. cbn [app] in B. rewrite app_nil_r in B. unfold seq_body_disc. cbv zeta.
          rewrite (dyn_same _ _ i B1), (dyn_jac_same _ _ i B). reflexivity. }
      now rewrite Q.
    Qed.
    (** without gradient: the values only *)
    Lemma seq_val_same m ts x0 x : all_agree (dyn_calls d m false (match ts with Some _ => true | None => false end) x0 x) ->
      fst (seq_evaluate junk d m f' ts x0 x) = fst (seq_evaluate junk d m f ts x0 x).
    Proof.
      unfold dyn_calls, seq_evaluate. set (X := unwrap_X d m x x0). set (U := unwrap_U d m x). clearbody X U. cbn zeta. cbn [andb]. intros A.
      set (B := match ts with Some t => seq_body_cont d m f t X U | None => seq_body_disc d m f X U end).
      set (B' := match ts with Some t => seq_body_cont d m f' t X U | None => seq_body_disc d m f' X U end).
      set (T := fun (i : nat) (L : list (ucall F)) => L ++ dyn_pt (mtrans (mrow X i)) (mtrans (mrow U i)) i ++
        (if match ts with Some _ => true | None => false end then dyn_pt (mtrans (mrow X (i + 1))) (mtrans (mrow U i)) i else []) ++ [] ++ []).
      change (all_agree (loop ph T [])) in A.
      assert (Q : forall n s1 s2, fst (fst s1) = fst (fst s2) -> all_agree (loop n T []) -> fst (fst (loop n B' s1)) = fst (fst (loop n B s2))).
      { induction n as [|n IH]; intros s1 s2 E H; cbn [loop] in *; [exact E|]. unfold T at 1 in H. apply all_app in H as [H1 H2].
        specialize (IH s1 s2 E H1). destruct (loop n B' s1) as [[[ic1 c1] Jx1] Jm1]. destruct (loop n B s2) as [[[ic2 c2] Jx2] Jm2].
        cbn [fst] in IH. inversion IH; subst. clear IH. unfold B, B'. apply all_app in H2 as [H2 H3]. destruct ts as [t|].
        - apply all_app in H3 as [H3 _]. unfold seq_body_cont. cbv zeta. rewrite (dyn_same _ _ n H2), (dyn_same _ _ n H3).
          repeat match goal with |- context [dyn_jac ?a ?b ?c ?e ?g] => destruct (dyn_jac a b c e g) end. reflexivity.
        - unfold seq_body_disc. cbv zeta. rewrite (dyn_same _ _ n H2).
          repeat match goal with |- context [dyn_jac ?a ?b ?c ?e ?g] => destruct (dyn_jac a b c e g) end. reflexivity. }
      specialize (Q ph _ (0, mzero (ph * nx) 1, mzero (ph * nx) (ph * nx), mzero (ph * nx) (ph * nu)) eq_refl A).
      destruct (loop ph B' _) as [[[i1 c1] Jx1] Jm1]. destruct (loop ph B _) as [[[i2 c2] Jx2] Jm2]. cbn [fst] in *. now inversion Q.
    Qed.
  End Dyn.
End Same.
