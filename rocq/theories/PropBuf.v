(** Property C75: user functions that do not write all of their output. *)
From Coq Require Import Bool Arith ZArith List Lia.
From Verif Require Import Scalar Sums Mat Slice Builder LMPC NLMap NLTraj NLFun SpecNL NLLoop NLGrad NLShape NLMPC SpecNLC SpecNLP NLRef NLRun NLTrace SpecTrace NLBuf SpecBuf PropNL1 NLObs.
Import ListNotations.

Section Same.
  Context {F : Type} {SO : ScalarOps F}.
  Variable junk : nat -> nat -> F.
  Variable d : dims.
  Variables ni ne : nat.
  Variable m : mapping F.

  Ltac lp H := repeat (apply loop_ext; intros); repeat match goal with p : (_ * _)%type |- _ => destruct p end; cbn zeta; rewrite ?H; reflexivity.
  Lemma ieq_same call call' X U e : (forall s X U e, call s X U e = call' s X U e) -> ieqb_grad junk d ni m call X U e = ieqb_grad junk d ni m call' X U e.
  Proof.
    intros H. unfold ieqb_grad.
    assert (E1 : ieqb_jx d ni call X U e = ieqb_jx d ni call' X U e) by (unfold ieqb_jx; cbn zeta; lp H).
    rewrite E1. destruct (ieqb_jx d ni call' X U e) as [X' Jx].
    assert (E2 : ieqb_ju d ni call X' U e = ieqb_ju d ni call' X' U e) by (unfold ieqb_ju; cbn zeta; lp H).
    rewrite E2. destruct (ieqb_ju d ni call' X' U e) as [U' Jmv]. unfold ieqb_je. now rewrite !H.
  Qed.
  Lemma eqc_same call call' X U : (forall s X U, call s X U = call' s X U) -> eqcb_grad junk d ne m call X U = eqcb_grad junk d ne m call' X U.
  Proof.
    intros H. unfold eqcb_grad.
    assert (E1 : eqcb_jx d ne call X U = eqcb_jx d ne call' X U) by (unfold eqcb_jx; cbn zeta; lp H).
    rewrite E1. destruct (eqcb_jx d ne call' X U) as [X' Jx]. cbn zeta.
    assert (E2 : eqcb_ju_inner d call (abs1 U) X' U (mzero ne (d_ph d * d_nu d)) = eqcb_ju_inner d call' (abs1 U) X' U (mzero ne (d_ph d * d_nu d))) by (unfold eqcb_ju_inner; lp H).
    rewrite E2. destruct (eqcb_ju_inner d call' _ _ _ _) as [U' Jmv].
    assert (E3 : eqcb_ju_last d call (abs1 U) X' U' Jmv = eqcb_ju_last d call' (abs1 U) X' U' Jmv) by (unfold eqcb_ju_last; lp H).
    now rewrite E3.
  Qed.
  Lemma dyn_same call call' ts x0 x : (forall s x u p, call s x u p = call' s x u p) -> seqb_evaluate junk d m call ts x0 x = seqb_evaluate junk d m call' ts x0 x.
  Proof.
    intros H. unfold seqb_evaluate. cbn zeta.
    assert (J : forall b x u p, dynb_jac d call b x u p = dynb_jac d call' b x u p).
    { intros b x1 u p. unfold dynb_jac. cbn zeta. f_equal; lp H. }
    assert (E : forall X U i st, (match ts with Some t => seqb_cont d m call t X U | None => seqb_disc d m call X U end) i st =
                                 (match ts with Some t => seqb_cont d m call' t X U | None => seqb_disc d m call' X U end) i st).
    { intros X U i [[[ic ceq] Jx] Jmv]. destruct ts; unfold seqb_cont, seqb_disc; cbn zeta; now rewrite !H, !J. }
    rewrite (loop_ext (d_ph d) _ _ _ (fun i st _ => E (unwrap_X d m x x0) (unwrap_U d m x) i st)). reflexivity.
  Qed.
  (** without buffers the loops are those of [NLFun.v] *)
  Lemma ieq_plain c og x0 x : let X := unwrap_X d m x x0 in let U := unwrap_U d m x in let e := unwrap_e x in
    (ieq_call d ni c og X U e, ieqb_grad junk d ni m (fun _ => ieq_call d ni c og) X U e) = ieq_evaluate junk d ni m c og x0 x.
  Proof.
    intros X U e. unfold ieq_evaluate, ieqb_grad. cbn zeta. fold X U e. change (ieqb_jx d ni (fun _ => ieq_call d ni c og) X U e) with (ieq_jx d ni c og X U e).
    destruct (ieq_jx d ni c og X U e) as [X' Jx]. change (ieqb_ju d ni (fun _ => ieq_call d ni c og) X' U e) with (ieq_ju d ni c og X' U e).
    destruct (ieq_ju d ni c og X' U e) as [U' Jmv]. reflexivity.
  Qed.
  Lemma eqc_plain c x0 x : let X := unwrap_X d m x x0 in let U := unwrap_U d m x in
    (eqc_call ne c X U, eqcb_grad junk d ne m (fun _ => eqc_call ne c) X U) = eqc_evaluate junk d ne m c x0 x.
  Proof.
    intros X U. unfold eqc_evaluate, eqcb_grad. cbn zeta. fold X U. change (eqcb_jx d ne (fun _ => eqc_call ne c) X U) with (eqc_jx d ne c X U).
    destruct (eqc_jx d ne c X U) as [X' Jx]. change (eqcb_ju_inner d (fun _ => eqc_call ne c)) with (eqc_ju_inner d ne c).
    destruct (eqc_ju_inner d ne c (abs1 U) X' U (mzero ne (d_ph d * d_nu d))) as [U' Jmv]. change (eqcb_ju_last d (fun _ => eqc_call ne c)) with (eqc_ju_last d ne c).
    destruct (eqc_ju_last d ne c (abs1 U) X' U' Jmv) as [U'' J]. reflexivity.
  Qed.
  Lemma dyn_plain f ts x0 x : seqb_evaluate junk d m (fun _ => dyn_call d f) ts x0 x = seq_evaluate junk d m f ts x0 x.
  Proof. reflexivity. Qed.
End Same.

Section Main.
  Context {F : Type} {SO : ScalarOps F} {SM : ScalarMild F}.
  Variable junk : nat -> nat -> F.
  Variable d : dims.
  Variables ni ne : nat.
  Variable dyn_eq : bool.
  Notation nx := (d_nx d). Notation nu := (d_nu d). Notation ny := (d_ny d).
  Notation ph := (d_ph d). Notation ch := (d_ch d).
  Notation reached := (nreached junk d ni ne dyn_eq).
  Notation cf := (ncfg_run d ni ne).

  Lemma len_map {A} (f : nat -> A) n : length (map f (seq 0 n)) = n.
  Proof. now rewrite map_length, seq_length. Qed.
  Lemma len_found mem n site : length (@found F mem n site) = n. Proof. apply len_map. Qed.
  Lemma len_zeros n : length (@zeros F SO n) = n. Proof. apply len_map. Qed.

  Section At.
    Variables (s : nmpc F) (u : ufun F).
    Hypothesis E1 : n_dyn s = option_map (dyn_z d) (uf_dyn u).
    Hypothesis E2 : n_out s = option_map (out_z d) (uf_out u).
    Hypothesis E3 : n_ieq s = option_map (ieq_z ni) (uf_ieq u).
    Hypothesis E4 : n_eqc s = option_map (eqc_z ne) (uf_eqc u).
    Hypothesis W : writes_all d ni ne u.
    Lemma icall_w c b og X U e : uf_ieq u = Some c -> length b = ni -> vec_l ni (icall d c og b X U e) = ieq_call d ni (ieq_z ni c) og X U e.
    Proof. intros Hc Hb. destruct W as (_ & W2 & _). destruct (W2 c Hc) as [W' _]. unfold icall. now rewrite (W' b (zeros ni) _ _ _ _ Hb (len_zeros ni)). Qed.
    Lemma ecall_w c b X U : uf_eqc u = Some c -> length b = ne -> vec_l ne (ecall c b X U) = eqc_call ne (eqc_z ne c) X U.
    Proof. intros Hc Hb. destruct W as (_ & _ & W3). destruct (W3 c Hc) as [W' _]. unfold ecall. now rewrite (W' b (zeros ne) _ _ Hb (len_zeros ne)). Qed.
    Lemma dcall_w f b x v p : uf_dyn u = Some f -> length b = nx -> vec_l nx (dcall f b x v p) = dyn_call d (dyn_z d f) x v p.
    Proof. intros Hc Hb. destruct W as (W1 & _). unfold dcall. now rewrite (W1 f Hc b (zeros nx) _ _ _ Hb (len_zeros nx)). Qed.

    Lemma eval_w mem b x0 k z : sized_bufs ni ne b ->
      fst (evalb_con junk d ni ne mem u s b x0 k z) = eval_con junk d ni ne s x0 k z /\ sized_bufs ni ne (snd (evalb_con junk d ni ne mem u s b x0 k z)).
    Proof.
      intros [B1 B2]. unfold evalb_con, eval_con. cbn zeta. destruct k.
      - rewrite E1. destruct (uf_dyn u) as [f|] eqn:Ef; cbn [option_map fst snd]; [|now split]. split; [|now split].
        rewrite (dyn_same junk d (n_map s) _ (fun _ => dyn_call d (dyn_z d f))), dyn_plain; [reflexivity|].
        intros. apply dcall_w; [exact Ef|apply len_found].
      - rewrite E3, E2. destruct (uf_ieq u) as [c|] eqn:Ec; cbn [option_map fst snd]; [|now split]. split.
        + rewrite <- (ieq_plain junk d ni (n_map s) (ieq_z ni c) (option_map (out_z d) (uf_out u)) x0 (vec_of z)). cbn zeta.
          rewrite (icall_w c (fst b)) by assumption.
          rewrite (ieq_same junk d ni (n_map s) _ (fun _ => ieq_call d ni (ieq_z ni c) (option_map (out_z d) (uf_out u)))); [reflexivity|].
          intros. apply icall_w; [exact Ec|apply len_found].
        + destruct W as (_ & W2 & _). destruct (W2 c Ec) as [_ W']. split; cbn [fst snd]; [now apply W'|exact B2].
      - rewrite E4. destruct (uf_eqc u) as [c|] eqn:Ec; cbn [option_map fst snd]; [|now split]. split.
        + rewrite <- (eqc_plain junk d ne (n_map s) (eqc_z ne c) x0 (vec_of z)). cbn zeta.
          rewrite (ecall_w c (snd b)) by assumption.
          rewrite (eqc_same junk d ne (n_map s) _ (fun _ => eqc_call ne (eqc_z ne c))); [reflexivity|].
          intros. apply ecall_w; [exact Ec|apply len_found].
        + destruct W as (_ & _ & W3). destruct (W3 c Ec) as [_ W']. split; cbn [fst snd]; [exact B1|now apply W'].
    Qed.
    Lemma visits_w x0 vs : forall b, sized_bufs ni ne b -> sized_bufs ni ne (visits junk d ni ne u s x0 b vs).
    Proof.
      induction vs as [|[[mem k] z] vs IH]; intros b Hb; [exact Hb|]. cbn [visits fold_left]. apply IH. now apply eval_w.
    Qed.
    Lemma feas_w b x0 x : sized_bufs ni ne b ->
      fst (feasb d ni ne u s b x0 x) = is_feasible d ni ne (n_map s) (n_ieq s) (n_eqc s) (n_out s) (n_itol s) (n_etol s) x0 x /\
      sized_bufs ni ne (snd (feasb d ni ne u s b x0 x)).
    Proof.
      intros [B1 B2]. unfold feasb, is_feasible. cbn zeta. rewrite E2, E3, E4. destruct W as (_ & W2 & W3).
      destruct (uf_ieq u) as [c|] eqn:Ec; cbn [option_map].
      - rewrite (icall_w c (fst b)) by assumption. destruct (W2 c eq_refl) as [_ WL]. pose proof (WL (fst b) (rows_of (unwrap_X d (n_map s) x x0))
          (rows_of (get_output d (option_map (out_z d) (uf_out u)) (unwrap_X d (n_map s) x x0) (unwrap_U d (n_map s) x))) (rows_of (unwrap_U d (n_map s) x)) (unwrap_e x) B1) as L.
        destruct (negb (any_gt _ _)) eqn:A; cbn [negb andb]; [|split; [reflexivity|split; [exact L|exact B2]]].
        destruct (uf_eqc u) as [c'|] eqn:Ec'; cbn [option_map fst snd]; [|split; [reflexivity|split; [exact L|exact B2]]].
        rewrite (ecall_w c' (snd b)) by assumption. split; [reflexivity|]. split; [exact L|]. destruct (W3 c' eq_refl) as [_ WE]. now apply WE.
      - cbn [negb andb]. destruct (uf_eqc u) as [c'|] eqn:Ec'; cbn [option_map fst snd]; [|split; [reflexivity|split; [exact B1|exact B2]]].
        rewrite (ecall_w c' (snd b)) by assumption. split; [reflexivity|]. split; [exact B1|]. destruct (W3 c' eq_refl) as [_ WE]. now apply WE.
    Qed.
  End At.

  Lemma force_at s h u : 0 < ch -> ch <= ph -> reached s h -> in_force d ni ne u (cf h) ->
    n_dyn s = option_map (dyn_z d) (uf_dyn u) /\ n_out s = option_map (out_z d) (uf_out u) /\
    n_ieq s = option_map (ieq_z ni) (uf_ieq u) /\ n_eqc s = option_map (eqc_z ne) (uf_eqc u).
  Proof.
    intros C0 C HR (I1 & I2 & I3 & I4). pose proof (nreached_NR junk d ni ne dyn_eq C0 C s h HR) as H.
    now rewrite (nr_dyn d s _ H), (nr_out d s _ H), (nr_ieq d s _ H), (nr_eqc d s _ H).
  Qed.

  (** functions that write every entry: whatever lies in memory and whatever was evaluated before, the solver receives what [eval_con] says *)
  Theorem C75_written_constraints s h u b mem x0 k z :
    0 < ch -> ch <= ph -> reached s h -> in_force d ni ne u (cf h) -> writes_all d ni ne u -> sized_bufs ni ne b ->
    fst (evalb_con junk d ni ne mem u s b x0 k z) = eval_con junk d ni ne s x0 k z /\ sized_bufs ni ne (snd (evalb_con junk d ni ne mem u s b x0 k z)).
  Proof. intros C0 C HR HI W HB. destruct (force_at s h u C0 C HR HI) as (A1 & A2 & A3 & A4). now apply eval_w. Qed.
  (** ... and optimize returns what [n_step] says *)
  Theorem C75_written_optimize s h u b x0 u0 vs a :
    0 < ch -> ch <= ph -> reached s h -> in_force d ni ne u (cf h) -> writes_all d ni ne u -> sized_bufs ni ne b ->
    match optimizeb junk d ni ne dyn_eq u s b x0 u0 vs a with
    | Ok (s', r, b') => n_step junk d ni ne dyn_eq s (NOptimize x0 u0 a) = Ok (s', RResult r) /\ sized_bufs ni ne b'
    | UB => n_step junk d ni ne dyn_eq s (NOptimize x0 u0 a) = UB
    end.
  Proof.
    intros C0 C HR HI W HB. destruct (force_at s h u C0 C HR HI) as (A1 & A2 & A3 & A4).
    pose proof (visits_w s u A1 A2 A3 A4 W x0 vs b HB) as HV. unfold optimizeb. cbn zeta. set (b1 := visits _ _ _ _ _ _ _ _ _) in *. clearbody b1.
    cbn [n_step]. destruct (n_run junk d ni ne s x0 u0 a) as [s'|] eqn:E; [|reflexivity]. destruct a as [|z code cost]; [now split|].
    destruct (feas_w s u A2 A3 A4 W b1 x0 (mvec (n_dec d) z) HV) as [FE FB].
    destruct (feasb d ni ne u s b1 x0 (mvec (n_dec d) z)) as [fl b2]. cbn [fst snd] in FE, FB. split; [|exact FB].
    unfold n_run in E. destruct (negb (mok (n_guess junk d s x0 u0))); [discriminate E|]. cbn zeta in E.
    destruct (has_eq s && (ne =? 0)); [discriminate E|].
    match type of E with (if ?b then _ else _) = _ => destruct b; [|discriminate E] end. inversion E. subst s'. clear E.
    cbn [n_res with_run with_flag r_code r_cost r_status r_cmd n_opt n_first n_slack n_seq n_map n_ts n_dyn n_out n_obj n_ieq n_itol n_eqc n_etol n_bobj n_cons n_par n_slb n_sub n_lb n_ub n_warm].
    unfold with_run, with_flag. cbn. now rewrite FE.
  Qed.

  (** *** any function: the exact values *)
  Definition entries (n : nat) (l : list F) : list F := map (fun k => nth k l s0) (seq 0 n).
  Lemma lst_vec n l : lst (vec_l n l) = entries n l. Proof. reflexivity. Qed.
  Lemma out_calls_none og X U : filter (fun c => negb (is_out c)) (out_calls (F := F) d og X U) = [].
  Proof.
    unfold out_calls. destruct og as [g|]; [|reflexivity]. generalize (ph + 1). intros n. induction n as [|n IH]; [reflexivity|].
    cbn [loop]. rewrite filter_app, IH. reflexivity.
  Qed.
  Theorem C75_constraint_values s h u b mem x0 z :
    0 < ch -> ch <= ph -> reached s h -> in_force d ni ne u (cf h) ->
    (forall c, uf_ieq u = Some c -> exists X Y U e rest,
       filter (fun c => negb (is_out c)) (eval_con_calls d true s x0 KIneq z) = UIeq X Y U e :: rest /\
       snd (evalb_con junk d ni ne mem u s b x0 KIneq z) = (c (fst b) X Y U e, snd b) /\
       forall v g, fst (evalb_con junk d ni ne mem u s b x0 KIneq z) = Ok (v, g) -> v = entries ni (c (fst b) X Y U e)) /\
    (forall c, uf_eqc u = Some c -> exists X U rest,
       filter (fun c => negb (is_out c)) (eval_con_calls d true s x0 KEq z) = UEqc X U :: rest /\
       snd (evalb_con junk d ni ne mem u s b x0 KEq z) = (fst b, c (snd b) X U) /\
       forall v g, fst (evalb_con junk d ni ne mem u s b x0 KEq z) = Ok (v, g) -> v = entries ne (c (snd b) X U)).
  Proof.
    intros C0 C HR HI. destruct (force_at s h u C0 C HR HI) as (A1 & A2 & A3 & A4). split; intros c Hc.
    - unfold evalb_con, eval_con_calls, ieq_calls. cbn zeta. rewrite Hc, A2. unfold icall.
      set (X := unwrap_X d (n_map s) (vec_of z) x0). set (U := unwrap_U d (n_map s) (vec_of z)). set (e := unwrap_e (vec_of z)).
      eexists _, _, _, _, _. unfold ieq_pt. rewrite !filter_app, out_calls_none. cbn [filter app is_out negb]. split; [reflexivity|]. cbn [fst snd]. split; [reflexivity|].
      intros v g. match goal with |- (if ?b then _ else _) = _ -> _ => destruct b; [|intros K; discriminate K] end. intros K. inversion K. apply lst_vec.
    - unfold evalb_con, eval_con_calls, eqc_calls. cbn zeta. rewrite Hc. unfold ecall.
      set (X := unwrap_X d (n_map s) (vec_of z) x0). set (U := unwrap_U d (n_map s) (vec_of z)).
      eexists _, _, _. unfold eqc_pt. cbn [filter app is_out negb]. split; [reflexivity|]. cbn [fst snd]. split; [reflexivity|].
      intros v g. match goal with |- (if ?b then _ else _) = _ -> _ => destruct b; [|intros K; discriminate K] end. intros K. inversion K. apply lst_vec.
  Qed.

  Lemma any_gt_entries n l t : any_gt (map Some (entries n l)) t = false <-> forall k, k < n -> sltb t (nth k l s0) = false.
  Proof.
    unfold any_gt, entries. rewrite map_map. split.
    - intros H k Hk. destruct (sltb t (nth k l s0)) eqn:E; [|reflexivity]. assert (K : existsb (fun v => gt_opt v t) (map (fun k => Some (nth k l s0)) (seq 0 n)) = true).
      { apply existsb_exists. exists (Some (nth k l s0)). split; [|exact E]. apply in_map_iff. exists k. split; [reflexivity|]. apply in_seq. lia. }
      rewrite K in H. discriminate H.
    - intros H. destruct (existsb _ _) eqn:E; [|reflexivity]. apply existsb_exists in E as (o & I & G). apply in_map_iff in I as (k & <- & I). apply in_seq in I.
      cbn [gt_opt] in G. rewrite H in G by lia. discriminate G.
  Qed.
  Lemma rows_block (X : mat F) r c : gm X r c -> rows_of (block X 0 0 r c) = rows_of X.
  Proof. intros (R & C & _). unfold rows_of. cbn [mrows mcols block]. rewrite R, C. reflexivity. Qed.

  (** is_feasible is judged with what the earlier evaluations left in the vectors: [b1] *)
  Lemma flag_any s h u b x0 u0 vs z code cost s' r b' :
    0 < ch -> ch <= ph -> reached s h -> in_force d ni ne u (cf h) -> gm x0 nx 1 ->
    optimizeb junk d ni ne dyn_eq u s b x0 u0 vs (NSolved z code cost) = Ok (s', r, b') ->
    let b1 := visits junk d ni ne u s x0 b vs in
    let X := rows_of (q_state (n_seq s')) in let Y := rows_of (q_output (n_seq s')) in let U := rows_of (q_input (n_seq s')) in let e := z (n_dec d - 1) in
    r_feasible r = true <->
      (forall c, uf_ieq u = Some c -> forall k, k < ni -> sltb (k_itol (cf h)) (nth k (c (fst b1) X Y U e) s0) = false) /\
      (forall c, uf_eqc u = Some c -> eq_violated (entries ne (c (snd b1) X U)) (k_etol (cf h)) = false).
  Proof.
    intros C0 C HR HI G0 E. destruct (force_at s h u C0 C HR HI) as (A1 & A2 & A3 & A4). pose proof (nreached_NR junk d ni ne dyn_eq C0 C s h HR) as H.
    unfold optimizeb in E. cbn zeta in E. set (b1 := visits _ _ _ _ _ _ _ _ _) in *. clearbody b1. cbn zeta. cbn [n_step] in E.
    destruct (n_run junk d ni ne s x0 u0 (NSolved z code cost)) as [s1|] eqn:E1; [|discriminate E].
    destruct (feasb d ni ne u s b1 x0 (mvec (n_dec d) z)) as [fl b2] eqn:EF. inversion E. subst s' r b'. clear E. cbn [with_flag r_feasible].
    replace (n_seq (with_run _ _ _ _ (n_seq s1) s1)) with (n_seq s1) by reflexivity.
    unfold n_run in E1. destruct (negb (mok (n_guess junk d s x0 u0))); [discriminate E1|]. cbn zeta in E1.
    destruct (has_eq s && (ne =? 0)); [discriminate E1|].
    match type of E1 with (if ?b then _ else _) = _ => destruct b; [|discriminate E1] end. apply (f_equal (fun o => match o with Ok t => n_seq t | UB => n_seq s end)) in E1.
    cbn [with_run n_seq] in E1. rewrite <- E1. cbn [q_state q_output q_input]. clear E1.
    assert (P : 0 < ph) by lia. assert (GZ : gm (mvec (n_dec d) z) (n_dec d) 1) by repeat split.
    pose proof (proj1 (unwrap_X_ent d (n_map s) _ _ (mvec (n_dec d) z) x0 (nr_map d s _ H) GZ G0 P C0 C)) as GX.
    pose proof (unwrap_U_gm d (n_map s) _ _ (mvec (n_dec d) z) (nr_map d s _ H) GZ P C0 C) as GU.
    assert (RX : rep (unwrap_X d (n_map s) (mvec (n_dec d) z) x0) (ph + 1) nx (ent (unwrap_X d (n_map s) (mvec (n_dec d) z) x0))) by (split; [exact GX|reflexivity]).
    assert (RU : rep (unwrap_U d (n_map s) (mvec (n_dec d) z)) (ph + 1) nu (ent (unwrap_U d (n_map s) (mvec (n_dec d) z)))) by (split; [exact GU|reflexivity]).
    pose proof (proj1 (get_output_rep d (n_out s) _ _ _ _ RX RU)) as GY.
    rewrite !rows_block by assumption. clear RX RU.
    assert (Ee : unwrap_e (mvec (n_dec d) z) = z (n_dec d - 1)) by reflexivity.
    revert EF. unfold feasb. cbn zeta. rewrite Ee, <- A2, (nr_itol d s _ H), (nr_etol d s _ H). unfold icall, ecall.
    set (X := unwrap_X d (n_map s) _ _) in *. set (U := unwrap_U d (n_map s) _) in *. clearbody X U.
    destruct (uf_ieq u) as [c|].
    - rewrite lst_vec. destruct (any_gt _ _) eqn:EA; cbn [negb].
      + intros K. inversion K. split; [discriminate|]. intros [Q _]. rewrite (proj2 (any_gt_entries ni _ _) (Q c eq_refl)) in EA. discriminate EA.
      + cbn [fst snd]. destruct (uf_eqc u) as [c'|].
        * rewrite lst_vec. intros K. inversion K. split.
          -- intros Q. apply negb_true_iff in Q. split; [|intros c1 K1; inversion K1; subst c1; exact Q]. intros c1 K1. inversion K1. subst c1. now apply any_gt_entries.
          -- intros [_ Q]. now rewrite (Q c' eq_refl).
        * intros K. inversion K. split; [intros _; split; [|intros c1 K1; discriminate K1]|reflexivity]. intros c1 K1. inversion K1. subst c1. now apply any_gt_entries.
    - cbn [negb]. destruct (uf_eqc u) as [c'|].
      + rewrite lst_vec. intros K. inversion K. split.
        * intros Q. apply negb_true_iff in Q. split; [intros c1 K1; discriminate K1|]. intros c1 K1. inversion K1. subst c1. exact Q.
        * intros [_ Q]. now rewrite (Q c' eq_refl).
      + intros K. inversion K. split; [intros _; split; intros c1 K1; discriminate K1|reflexivity].
  Qed.
  (** the output function always finds zeros: an entry it does not write is zero *)
  Theorem C75_outputs s h u b x0 u0 vs z code cost s' r b' g :
    0 < ch -> ch <= ph -> reached s h -> in_force d ni ne u (cf h) -> gm x0 nx 1 -> uf_out u = Some g ->
    optimizeb junk d ni ne dyn_eq u s b x0 u0 vs (NSolved z code cost) = Ok (s', r, b') ->
    forall i, i <= ph -> map (ent (q_output (n_seq s')) i) (seq 0 ny) =
      entries ny (g (zeros ny) (map (ent (q_state (n_seq s')) i) (seq 0 nx)) (map (ent (q_input (n_seq s')) i) (seq 0 nu)) i).
  Proof.
    intros C0 C HR HI G0 Hg E i Hi. destruct (force_at s h u C0 C HR HI) as (A1 & A2 & A3 & A4). pose proof (nreached_NR junk d ni ne dyn_eq C0 C s h HR) as H.
    unfold optimizeb in E. cbn zeta in E. cbn [n_step] in E.
    destruct (n_run junk d ni ne s x0 u0 (NSolved z code cost)) as [s1|] eqn:E1; [|discriminate E].
    destruct (feasb _ _ _ _ _ _ _ _) as [fl b2]. inversion E. subst s'. clear E. 
    replace (n_seq (with_run _ _ _ _ (n_seq s1) s1)) with (n_seq s1) by reflexivity.
    unfold n_run in E1. destruct (negb (mok (n_guess junk d s x0 u0))); [discriminate E1|]. cbn zeta in E1.
    destruct (has_eq s && (ne =? 0)); [discriminate E1|].
    match type of E1 with (if ?b then _ else _) = _ => destruct b; [|discriminate E1] end. apply (f_equal (fun o => match o with Ok t => n_seq t | UB => n_seq s end)) in E1.
    cbn [with_run n_seq] in E1. rewrite <- E1. cbn [q_state q_output q_input]. clear E1.
    assert (P : 0 < ph) by lia. assert (GZ : gm (mvec (n_dec d) z) (n_dec d) 1) by repeat split.
    pose proof (proj1 (unwrap_X_ent d (n_map s) _ _ (mvec (n_dec d) z) x0 (nr_map d s _ H) GZ G0 P C0 C)) as GX.
    pose proof (unwrap_U_gm d (n_map s) _ _ (mvec (n_dec d) z) (nr_map d s _ H) GZ P C0 C) as GU.
    assert (RX : rep (unwrap_X d (n_map s) (mvec (n_dec d) z) x0) (ph + 1) nx (ent (unwrap_X d (n_map s) (mvec (n_dec d) z) x0))) by (split; [exact GX|reflexivity]).
    assert (RU : rep (unwrap_U d (n_map s) (mvec (n_dec d) z)) (ph + 1) nu (ent (unwrap_U d (n_map s) (mvec (n_dec d) z)))) by (split; [exact GU|reflexivity]).
    destruct (get_output_rep d (n_out s) _ _ _ _ RX RU) as [_ EY].
    unfold entries. apply map_ext_in. intros k Hk. apply in_seq in Hk. cbn [block ent Nat.add]. rewrite EY by lia. rewrite A2, Hg. cbn [option_map]. reflexivity.
  Qed.
End Main.
(** the flag, over exact scalars: every inequality value is at most its tolerance, every equality value is within its tolerance *)
Section Flag.
  Context {F : Type} {SO : ScalarOps F} {SM : ScalarMild F} {SL : ScalarLaws F}.
  Variable junk : nat -> nat -> F.
  Variable d : dims.
  Variables ni ne : nat.
  Variable dyn_eq : bool.
  Notation nx := (d_nx d). Notation ph := (d_ph d). Notation ch := (d_ch d).
  Notation reached := (nreached junk d ni ne dyn_eq).
  Notation cf := (ncfg_run d ni ne).
  Theorem C75_flag s h u b x0 u0 vs z code cost s' r b' :
    0 < ch -> ch <= ph -> reached s h -> in_force d ni ne u (cf h) -> gm x0 nx 1 ->
    optimizeb junk d ni ne dyn_eq u s b x0 u0 vs (NSolved z code cost) = Ok (s', r, b') ->
    let b1 := visits junk d ni ne u s x0 b vs in
    let X := rows_of (q_state (n_seq s')) in let Y := rows_of (q_output (n_seq s')) in let U := rows_of (q_input (n_seq s')) in let e := z (n_dec d - 1) in
    r_feasible r = true <->
      (forall c, uf_ieq u = Some c -> forall k, k < ni -> (nth k (c (fst b1) X Y U e) s0 <= k_itol (cf h))%S) /\
      (forall c, uf_eqc u = Some c -> forall k, k < ne -> (sabs (nth k (c (snd b1) X U) s0) <= k_etol (cf h))%S).
  Proof.
    intros C0 C HR HI G E. cbn zeta. rewrite (flag_any junk d ni ne dyn_eq s h u b x0 u0 vs z code cost s' r b' C0 C HR HI G E). cbn zeta.
    assert (A : forall v t, sltb t v = false <-> (v <= t)%S) by (intros; apply sltb_false).
    assert (B : forall (v : list F) t, eq_violated (entries ne v) t = false <-> forall k, k < ne -> (sabs (nth k v s0) <= t)%S).
    { intros v t. destruct ne as [|n]; [split; [intros _ k Hk; lia|reflexivity]|]. rewrite eq_violated_false by discriminate. unfold entries. split.
      - intros Q k Hk. apply Q. apply in_map_iff. exists k. split; [reflexivity|apply in_seq; lia].
      - intros Q a Ia. apply in_map_iff in Ia. destruct Ia as (k & <- & Ik). apply in_seq in Ik. apply Q. lia. }
    split; intros [Q1 Q2]; (split; intros c Hc; [intros k Hk; apply A; exact (Q1 c Hc k Hk)|apply B; exact (Q2 c Hc)]).
  Qed.
End Flag.

