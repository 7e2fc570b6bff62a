(** Property C68: user functions that throw. *)
From Coq Require Import Bool Arith ZArith List Lia QArith Qcanon Ring Field.
From Verif Require Import Scalar Sums Mat Slice Builder BuilderEnt LMPC SpecLMPC NLMap NLTraj NLFun SpecNL NLLoop NLGrad NLEval NLDyn NLMPC SpecNLC SpecNLP NLRef NLRun NLCall NLObs NLShape Wit WitNL PropNL1 PropNL3 PropNL4 NLExc SpecExc.
Import ListNotations.
Local Open Scope nat_scope.

Section Lists.
  Lemma first_exc_map n f : forall i, first_exc n f i = nth 0 (flat_map (fun o => match o with Some e => [Some e] | None => [] end) (map f (seq i n))) None.
  Proof. induction n as [|n IH]; intros i; cbn; [reflexivity|]. destruct (f i); cbn; [reflexivity|apply IH]. Qed.
  (** first exception of a series *)
  Fixpoint fst_exc (l : list (option exc)) : option exc := match l with [] => None | Some e :: _ => Some e | None :: l => fst_exc l end.
  Lemma first_exc_fst n f : forall i, first_exc n f i = fst_exc (map f (seq i n)).
  Proof. induction n as [|n IH]; intros i; cbn; [reflexivity|]. destruct (f i); [reflexivity|apply IH]. Qed.
  Lemma fst_exc_app l l' : fst_exc (l ++ l') = match fst_exc l with Some e => Some e | None => fst_exc l' end.
  Proof. induction l as [|[e|] l IH]; cbn; auto. Qed.
  Lemma raises_fst l e : raises l e <-> fst_exc l = Some e.
  Proof.
    split.
    - intros (l1 & l2 & -> & Q). induction Q as [|o l1 -> Q IH]; cbn; auto.
    - induction l as [|[e'|] l IH]; cbn; intros E; [discriminate E| |].
      + inversion E; subst. exists [], l. auto.
      + destruct (IH E) as (l1 & l2 & -> & Q). exists (None :: l1), l2. split; [reflexivity|]. now constructor.
  Qed.
  Lemma quiet_fst l : quiet l <-> fst_exc l = None.
  Proof.
    split; [induction 1 as [|o l -> Q IH]; cbn; auto|]. induction l as [|[e|] l IH]; cbn; intros E; [constructor|discriminate E|]. constructor; [reflexivity|]. exact (IH E).
  Qed.
End Lists.

(** results handed to the statistics: those optimize returned *)
Definition returned {F} (h : list (xop F * ret F)) : list (lresult F) :=
  flat_map (fun e => match fst (fst e), snd e with NOptimize _ _ _, RResult r => [r] | _, _ => [] end) h.
(** calls other than optimize *)
Definition is_setter {F} (op : xop F) : bool := match fst op with NOptimize _ _ _ => false | _ => true end.

Section Stmts.
  Context {F : Type} {SO : ScalarOps F} {SM : ScalarMild F} {SL : ScalarLaws F}.
  Add Field SFexc : (@s_field F SO SL).
  Variables (junk : nat -> nat -> F) (d : dims) (ni ne : nat) (dyn_eq : bool).
  Notation nx := (d_nx d). Notation nu := (d_nu d). Notation ny := (d_ny d).
  Notation ph := (d_ph d). Notation ch := (d_ch d). Notation N := (n_dec d).
  Notation reached := (xreached junk d ni ne dyn_eq). Notation cf h := (ncfg_run d ni ne (plain h)).
  Notation step := (x_step junk d ni ne dyn_eq). Notation call := (n_call junk d ni ne).
  Implicit Types (h : list (xop F * ret F)).
  Hypothesis C0 : 0 < ch.
  Hypothesis C : ch <= ph.
  Lemma P : 0 < ph. Proof using C0 C. lia. Qed.

  (** *** the model's exceptions are those of the specification *)
  Section Point.
    Variables (s : nmpc F) (c : ncfg F) (t : throws F) (x0 : mat F) (z : nat -> F).
    Hypothesis H : NR d s c.
    Hypothesis G0 : gm x0 nx 1.
    Hypothesis Sc : scaled d c.
    Let opt := mvec N z.
    Let X := unwrap_X d (n_map s) opt x0.
    Let U := unwrap_U d (n_map s) opt.
    Let TX : rep X (ph + 1) nx (x_traj d c x0 z).
    Proof.
      assert (GO : gm opt N 1) by (repeat split). assert (EZ : forall k, k < N -> ent opt k 0 = z k) by reflexivity.
      exact (traj_X d (n_map s) _ _ (nr_map d s c H) P C0 C opt x0 z (fun j => (k_sx c j * vec x0 j)%S) GO G0 EZ Sc (fun _ _ => eq_refl)).
    Qed.
    Let TU : rep U (ph + 1) nu (u_traj d c z).
    Proof.
      assert (GO : gm opt N 1) by (repeat split). assert (EZ : forall k, k < N -> ent opt k 0 = z k) by reflexivity.
      exact (traj_U d (n_map s) _ _ (nr_map d s c H) P C0 C opt z GO EZ).
    Qed.
    Let Te : unwrap_e opt = z (v_slack d).
    Proof.
      assert (GO : gm opt N 1) by (repeat split). assert (EZ : forall k, k < N -> ent opt k 0 = z k) by reflexivity.
      exact (traj_e d P C0 C opt z GO EZ).
    Qed.
    Lemma out_exc_is : out_exc d t (n_out s) X U = fst_exc (output_calls d c t x0 z).
    Proof.
      unfold out_exc, output_calls. rewrite (nr_out d s c H). destruct (k_out c); [|reflexivity]. rewrite first_exc_fst. f_equal. apply map_ext_in. intros i Hi. apply in_seq in Hi.
      destruct (rep_trow X _ _ _ i TX ltac:(lia)) as [_ ->]. destruct (rep_trow U _ _ _ i TU ltac:(lia)) as [_ ->]. reflexivity.
    Qed.
    Lemma ineq_any f : k_ieq c = Some f -> any_gt (map Some (lst (ieq_call d ni f (n_out s) X U (z (v_slack d))))) (k_itol c) = false <-> ineq_met d ni c x0 z.
    Proof.
      intros Ef. rewrite any_gt_false. rewrite (nr_out d s c H).
      assert (EV : forall k, ent (ieq_call d ni f (k_out c) X U (z (v_slack d))) k 0 = ieq_of d c x0 f k z) by (intros k; apply (ieq_call_at d ni f (k_out c) _ _ _ _ _ k TX TU)).
      unfold ineq_met. split.
      - intros A f' E k Hk. rewrite Ef in E. inversion E; subst f'. rewrite <- EV. apply A. eapply (in_lst _ _ ni); [reflexivity|eauto].
      - intros A a I. eapply (in_lst _ _ ni) in I as (k & Hk & ->); [|reflexivity]. rewrite EV. eauto.
    Qed.
    Lemma feas_exc_is l : judge_calls d ni c t x0 z l -> feas_exc d ni t s x0 opt = fst_exc l.
    Proof.
      intros J. unfold feas_exc. fold X U. rewrite Te, (nr_ieq d s c H), (nr_eqc d s c H), (nr_itol d s c H).
      pose proof (get_output_rep d (n_out s) _ _ _ _ TX TU) as TY. rewrite (nr_out d s c H) in TY at 2. change (out_traj d (k_out c) _ _) with (y_traj d c x0 z) in TY.
      rewrite out_exc_is, (rep_rows _ _ _ _ TX), (rep_rows _ _ _ _ TU), (rep_rows _ _ _ _ TY). fold (states d c x0 z) (inputs d c z) (outputs d c x0 z).
      change (t_ieq t _ _ _ _) with (ieq_call_exc d c t x0 z). change (t_eqc t _ _) with (eqc_call_exc d c t x0 z).
      destruct J as [E1 E2|f E1 E2|f E1 E2|f g E1 E2 M]; rewrite ?fst_exc_app; cbn [fst_exc].
      - now rewrite E1, E2.
      - rewrite E1, E2. now destruct (eqc_call_exc _ _ _ _ _).
      - rewrite E1. destruct (fst_exc (output_calls _ _ _ _ _)); [reflexivity|]. destruct (ieq_call_exc _ _ _ _ _); [reflexivity|].
        destruct (any_gt _ _) eqn:A; [reflexivity|]. destruct E2 as [-> | E2]; [reflexivity|]. apply (ineq_any f E1) in A. contradiction.
      - rewrite E1, E2. destruct (fst_exc (output_calls _ _ _ _ _)); [reflexivity|]. destruct (ieq_call_exc _ _ _ _ _); [reflexivity|].
        rewrite (proj2 (ineq_any f E1) M). now destruct (eqc_call_exc _ _ _ _ _).
    Qed.
    Lemma judge_exists : exists l, judge_calls d ni c t x0 z l.
    Proof.
      destruct (k_ieq c) as [f|] eqn:E1; destruct (k_eqc c) as [g|] eqn:E2.
      - destruct (any_gt (map Some (lst (ieq_call d ni f (n_out s) X U (z (v_slack d))))) (k_itol c)) eqn:A.
        + exists (output_calls d c t x0 z ++ [ieq_call_exc d c t x0 z]). apply (judge_ineq d ni c t x0 z f E1). right. intros M. apply (ineq_any f E1) in M. congruence.
        + exists (output_calls d c t x0 z ++ [ieq_call_exc d c t x0 z; eqc_call_exc d c t x0 z]). apply (judge_both d ni c t x0 z f g E1 E2). now apply (ineq_any f E1).
      - eexists. exact (judge_ineq d ni c t x0 z f E1 (or_introl E2)).
      - eexists. exact (judge_eq d ni c t x0 z g E1 E2).
      - eexists. exact (judge_nothing d ni c t x0 z E1 E2).
    Qed.
    (** shapes *)
    Lemma mok_XU : mok X && mok U = true.
    Proof. destruct TX as [(_ & _ & ->) _]. destruct TU as [(_ & _ & ->) _]. reflexivity. Qed.
    Lemma blk_X : rep (block X 0 0 (ph + 1) nx) (ph + 1) nx (x_traj d c x0 z).
    Proof. destruct TX as [G E]. split; [now apply block_all|]. intros i j Hi Hj. cbn [block ent Nat.add]. auto. Qed.
    Lemma blk_U : rep (block U 0 0 (ph + 1) nu) (ph + 1) nu (u_traj d c z).
    Proof. destruct TU as [G E]. split; [now apply block_all|]. intros i j Hi Hj. cbn [block ent Nat.add]. auto. Qed.
  End Point.

  (** the state after a call whose evaluations threw refines the configuration with another memory *)
  Lemma NR_mem s c opt f sl r q v : NR d s c -> gm opt N 1 -> (forall k, k < ph * nx + nu * ch -> ent opt k 0 = v k) -> gm (r_cmd r) nu 1 ->
    gm (q_state q) (ph + 1) nx -> gm (q_output q) (ph + 1) ny -> gm (q_input q) (ph + 1) nu ->
    NR d (with_run opt f sl r q s) (kset_mem c f v sl).
  Proof. intros [] GO EO GR G1 G2 G3. split; cbn -[n_dec]; solve [assumption | reflexivity]. Qed.
  Lemma setter_mem c f v sl op r : is_setter (op, never (F := F)) = true -> ncfg_step d ni ne (kset_mem c f v sl) (op, r) = kset_mem (ncfg_step d ni ne c (op, r)) f v sl.
  Proof.
    intros E. destruct op; try discriminate E; try reflexivity.
    - now destruct p.
    - cbn. now destruct acc.
    - cbn. now destruct acc.
    - cbn. now destruct acc.
    - cbn. destruct r as [[]| | |]; reflexivity.
    - cbn. destruct r as [[]| | |]; reflexivity.
  Qed.
  Lemma opt_mem (c : ncfg F) x0 u0 a r : exists f v sl, ncfg_step d ni ne c (NOptimize x0 u0 a, r) = kset_mem c f v sl.
  Proof. destruct a; cbn; eauto. Qed.
  Lemma mem_mem (c : ncfg F) f v sl f' v' sl' : kset_mem (kset_mem c f v sl) f' v' sl' = kset_mem c f' v' sl'.
  Proof. reflexivity. Qed.
  Lemma mem_id (c : ncfg F) : kset_mem c (k_first c) (k_vec c) (k_slack c) = c.
  Proof. now destruct c. Qed.

  (** result of a call in all cases, for any state refining a configuration *)
  Lemma gm_zero_like r c (M : mat F) : gm M r c -> mzero (mrows M) (mcols M) = mzero r c.
  Proof. intros (-> & -> & _). reflexivity. Qed.
  Lemma mok_XU' s c x0 z : NR d s c -> gm x0 nx 1 -> mok (unwrap_X d (n_map s) (mvec N z) x0) && mok (unwrap_U d (n_map s) (mvec N z)) = true.
  Proof.
    intros H GX. assert (GO : gm (mvec N z) N 1) by (repeat split). pose proof (nr_map d s c H) as HM.
    destruct (unwrap_X_ent d (n_map s) _ _ (mvec N z) x0 HM GO GX P C0 C) as [(_ & _ & ->) _]. destruct (unwrap_U_gm d (n_map s) _ _ (mvec N z) HM GO P C0 C) as (_ & _ & ->). reflexivity.
  Qed.
  Lemma x_run_cases t s c x0 u0 z code cost : NR d s c -> gm x0 nx 1 -> (has_eq s = true -> 0 < ne) ->
    let opt := mvec N z in let X := unwrap_X d (n_map s) opt x0 in let U := unwrap_U d (n_map s) opt in let q := n_seq s in
    x_run junk d ni ne t s x0 u0 z code cost =
    match feas_exc d ni t s x0 opt with
    | Some EStd => Ok (with_run opt false (n_slack s) (mkRes (-1) false PInf ERROR (r_cmd (n_res s))) (mkSeq (mzero (ph + 1) nx) (mzero (ph + 1) ny) (mzero (ph + 1) nu)) s, false)
    | Some EOther => Ok (with_run opt false (n_slack s) (n_res s) q s, true)
    | None => match out_exc d t (n_out s) X U with
              | Some _ => Ok (with_run opt false (unwrap_e opt) (n_res s) (mkSeq (block X 0 0 (ph + 1) nx) (q_output q) (block U 0 0 (ph + 1) nu)) s, true)
              | None => match n_run junk d ni ne s x0 u0 (NSolved z code cost) with UB => UB | Ok s' => Ok (s', false) end
              end
    end.
  Proof.
    intros H GX He opt X U q. unfold x_run. destruct (guess_gm junk d C0 C s c x0 u0 H) as (_ & _ & ->). cbn [negb].
    assert (has_eq s && (ne =? 0) = false) as ->. { destruct (has_eq s) eqn:E; [|reflexivity]. cbn. apply Nat.eqb_neq. specialize (He eq_refl). lia. }
    rewrite (mok_XU' s c x0 z H GX). cbn [negb]. fold opt X U q. unfold q.
    now rewrite (gm_zero_like _ _ _ (nr_qx d s c H)), (gm_zero_like _ _ _ (nr_qy d s c H)), (gm_zero_like _ _ _ (nr_qu d s c H)).
  Qed.
  Lemma x_run_ne t s x0 u0 z code cost o : x_run junk d ni ne t s x0 u0 z code cost = Ok o -> has_eq s = true -> 0 < ne.
  Proof. unfold x_run. destruct (negb _); [discriminate|]. intros R E. rewrite E in R. cbn [andb] in R. destruct (Nat.eqb_spec ne 0); [discriminate R|lia]. Qed.
  Lemma NR_x_run t s c x0 u0 z code cost s' b : NR d s c -> gm x0 nx 1 -> x_run junk d ni ne t s x0 u0 z code cost = Ok (s', b) ->
    exists sl, NR d s' (kset_mem c false z sl) /\
      ((b = true /\ n_res s' = n_res s) \/ b = false).
  Proof.
    intros H GX R. pose proof (x_run_ne _ _ _ _ _ _ _ _ R) as He. rewrite (x_run_cases t s c x0 u0 z code cost H GX He) in R. cbn zeta in R.
    assert (GO : gm (mvec N z) N 1) by (repeat split). pose proof (nr_map d s c H) as HM.
    destruct (unwrap_X_ent d (n_map s) _ _ (mvec N z) x0 HM GO GX P C0 C) as [G1 _]. pose proof (unwrap_U_gm d (n_map s) _ _ (mvec N z) HM GO P C0 C) as G2.
    destruct (feas_exc _ _ _ _ _ _) as [[|]|].
    - inversion R; subst; clear R. eexists. split; [|now right]. apply NR_mem with (v := z); try assumption; try (repeat split; fail); try reflexivity. apply H.
    - inversion R; subst; clear R. eexists. split; [|now left]. apply NR_mem with (v := z); try assumption; try (repeat split; fail); try reflexivity; apply H.
    - destruct (out_exc _ _ _ _ _).
      + inversion R; subst; clear R. eexists. split; [|now left]. apply NR_mem with (v := z); try assumption; try (repeat split; fail); try reflexivity; try apply H; cbn [q_state q_input]; now apply block_all.
      + destruct (n_run _ _ _ _ _ _ _ _) as [s1|] eqn:E; [|discriminate R]. inversion R; subst; clear R. eexists. split; [|now right].
        exact (NR_run junk d ni ne C0 C s c x0 u0 _ s' H GX E).
  Qed.

  (** invariant of histories *)
  Lemma throws_app h op r : throws_in (h ++ [(op, r)]) = set_throws op (throws_in h).
  Proof. unfold throws_in, set_throws. rewrite !fold_left_app. cbn [fold_left fst snd]. now destruct (fst op). Qed.
  Lemma plain_app h op r : plain (h ++ [(op, r)]) = plain h ++ [(fst op, r)].
  Proof. unfold plain. now rewrite map_app. Qed.
  Lemma returned_app h e : returned (h ++ [e]) = returned h ++ match fst (fst e), snd e with NOptimize _ _ _, RResult r => [r] | _, _ => [] end.
  Proof. unfold returned. rewrite flat_map_app. cbn [flat_map]. now rewrite app_nil_r. Qed.
  Lemma cf_app h op r : cf (h ++ [(op, r)]) = ncfg_step d ni ne (cf h) (fst op, r).
  Proof. unfold ncfg_run. now rewrite plain_app, fold_left_app. Qed.
  Definition inv (x : xmpc F) h : Prop :=
    (exists f v sl, NR d (x_n x) (kset_mem (cf h) f v sl)) /\ x_t x = throws_in h /\ x_rec x = returned h /\ r_cmd (n_res (x_n x)) = last_cmd nu (plain h).
  Lemma setter_res s op s' r : is_setter (op, never (F := F)) = true -> n_step junk d ni ne dyn_eq s op = Ok (s', r) ->
    n_res s' = n_res s /\ match r with RResult _ => False | _ => True end.
  Proof.
    intros Hs E. pose proof (PropNL3.res_step junk d ni ne dyn_eq s op s' r E) as R. destruct r; try (destruct R as [-> _]; split; [reflexivity|exact I]).
    exfalso. destruct op; try discriminate Hs; cbn in E; try discriminate E; unfold n_slice, bool_of in E;
      repeat match type of E with context [match ?a with _ => _ end] => destruct a end; try discriminate E; inversion E.
  Qed.
  Lemma inv_step x h op x' r : inv x h -> nop_sized d (fst op) -> step x op = Ok (x', r) -> inv x' (h ++ [(op, r)]).
  Proof.
    intros ((f & v & sl & H) & Ht & Hr & Hc) Z E. unfold inv. rewrite throws_app, returned_app, cf_app, plain_app. unfold last_cmd. rewrite fold_left_app. cbn [fold_left snd]. fold (last_cmd nu (plain h)).
    destruct (is_setter op) eqn:Hs.
    - assert (E' : exists s', n_step junk d ni ne dyn_eq (x_n x) (fst op) = Ok (s', r) /\ x' = mkX s' (set_throws op (x_t x)) (x_rec x)).
      { unfold x_step in E. unfold is_setter in Hs. destruct (fst op); try discriminate Hs; (destruct (n_step _ _ _ _ _ _ _) as [[s' r']|]; [|discriminate E]); inversion E; subst; eauto. }
      destruct E' as (s' & E1 & ->). cbn [x_n x_t x_rec]. destruct op as [op t]. cbn [fst snd] in *. change (is_setter (op, never (F := F)) = true) in Hs.
      destruct (setter_res (x_n x) op s' r Hs E1) as [R1 R2].
      pose proof (NR_step junk d ni ne dyn_eq C0 C (x_n x) _ op s' r H Z E1) as H'. rewrite (setter_mem _ _ _ _ _ _ Hs) in H'.
      refine (conj _ (conj _ (conj _ _))).
      + eauto.
      + now rewrite Ht.
      + rewrite Hr. destruct op; try discriminate Hs; now rewrite app_nil_r.
      + rewrite R1, Hc. destruct r; [reflexivity|reflexivity|reflexivity|contradiction].
    - destruct op as [op t]. cbn [fst snd] in *. destruct op; try discriminate Hs. cbn [nop_sized] in Z. destruct Z as [Z1 Z2].
      cbn [set_throws fst snd]. destruct (opt_mem (cf h) x0 u0 a r) as (f1 & v1 & sl1 & ->).
      unfold x_step in E. cbn [fst] in E. destruct a as [|z code cost].
      + destruct (n_run _ _ _ _ _ _ _ _) as [s'|] eqn:E1; [|discriminate E]. inversion E; subst; clear E. cbn [x_n x_t x_rec].
        pose proof (NR_run junk d ni ne C0 C (x_n x) _ x0 u0 _ s' H Z1 E1) as H'. cbn [ncfg_apply] in H'. rewrite mem_mem in H'.
        refine (conj _ (conj Ht (conj _ _))); [exists (k_first (kset_mem (cf h) f v sl)); do 2 eexists; rewrite mem_mem; exact H'|now rewrite Hr|reflexivity].
      + destruct (x_run _ _ _ _ _ _ _ _ _ _ _) as [[s' b]|] eqn:E1; [|discriminate E].
        destruct (NR_x_run _ _ _ _ _ _ _ _ _ _ H Z1 E1) as (sl' & H' & B). rewrite mem_mem in H'.
        destruct b; inversion E; subst; clear E; cbn [x_n x_t x_rec].
        * destruct B as [[_ B]|B]; [|discriminate B]. refine (conj _ (conj Ht (conj _ _))); [do 3 eexists; rewrite mem_mem; exact H'|now rewrite app_nil_r|now rewrite B].
        * refine (conj _ (conj Ht (conj _ _))); [do 3 eexists; rewrite mem_mem; exact H'|now rewrite Hr|reflexivity].
  Qed.
  Lemma inv_play ops : forall x h0 x' h, inv x h0 -> Forall (fun op => nop_sized d (fst op)) ops -> x_play junk d ni ne dyn_eq x ops = Ok (x', h) -> inv x' (h0 ++ h).
  Proof.
    induction ops as [|op ops IH]; intros x h0 x' h I Z E; cbn [x_play] in E.
    - inversion E; subst. now rewrite app_nil_r.
    - inversion Z as [|? ? Z1 Z2]; subst. destruct (step x op) as [[x1 r]|] eqn:E1; [|discriminate E]. destruct (x_play _ _ _ _ _ x1 ops) as [[x2 h2]|] eqn:E2; [|discriminate E].
      inversion E; subst. pose proof (IH x1 _ x' h2 (inv_step x h0 op x1 r I Z1 E1) Z2 E2) as K. rewrite <- app_assoc in K. exact K.
  Qed.
  Lemma inv_init : inv (mkX (n_init d) never []) [].
  Proof.
    refine (conj _ (conj eq_refl (conj eq_refl eq_refl))). exists (k_first (ncfg0 : ncfg F)), (k_vec (ncfg0 : ncfg F)), (k_slack (ncfg0 : ncfg F)). cbn [x_n plain map]. unfold ncfg_run. cbn [fold_left]. rewrite mem_id. exact (NR_init d C0 C).
  Qed.
  Lemma inv_reached x h : reached x h -> inv x h.
  Proof. intros (ops & Z & E). unfold x_life in E. rewrite (new_ok d C0 C) in E. exact (inv_play ops _ [] x h inv_init Z E). Qed.
  Lemma judge_mem c t x0 z l f v sl : judge_calls d ni c t x0 z l -> judge_calls d ni (kset_mem c f v sl) t x0 z l.
  Proof.
    intros [E1 E2|g E1 E2|g E1 E2|g g' E1 E2 M].
    - exact (judge_nothing d ni (kset_mem c f v sl) t x0 z E1 E2).
    - exact (judge_eq d ni (kset_mem c f v sl) t x0 z g E1 E2).
    - exact (judge_ineq d ni (kset_mem c f v sl) t x0 z g E1 E2).
    - exact (judge_both d ni (kset_mem c f v sl) t x0 z g g' E1 E2 M).
  Qed.
  (** every point is judged by some series of calls, so the cases below are exhaustive *)
  Theorem C68_judging_defined x h x0 z : reached x h -> gm x0 nx 1 -> scaled d (cf h) -> exists l, judge_calls d ni (cf h) (throws_in h) x0 z l.
  Proof.
    intros Hr G Sc. destruct (inv_reached x h Hr) as ((f & v & sl & H) & _).
    destruct (judge_exists (x_n x) _ (throws_in h) x0 z H G Sc) as [l J]. exists l. pose proof (judge_mem _ _ _ _ _ (k_first (cf h)) (k_vec (cf h)) (k_slack (cf h)) J) as J'. rewrite mem_mem, mem_id in J'. exact J'.
  Qed.

  (** the four cases *)
  Lemma one_call x h x0 u0 z code cost t l : reached x h -> gm x0 nx 1 -> scaled d (cf h) -> (k_eqc (cf h) <> None -> 0 < ne) -> judge_calls d ni (cf h) (throws_in h) x0 z l ->
    exists f v sl, NR d (x_n x) (kset_mem (cf h) f v sl) /\
    let s := x_n x in let opt := mvec N z in let X := unwrap_X d (n_map s) opt x0 in let U := unwrap_U d (n_map s) opt in let q := n_seq s in
    step x (NOptimize x0 u0 (NSolved z code cost), t) =
    match fst_exc l with
    | Some EStd => let r := mkRes (-1) false PInf ERROR (r_cmd (n_res s)) in
        Ok (mkX (with_run opt false (n_slack s) r (mkSeq (mzero (ph + 1) nx) (mzero (ph + 1) ny) (mzero (ph + 1) nu)) s) (x_t x) (x_rec x ++ [r]), RResult r)
    | Some EOther => Ok (mkX (with_run opt false (n_slack s) (n_res s) q s) (x_t x) (x_rec x), RThrow)
    | None => match fst_exc (output_calls d (cf h) (throws_in h) x0 z) with
              | Some _ => Ok (mkX (with_run opt false (unwrap_e opt) (n_res s) (mkSeq (block X 0 0 (ph + 1) nx) (q_output q) (block U 0 0 (ph + 1) nu)) s) (x_t x) (x_rec x), RThrow)
              | None => match n_step junk d ni ne dyn_eq s (NOptimize x0 u0 (NSolved z code cost)) with UB => UB | Ok (s', r) => Ok (mkX s' (x_t x) (x_rec x ++ [n_res s']), r) end
              end
    end.
  Proof.
    intros Hr G Sc He J. destruct (inv_reached x h Hr) as ((f & v & sl & H) & Ht & _). exists f, v, sl. split; [exact H|]. cbn zeta.
    assert (He' : has_eq (x_n x) = true -> 0 < ne). { unfold has_eq. rewrite (nr_eqc d _ _ H). cbn [k_eqc kset_mem]. intros K. apply He. destruct (k_eqc (cf h)); [congruence|discriminate K]. }
    unfold x_step. cbn [fst]. rewrite (x_run_cases (x_t x) (x_n x) _ x0 u0 z code cost H G He'). cbn zeta. rewrite Ht.
    rewrite (feas_exc_is (x_n x) _ (throws_in h) x0 z H G Sc l (judge_mem _ _ _ _ _ f v sl J)).
    rewrite (out_exc_is (x_n x) _ (throws_in h) x0 z H G Sc). change (output_calls d (kset_mem (cf h) f v sl)) with (output_calls d (cf h)).
    destruct (fst_exc l) as [[|]|]; [reflexivity|reflexivity|]. destruct (fst_exc (output_calls _ _ _ _ _)); [reflexivity|].
    cbn [n_step]. destruct (n_run _ _ _ _ _ _ _ _); reflexivity.
  Qed.

  (** a std::exception while the point is judged: reported like a failure of the solver *)
  Theorem C68_exception_while_judging x h x0 u0 z code cost t l :
    reached x h -> gm x0 nx 1 -> scaled d (cf h) -> (k_eqc (cf h) <> None -> 0 < ne) ->
    judge_calls d ni (cf h) (throws_in h) x0 z l -> raises l EStd ->
    exists x' res, step x (NOptimize x0 u0 (NSolved z code cost), t) = Ok (x', RResult res) /\
      res = mkRes (-1) false PInf ERROR (last_cmd nu (plain h)) /\ n_res (x_n x') = res /\ x_rec x' = returned h ++ [res] /\
      n_seq (x_n x') = mkSeq (mzero (ph + 1) nx) (mzero (ph + 1) ny) (mzero (ph + 1) nu).
  Proof.
    intros Hr G Sc He J R. destruct (one_call x h x0 u0 z code cost t l Hr G Sc He J) as (f & v & sl & H & E). apply raises_fst in R. rewrite R in E. cbn zeta in E.
    destruct (inv_reached x h Hr) as (_ & _ & HR & HC). rewrite HC, HR in E. do 2 eexists. refine (conj E (conj eq_refl (conj eq_refl (conj eq_refl eq_refl)))).
  Qed.
  (** anything else thrown while the point is judged leaves optimize; what can be read back is what it was *)
  Theorem C68_foreign_exception_while_judging x h x0 u0 z code cost t l :
    reached x h -> gm x0 nx 1 -> scaled d (cf h) -> (k_eqc (cf h) <> None -> 0 < ne) ->
    judge_calls d ni (cf h) (throws_in h) x0 z l -> raises l EOther ->
    exists x', step x (NOptimize x0 u0 (NSolved z code cost), t) = Ok (x', RThrow) /\
      n_res (x_n x') = n_res (x_n x) /\ n_seq (x_n x') = n_seq (x_n x) /\ x_rec x' = returned h.
  Proof.
    intros Hr G Sc He J R. destruct (one_call x h x0 u0 z code cost t l Hr G Sc He J) as (f & v & sl & H & E). apply raises_fst in R. rewrite R in E. cbn zeta in E.
    destruct (inv_reached x h Hr) as (_ & _ & HR & _). eexists. refine (conj E (conj eq_refl (conj eq_refl HR))).
  Qed.
  (** anything thrown by the output function when the sequences are filled leaves optimize: the result is the old one, the sequences are
      the new states and inputs with the old outputs *)
  Theorem C68_exception_while_filling_sequences x h x0 u0 z code cost t l e :
    reached x h -> gm x0 nx 1 -> scaled d (cf h) -> (k_eqc (cf h) <> None -> 0 < ne) ->
    judge_calls d ni (cf h) (throws_in h) x0 z l -> quiet l -> raises (output_calls d (cf h) (throws_in h) x0 z) e ->
    exists x', step x (NOptimize x0 u0 (NSolved z code cost), t) = Ok (x', RThrow) /\
      n_res (x_n x') = n_res (x_n x) /\ x_rec x' = returned h /\
      rep (q_state (n_seq (x_n x'))) (ph + 1) nx (x_traj d (cf h) x0 z) /\
      rep (q_input (n_seq (x_n x'))) (ph + 1) nu (u_traj d (cf h) z) /\
      q_output (n_seq (x_n x')) = q_output (n_seq (x_n x)).
  Proof.
    intros Hr G Sc He J Q R. destruct (one_call x h x0 u0 z code cost t l Hr G Sc He J) as (f & v & sl & H & E). apply quiet_fst in Q. apply raises_fst in R. rewrite Q, R in E. cbn zeta in E.
    destruct (inv_reached x h Hr) as (_ & _ & HR & _). eexists. refine (conj E (conj eq_refl (conj HR (conj _ (conj _ eq_refl))))).
    - exact (blk_X (x_n x) _ x0 z H G Sc).
    - exact (blk_U (x_n x) _ z H).
  Qed.
  (** no exception: the call behaves as in the other properties *)
  Theorem C68_no_exception x h x0 u0 z code cost t l :
    reached x h -> gm x0 nx 1 -> scaled d (cf h) -> (k_eqc (cf h) <> None -> 0 < ne) ->
    judge_calls d ni (cf h) (throws_in h) x0 z l -> quiet l -> quiet (output_calls d (cf h) (throws_in h) x0 z) ->
    exists x' res, n_step junk d ni ne dyn_eq (x_n x) (NOptimize x0 u0 (NSolved z code cost)) = Ok (x_n x', RResult res) /\
      step x (NOptimize x0 u0 (NSolved z code cost), t) = Ok (x', RResult res) /\ x_rec x' = returned h ++ [res].
  Proof.
    intros Hr G Sc He J Q R. destruct (one_call x h x0 u0 z code cost t l Hr G Sc He J) as (f & v & sl & H & E). apply quiet_fst in Q. apply quiet_fst in R. rewrite Q, R in E.
    destruct (inv_reached x h Hr) as (_ & _ & HR & _).
    assert (He' : has_eq (x_n x) = true -> 0 < ne). { unfold has_eq. rewrite (nr_eqc d _ _ H). cbn [k_eqc kset_mem]. intros K. apply He. destruct (k_eqc (cf h)); [congruence|discriminate K]. }
    cbn [n_step] in *. rewrite (run_solved junk d ni ne C0 C (x_n x) _ x0 u0 z code cost H G He') in *. cbn zeta in *. do 2 eexists. refine (conj _ (conj E _)); [reflexivity|]. cbn [x_rec]. now rewrite HR.
  Qed.
  (** whatever was thrown, the next warm start shifts the point the failed call obtained from the solver *)
  Theorem C68_failed_point_is_retained x h x0 u0 z code cost t x' r :
    reached x h -> gm x0 nx 1 -> step x (NOptimize x0 u0 (NSolved z code cost), t) = Ok (x', r) ->
    (forall j, j < nu -> k_su (cf h) j <> s0) -> k_warm (cf h) = true ->
    forall x1 u1, let g := nc_guess (call (x_n x') x1 u1) in
      (forall i j, i < ph -> j < nx -> dvar g (i * nx + j) = z (Nat.min (i + 1) (ph - 1) * nx + j)) /\
      (forall b j, b < ch -> j < nu -> dvar g (ph * nx + (b * nu + j)) = z (ph * nx + (Nat.min (b + 1) (ch - 1) * nu + j))).
  Proof.
    intros Hr G E Su Hw x1 u1. destruct (inv_reached x h Hr) as ((f & v & sl & H) & _). unfold x_step in E. cbn [fst] in E.
    destruct (x_run _ _ _ _ _ _ _ _ _ _ _) as [[s' b]|] eqn:E1; [|discriminate E].
    assert (x_n x' = s') as -> by (destruct b; inversion E; reflexivity). destruct (NR_x_run _ _ _ _ _ _ _ _ _ _ H G E1) as (sl' & H' & _). rewrite mem_mem in H'.
    destruct (guess_rep junk d C0 C s' _ x1 u1 H') as ((R & K & O) & A1 & A2 & _). cbn [nc_guess n_call]. cbn zeta. unfold dvar.
    assert (B : base_vec d (kset_mem (cf h) false z sl') (vec x1) (vec u1) = z) by (unfold base_vec; cbn; now rewrite Hw). rewrite B in A1, A2. split.
    - intros i j Hi Hj. specialize (A1 i j Hi Hj). unfold v_state in A1. replace (S i - 1) with i in A1 by lia. rewrite lst_nth; [rewrite A1; do 3 f_equal; lia|].
      rewrite R. pose proof (blk_lt i ph nx j Hi Hj). unfold n_dec. lia.
    - intros i j Hi Hj. specialize (A2 i j Hi Hj). unfold v_input in A2. rewrite lst_nth.
      + rewrite A2. unfold held. replace (S i) with (i + 1) by lia. cbn [k_su kset_mem]. field. auto.
      + rewrite R. pose proof (blk_lt i ch nu j Hi Hj). unfold n_dec. lia.
  Qed.
  (** the statistics count exactly the calls that returned *)
  Theorem C68_recorded x h : reached x h -> x_rec x = returned h.
  Proof. intros Hr. now destruct (inv_reached x h Hr) as (_ & _ & HR & _). Qed.
End Stmts.

(** *** Exceptions leave no trace in the problem, and none at all after the next success *)
Section Forget.
  Context {F : Type} {SO : ScalarOps F}.
  Variables (junk : nat -> nat -> F) (d : dims) (ni ne : nat) (dyn_eq : bool).
  Notation step := (x_step junk d ni ne dyn_eq). Notation call := (n_call junk d ni ne).
  (** the controller without what optimizations write *)
  Definition strip (s : nmpc F) : nmpc F := with_run (mzero 0 0) true s0 (mkRes 0 false (Fin s0) UNKNOWN (mzero 0 0)) (mkSeq (mzero 0 0) (mzero 0 0) (mzero 0 0)) s.
  Definition omap {A B} (f : A -> B) (o : outcome A) : outcome B := match o with UB => UB | Ok a => Ok (f a) end.
  Lemma strip_bounds off w H lo hi sl s : n_bounds off w H lo hi sl (strip s) = omap strip (n_bounds off w H lo hi sl s).
  Proof. unfold n_bounds. destruct (nl_steps H sl) as [[|k l]|]; try reflexivity. cbn [n_lb n_ub strip with_run]. destruct (_ && _); reflexivity. Qed.
  Lemma strip_bounds_mat off w H lo hi s : n_bounds_mat off w H lo hi (strip s) = omap strip (n_bounds_mat off w H lo hi s).
  Proof.
    unfold n_bounds_mat. assert (G : forall n, loop n (fun i o => match o with UB => UB | Ok s => n_bounds off w H (mcol lo i) (mcol hi i) (mkSlice (Z.of_nat i) (Z.of_nat i + 1)) s end) (Ok (strip s)) =
      omap strip (loop n (fun i o => match o with UB => UB | Ok s => n_bounds off w H (mcol lo i) (mcol hi i) (mkSlice (Z.of_nat i) (Z.of_nat i + 1)) s end) (Ok s))).
    { induction n as [|n IH]; [reflexivity|]. cbn [loop]. rewrite IH. destruct (loop n _ (Ok s)) as [s'|]; [|reflexivity]. apply strip_bounds. }
    apply G.
  Qed.
  Lemma strip_setter s op : is_setter (op, never (F := F)) = true ->
    n_step junk d ni ne dyn_eq (strip s) op = omap (fun '(s', r) => (strip s', r)) (n_step junk d ni ne dyn_eq s op).
  Proof.
    intros Hs. destruct op; try discriminate Hs; try reflexivity; cbn [n_step].
    - destruct p as [p|]; [|reflexivity]. unfold set_params. destruct (np_hard p); reflexivity.
    - cbn [n_map strip with_run]. destruct (_ && _); reflexivity.
    - cbn [n_map strip with_run]. destruct (_ && _); reflexivity.
    - destruct dyn_eq; reflexivity.
    - unfold bool_of. rewrite strip_bounds_mat. destruct (n_bounds_mat _ _ _ _ _ s); reflexivity.
    - unfold bool_of. rewrite strip_bounds_mat. destruct (n_bounds_mat _ _ _ _ _ s); reflexivity.
    - unfold n_slice, bool_of. rewrite strip_bounds. destruct (slice_unset sl); [destruct (n_bounds _ _ _ _ _ _ s); reflexivity|]. destruct (slice_check _ _) as [[|]|]; try reflexivity. destruct (n_bounds _ _ _ _ _ _ s); reflexivity.
    - unfold n_slice, bool_of. rewrite strip_bounds. destruct (slice_unset sl); [destruct (n_bounds _ _ _ _ _ _ s); reflexivity|]. destruct (slice_check _ _) as [[|]|]; try reflexivity. destruct (n_bounds _ _ _ _ _ _ s); reflexivity.
  Qed.
  Lemma strip_run t s x0 u0 z code cost s' b : x_run junk d ni ne t s x0 u0 z code cost = Ok (s', b) -> strip s' = strip s.
  Proof.
    unfold x_run. destruct (negb _); [intros E; discriminate E|]. destruct (_ && _); [intros E; discriminate E|]. cbn zeta. destruct (negb _); [intros E; discriminate E|].
    destruct (feas_exc _ _ _ _ _ _) as [[|]|]; [intros E; inversion E; reflexivity|intros E; inversion E; reflexivity|]. destruct (out_exc _ _ _ _ _); [intros E; inversion E; reflexivity|].
    destruct (n_run _ _ _ _ _ _ _ _) as [s1|] eqn:R; intros E; [|discriminate E]. inversion E; subst. unfold n_run in R. destruct (negb _); [discriminate R|].
    destruct (_ && _); [discriminate R|]. cbn zeta in R. destruct (_ && _); [|discriminate R]. inversion R. reflexivity.
  Qed.
  Lemma strip_fail s x0 u0 s' : n_run junk d ni ne s x0 u0 NThrow = Ok s' -> strip s' = strip s.
  Proof. unfold n_run. destruct (negb _); intros E; [discriminate E|]. inversion E; subst. reflexivity. Qed.
  Lemma strip_play ops : forall x x' h, x_play junk d ni ne dyn_eq x ops = Ok (x', h) ->
    omap fst (n_play junk d ni ne dyn_eq (strip (x_n x)) (map fst (filter is_setter ops))) = Ok (strip (x_n x')) /\
    x_t x' = fold_left (fun t op => set_throws op t) (filter is_setter ops) (x_t x).
  Proof.
    induction ops as [|op ops IH]; intros x x' h E; cbn [x_play] in E; [inversion E; subst; cbn; auto|].
    destruct (step x op) as [[x1 r]|] eqn:E1; [|discriminate E]. destruct (x_play _ _ _ _ _ x1 ops) as [[x2 h2]|] eqn:E2; [|discriminate E].
    inversion E; subst. destruct (IH x1 x' h2 E2) as [I1 I2]. cbn [filter]. destruct (is_setter op) eqn:Hs.
    - assert (E' : exists s', n_step junk d ni ne dyn_eq (x_n x) (fst op) = Ok (s', r) /\ x1 = mkX s' (set_throws op (x_t x)) (x_rec x)).
      { unfold x_step in E1. unfold is_setter in Hs. destruct (fst op); try discriminate Hs; (destruct (n_step _ _ _ _ _ _ _) as [[s' r']|]; [|discriminate E1]); inversion E1; subst; eauto. }
      destruct E' as (s' & E3 & ->). cbn [x_n x_t] in I1, I2. cbn [map n_play fold_left]. rewrite strip_setter; [|destruct op as [[] ?]; exact Hs || discriminate Hs].
      rewrite E3. cbn [omap]. split; [|exact I2]. destruct (n_play _ _ _ _ _ (strip s') _) as [[s2 h3]|]; [|discriminate I1]. cbn [omap fst] in *. exact I1.
    - assert (S1 : strip (x_n x1) = strip (x_n x) /\ x_t x1 = x_t x).
      { unfold x_step in E1. unfold is_setter in Hs. destruct (fst op); try discriminate Hs. destruct a as [|z code cost].
        - destruct (n_run _ _ _ _ _ _ _ _) as [s'|] eqn:E3; [|discriminate E1]. inversion E1; subst. cbn [x_n x_t]. split; [exact (strip_fail _ _ _ _ E3)|reflexivity].
        - destruct (x_run _ _ _ _ _ _ _ _ _ _ _) as [[s' [|]]|] eqn:E3; [| |discriminate E1]; inversion E1; subst; cbn [x_n x_t]; (split; [exact (strip_run _ _ _ _ _ _ _ _ _ E3)|reflexivity]). }
      destruct S1 as [S1 S2]. rewrite <- S1, <- S2. auto.
  Qed.
  Lemma strip_life ops1 ops2 x1 h1 x2 h2 : x_life junk d ni ne dyn_eq ops1 = Ok (x1, h1) -> x_life junk d ni ne dyn_eq ops2 = Ok (x2, h2) ->
    filter is_setter ops1 = filter is_setter ops2 -> strip (x_n x1) = strip (x_n x2) /\ x_t x1 = x_t x2.
  Proof.
    unfold x_life. destruct (n_new d) as [s|]; [|intros K; discriminate K]. intros E1 E2 E. destruct (strip_play _ _ _ _ E1) as [A1 B1]. destruct (strip_play _ _ _ _ E2) as [A2 B2].
    rewrite E in A1, B1. rewrite A1 in A2. inversion A2 as [K]. split; congruence.
  Qed.
  (** two histories with the same calls besides optimize pose the same problem, whatever was optimized, answered or thrown in between *)
  Theorem C68_problem_kept ops1 ops2 x1 h1 x2 h2 x0 u0 :
    x_life junk d ni ne dyn_eq ops1 = Ok (x1, h1) -> x_life junk d ni ne dyn_eq ops2 = Ok (x2, h2) -> filter is_setter ops1 = filter is_setter ops2 ->
    let a := call (x_n x1) x0 u0 in let b := call (x_n x2) x0 u0 in
    nc_lo a = nc_lo b /\ nc_hi a = nc_hi b /\ nc_par a = nc_par b /\ nc_obj a = nc_obj b /\ nc_cons a = nc_cons b.
  Proof.
    intros E1 E2 E. destruct (strip_life _ _ _ _ _ _ E1 E2 E) as [S _].
    assert (K : forall s, let a := call s x0 u0 in let b := call (strip s) x0 u0 in nc_lo a = nc_lo b /\ nc_hi a = nc_hi b /\ nc_par a = nc_par b /\ nc_obj a = nc_obj b /\ nc_cons a = nc_cons b) by (intros s; repeat split).
    destruct (K (x_n x1)) as (A1 & A2 & A3 & A4 & A5). destruct (K (x_n x2)) as (B1 & B2 & B3 & B4 & B5). cbn zeta. rewrite A1, A2, A3, A4, A5, B1, B2, B3, B4, B5, S. repeat split.
  Qed.
End Forget.

Section Recover.
  Context {F : Type} {SO : ScalarOps F} {SM : ScalarMild F} {SL : ScalarLaws F}.
  Variables (junk : nat -> nat -> F) (d : dims) (ni ne : nat) (dyn_eq : bool).
  Notation nx := (d_nx d). Notation nu := (d_nu d). Notation ny := (d_ny d).
  Notation ph := (d_ph d). Notation ch := (d_ch d).
  Notation step := (x_step junk d ni ne dyn_eq). Notation cf h := (ncfg_run d ni ne (plain h)).
  (** after the next call in which nothing is thrown the two controllers are the same in every respect but their statistics *)
  Theorem C68_forgotten_after_success ops1 ops2 x1 h1 x2 h2 x0 u0 z code cost t l :
    0 < ch -> ch <= ph -> Forall (fun op => nop_sized d (fst op)) ops1 -> Forall (fun op => nop_sized d (fst op)) ops2 ->
    x_life junk d ni ne dyn_eq ops1 = Ok (x1, h1) -> x_life junk d ni ne dyn_eq ops2 = Ok (x2, h2) -> filter is_setter ops1 = filter is_setter ops2 ->
    gm x0 nx 1 -> scaled d (cf h1) -> (k_eqc (cf h1) <> None -> 0 < ne) ->
    judge_calls d ni (cf h1) (throws_in h1) x0 z l -> quiet l -> quiet (output_calls d (cf h1) (throws_in h1) x0 z) ->
    exists x1' x2' res, step x1 (NOptimize x0 u0 (NSolved z code cost), t) = Ok (x1', RResult res) /\ step x2 (NOptimize x0 u0 (NSolved z code cost), t) = Ok (x2', RResult res) /\
      x_n x1' = x_n x2' /\ x_t x1' = x_t x2'.
  Proof.
    intros C0 C Z1 Z2 E1 E2 E G Sc He J Q Q'. assert (R1 : xreached junk d ni ne dyn_eq x1 h1) by (exists ops1; auto). assert (R2 : xreached junk d ni ne dyn_eq x2 h2) by (exists ops2; auto).
    destruct (strip_life junk d ni ne dyn_eq _ _ _ _ _ _ E1 E2 E) as [S St].
    destruct (inv_reached junk d ni ne dyn_eq C0 C x1 h1 R1) as ((f & v & sl & H) & Ht & _). destruct (inv_reached junk d ni ne dyn_eq C0 C x2 h2 R2) as ((f2 & v2 & sl2 & H2) & _).
    assert (He1 : has_eq (x_n x1) = true -> 0 < ne). { unfold has_eq. rewrite (nr_eqc d _ _ H). cbn [k_eqc kset_mem]. intros K. apply He. destruct (k_eqc (cf h1)); [congruence|discriminate K]. }
    assert (He2 : has_eq (x_n x2) = true -> 0 < ne). { change (has_eq (x_n x2)) with (has_eq (strip (x_n x2))). rewrite <- S. exact He1. }
    apply quiet_fst in Q. apply quiet_fst in Q'.
    assert (N1 : feas_exc d ni (x_t x1) (x_n x1) x0 (mvec (n_dec d) z) = None).
    { rewrite Ht. rewrite (feas_exc_is d ni C0 C (x_n x1) _ (throws_in h1) x0 z H G Sc l (judge_mem d ni _ _ _ _ _ f v sl J)). exact Q. }
    assert (O1 : out_exc d (x_t x1) (n_out (x_n x1)) (unwrap_X d (n_map (x_n x1)) (mvec (n_dec d) z) x0) (unwrap_U d (n_map (x_n x1)) (mvec (n_dec d) z)) = None).
    { rewrite Ht. rewrite (out_exc_is d C0 C (x_n x1) _ (throws_in h1) x0 z H G Sc). exact Q'. }
    assert (N2 : feas_exc d ni (x_t x2) (x_n x2) x0 (mvec (n_dec d) z) = None).
    { rewrite <- St. change (feas_exc d ni (x_t x1) (strip (x_n x2)) x0 (mvec (n_dec d) z) = None). rewrite <- S. exact N1. }
    assert (O2 : out_exc d (x_t x2) (n_out (x_n x2)) (unwrap_X d (n_map (x_n x2)) (mvec (n_dec d) z) x0) (unwrap_U d (n_map (x_n x2)) (mvec (n_dec d) z)) = None).
    { rewrite <- St. change (out_exc d (x_t x1) (n_out (strip (x_n x2))) (unwrap_X d (n_map (strip (x_n x2))) (mvec (n_dec d) z) x0) (unwrap_U d (n_map (strip (x_n x2))) (mvec (n_dec d) z)) = None). rewrite <- S. exact O1. }
    unfold x_step. cbn [fst]. rewrite (x_run_cases junk d ni ne C0 C (x_t x1) (x_n x1) _ x0 u0 z code cost H G He1), (x_run_cases junk d ni ne C0 C (x_t x2) (x_n x2) _ x0 u0 z code cost H2 G He2).
    cbn zeta. rewrite N1, N2, O1, O2. set (D := fun s : nmpc F => let opt := mvec (n_dec d) z in
        with_run opt false (unwrap_e opt) (mkRes code (is_feasible d ni ne (n_map s) (n_ieq s) (n_eqc s) (n_out s) (n_itol s) (n_etol s) x0 opt) cost (n_status code) (mtrans (mrow (unwrap_U d (n_map s) opt) 0)))
          (mkSeq (block (unwrap_X d (n_map s) opt x0) 0 0 (ph + 1) nx) (block (get_output d (n_out s) (unwrap_X d (n_map s) opt x0) (unwrap_U d (n_map s) opt)) 0 0 (ph + 1) ny) (block (unwrap_U d (n_map s) opt) 0 0 (ph + 1) nu)) s).
    assert (D1 : n_run junk d ni ne (x_n x1) x0 u0 (NSolved z code cost) = Ok (D (x_n x1))) by exact (run_solved junk d ni ne C0 C (x_n x1) _ x0 u0 z code cost H G He1).
    assert (D2 : n_run junk d ni ne (x_n x2) x0 u0 (NSolved z code cost) = Ok (D (x_n x2))) by exact (run_solved junk d ni ne C0 C (x_n x2) _ x0 u0 z code cost H2 G He2).
    assert (DS : D (x_n x1) = D (x_n x2)). { change (D (strip (x_n x1)) = D (strip (x_n x2))). now rewrite S. }
    rewrite D1, D2, <- DS. do 3 eexists. refine (conj eq_refl (conj eq_refl (conj eq_refl St))).
  Qed.

  (** exceptions never lead to undefined behaviour *)
  Theorem C68_safe_histories ops : 0 < ch -> ch <= ph -> (Z.of_nat ph < 1073741824)%Z -> Forall (fun op => nop_safe d ne dyn_eq (fst op)) ops -> x_life junk d ni ne dyn_eq ops <> UB.
  Proof.
    intros C0 C small Hs. unfold x_life. rewrite (new_ok d C0 C). assert (H : NR d (x_n (mkX (n_init d) never [] : xmpc F)) ncfg0) by exact (NR_init d C0 C). assert (He : k_eqc (ncfg0 : ncfg F) <> None -> 0 < ne) by (intros K; destruct (K eq_refl)).
    revert H He. generalize (mkX (n_init d) never [] : xmpc F) as x, (ncfg0 : ncfg F) as c.
    induction Hs as [|op ops Ho Hs IH]; intros x c H He; cbn [x_play]; [intros K; discriminate K|].
    assert (St : exists x' r c', step x op = Ok (x', r) /\ NR d (x_n x') c' /\ (k_eqc c' <> None -> 0 < ne)).
    { destruct (is_setter op) eqn:Hx.
      - destruct (step_safe junk d ni ne dyn_eq (x_n x) c (fst op) C0 C small H He Ho) as (s' & r & E & H' & He'). exists (mkX s' (set_throws op (x_t x)) (x_rec x)), r, (ncfg_step d ni ne c (fst op, r)).
        refine (conj _ (conj H' He')). unfold x_step. unfold is_setter in Hx. destruct (fst op); try discriminate Hx; now rewrite E.
      - unfold x_step. unfold is_setter in Hx. destruct (fst op); try discriminate Hx. destruct Ho as [[G1 G2] _]. destruct a as [|z code cost].
        + rewrite (run_throw junk d ni ne C0 C (x_n x) c x0 u0 H). do 3 eexists. refine (conj eq_refl (conj _ _)).
          * exact (NR_run junk d ni ne C0 C (x_n x) c x0 u0 NThrow _ H G1 (run_throw junk d ni ne C0 C (x_n x) c x0 u0 H)).
          * exact He.
        + assert (He1 : has_eq (x_n x) = true -> 0 < ne). { unfold has_eq. rewrite (nr_eqc d _ _ H). intros K. apply He. destruct (k_eqc c); [congruence|discriminate K]. }
          assert (Ex : exists s' b, x_run junk d ni ne (x_t x) (x_n x) x0 u0 z code cost = Ok (s', b)).
          { rewrite (x_run_cases junk d ni ne C0 C (x_t x) (x_n x) c x0 u0 z code cost H G1 He1). cbn zeta.
            destruct (feas_exc _ _ _ _ _ _) as [[|]|]; [eauto|eauto|]. destruct (out_exc _ _ _ _ _); [eauto|].
            rewrite (run_solved junk d ni ne C0 C (x_n x) c x0 u0 z code cost H G1 He1). eauto. }
          destruct Ex as (s' & b & E). rewrite E. destruct (NR_x_run junk d ni ne C0 C _ _ _ _ _ _ _ _ _ _ H G1 E) as (sl & H' & _).
          exists (mkX s' (x_t x) (if b then x_rec x else x_rec x ++ [n_res s'])), (if b then RThrow else RResult (n_res s')), (kset_mem c false z sl).
          refine (conj _ (conj H' He)). destruct b; reflexivity. }
    destruct St as (x' & r & c' & E & H' & He'). rewrite E. specialize (IH x' c' H' He'). destruct (x_play _ _ _ _ _ x' ops) as [[x2 h2]|]; [intros K; discriminate K|exact IH].
  Qed.
End Recover.
