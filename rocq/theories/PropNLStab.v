(** Property C88: the non-linear controller in closed loop, when every plan can be improved on after its first step. *)
From Coq Require Import Bool Arith ZArith List Lia QArith Qcanon Ring Field.
From Verif Require Import Scalar Sums Mat Slice Builder BuilderEnt LMPC SpecLMPC NLMap NLTraj NLFun SpecNL NLLoop NLGrad NLEval NLSlope NLSlope2 NLMPC SpecNLC SpecNLP SpecNLO NLRef NLRun NLCall NLObs PropNL1 PropNL6 Wit WitNL SpecMeta PropMeta SpecNLoop PropNLoop SpecNLMeta PropNLMeta SpecStab PropStab SpecNLStab.
Import ListNotations.
Local Open Scope nat_scope.

Section NLStab.
  Context {F : Type} {SO : ScalarOps F} {SM : ScalarMild F} {SL : ScalarLaws F}.
  Add Field SFnlstab : (@s_field F SO SL).
  Variables (junk : nat -> nat -> F) (d : dims) (ni ne : nat) (dyn_eq : bool).
  Notation nx := (d_nx d). Notation nu := (d_nu d). Notation ny := (d_ny d).
  Notation ph := (d_ph d). Notation ch := (d_ch d).
  Notation reached := (nreached junk d ni ne dyn_eq). Notation cf := (ncfg_run d ni ne).
  Notation step := (n_step junk d ni ne dyn_eq). Notation call := (n_call junk d ni ne).
  Variable plant : list F -> list F -> nat -> F.
  Notation run := (nl_control_run junk d ni ne dyn_eq plant).
  Implicit Types (s : nmpc F) (h : list (nop F * ret F)).
  Hypothesis C0 : 0 < ch.
  Hypothesis C : ch <= ph.
  Variable l : list F -> list F -> F.
  Notation descends := (descends d ni ne l). Notation good := (nl_good_loop d ni ne l).
  Notation spent := (ne_spent d l). Notation planned := (ne_planned d).

  Lemma nrun_last s h x u ps q : run s h x u (ps ++ [q]) -> x = ne_next q.
  Proof using.
    intros H. remember (ps ++ [q]) as qs eqn:E. revert ps q E. induction H as [s x u E X U|s h x u qs op s' r H IH Hs N E|s h x u qs a s' res x' H IH E X' EN]; intros ps q Eq; [destruct ps; discriminate Eq|eauto|].
    apply app_inj_tail in Eq. destruct Eq as [_ <-]. reflexivity.
  Qed.
  (** what a period solved to optimality leaves to be read *)
  Lemma period_facts s h x u ps pe J : run s h x u ps -> In pe ps -> unit_scales d (ne_cfg pe) -> all_accepted (ne_cfg pe) -> k_obj (ne_cfg pe) = Some J -> nl_optimally d pe ->
    let X := ent (q_state (ne_seq pe)) in let U := ent (q_input (ne_seq pe)) in
    nl_admissible d ni ne (ne_cfg pe) (ne_x pe) exactly X U /\ (forall X' U', nl_admissible d ni ne (ne_cfg pe) (ne_x pe) exactly X' U' -> (planned J pe <= nl_cost d (ne_cfg pe) J X' U')%S) /\
    spent pe = l (comps nx (X 0)) (comps nu (U 0)).
  Proof using C0 C SL SM.
    intros H I Un A HJ (z & code & cost & Ea & O). destruct (nrun_in junk d ni ne dyn_eq plant C0 C _ _ _ _ _ _ H I) as (s0' & h0 & s1 & R & G & Gu & Ec & El & St & Es & _).
    destruct (unit_nz d _ Un) as [Sx Su]. rewrite Ec in *. rewrite Ea in St. rewrite El in O.
    destruct (C53_optimality_transfer junk d ni ne dyn_eq C0 C s0' h0 _ _ exactly z J code cost s1 _ R G Sx Su A HJ O St) as (Ad & Op & res & Er & Cm). injection Er as <-.
    unfold ne_planned. rewrite Es, Ec in *. refine (conj Ad (conj Op _)). unfold ne_spent. f_equal; apply comps_ext; intros j Hj.
    - destruct Ad as (A1 & _). rewrite A1 by exact Hj. rewrite (proj1 Un) by exact Hj. ring.
    - exact (Cm j Hj).
  Qed.
  Lemma total_snoc l1 (a : F) : total (l1 ++ [a]) = (total l1 + a)%S.
  Proof using SL. induction l1 as [|b l1 IH]; cbn [app total]; [ring|rewrite IH; ring]. Qed.

  (** the optimal cost decreases from period to period by at least the cost of the period *)
  Theorem C88_optimal_cost_decreases s h x u ps q pe J : run s h x u (ps ++ [q; pe]) -> good J (ps ++ [q; pe]) ->
    (planned J pe + spent q <= planned J q)%S.
  Proof using C0 C SL SM.
    intros H G. assert (Iq : In q (ps ++ [q; pe])) by (apply in_or_app; right; now left). assert (Ip : In pe (ps ++ [q; pe])) by (apply in_or_app; right; right; now left).
    destruct (G q Iq) as (Un & A & HJ & De & O & AP & Sm). destruct (G pe Ip) as (Un' & A' & HJ' & _ & O' & _ & _).
    destruct (period_facts _ _ _ _ _ _ _ H Iq Un A HJ O) as (Ad & _ & Es). destruct (period_facts _ _ _ _ _ _ _ H Ip Un' A' HJ' O') as (_ & Op & _).
    assert (Ex : ne_x pe = ne_next q).
    { clear - H. remember (ps ++ [q; pe]) as qs eqn:E. revert ps q pe E. induction H as [s x u E X U|s h x u qs op s' r H IH Hs N E|s h x u qs a s' res x' H IH E X' EN]; intros ps q pe Eq; [destruct ps; discriminate Eq|eauto|].
      change [q; pe] with ([q] ++ [pe]) in Eq. rewrite app_assoc in Eq. apply app_inj_tail in Eq. destruct Eq as [-> <-]. cbn [ne_x]. exact (nrun_last _ _ _ _ _ _ H). }
    destruct (De _ _ _ (ne_x pe) Ad) as (X' & U' & Ad' & Le); [intros j Hj; rewrite Ex; exact (AP j Hj)|].
    pose proof (Sm pe Ip) as Rx. apply (relaxed_admissible d ni ne _ _ _ _ _ _ _ Rx (conj (sle_refl _) (conj (sle_refl _) (sle_refl _)))) in Ad'.
    specialize (Op _ _ Ad'). rewrite (relaxed_cost d _ _ J X' U' Rx) in Op. refine (sle_trans _ _ _ _ Le). rewrite Es. apply sle_add_r. exact Op.
  Qed.
  Lemma run_prefix s h x u ps pe : run s h x u (ps ++ [pe]) -> exists s' h' x' u', run s' h' x' u' ps.
  Proof using.
    intros H. remember (ps ++ [pe]) as qs eqn:E. revert ps pe E. induction H as [s x u E X U|s h x u qs op s' r H IH Hs N E|s h x u qs a s' res x' H IH E X' EN]; intros ps pe Eq; [destruct ps; discriminate Eq|eauto|].
    apply app_inj_tail in Eq. destruct Eq as [-> _]. eauto.
  Qed.
  Lemma good_prefix J ps qs : good J (ps ++ qs) -> good J ps.
  Proof using. intros G pe I. destruct (G pe (in_or_app _ _ _ (or_introl I))) as (A1 & A2 & A3 & A4 & A5 & A6 & A7). refine (conj A1 (conj A2 (conj A3 (conj A4 (conj A5 (conj A6 _)))))). intros q Iq. apply A7. apply in_or_app. now left. Qed.
  Lemma loop_cost ps : forall s h x u q pe J, run s h x u (ps ++ [q]) -> good J (ps ++ [q]) -> hd q ps = pe -> (total (map spent ps) + planned J q <= planned J pe)%S.
  Proof using C0 C SL SM.
    induction ps as [|q' ps IH] using rev_ind; intros s h x u q pe J H G E.
    - cbn in E. subst q. cbn [map total]. replace (s0 + planned J pe)%S with (planned J pe) by ring. apply sle_refl.
    - rewrite map_app. cbn [map]. rewrite total_snoc. rewrite <- app_assoc in H, G. cbn [app] in H, G. pose proof (C88_optimal_cost_decreases _ _ _ _ _ _ _ _ H G) as De.
      change [q'; q] with ([q'] ++ [q]) in H, G. rewrite app_assoc in H, G. destruct (run_prefix _ _ _ _ _ _ H) as (s' & h' & x' & u' & H').
      assert (E' : hd q' ps = pe) by (destruct ps; exact E). specialize (IH _ _ _ _ _ _ _ H' (good_prefix _ _ _ G) E'). refine (sle_trans _ _ _ _ IH).
      replace (total (map spent ps) + spent q' + planned J q)%S with (total (map spent ps) + (planned J q + spent q'))%S by ring. apply sle_add_l. exact De.
  Qed.
  (** all periods together cost no more than the first plan *)
  Theorem C88_closed_loop s h x u pe qs J : run s h x u (pe :: qs) -> good J (pe :: qs) ->
    (forall q x0 X U, In q (pe :: qs) -> nl_admissible d ni ne (ne_cfg q) x0 exactly X U -> (s0 <= nl_cost d (ne_cfg q) J X U)%S) ->
    (total (map spent (pe :: qs)) <= planned J pe)%S.
  Proof using C0 C SL SM.
    intros H G N. destruct (exists_last (l := pe :: qs) ltac:(discriminate)) as (ps & q & E). rewrite E in *. assert (Iq : In q (ps ++ [q])) by (apply in_or_app; right; now left).
    assert (Eh : hd q ps = pe) by (destruct ps; injection E; auto). pose proof (loop_cost ps _ _ _ _ _ _ _ H G Eh) as L. refine (sle_trans _ _ _ _ L). rewrite map_app. cbn [map]. rewrite total_snoc. apply sle_add_l.
    destruct (G q Iq) as (Un & A & HJ & De & O & AP & Sm). destruct (period_facts _ _ _ _ _ _ _ H Iq Un A HJ O) as (Ad & _ & Es).
    destruct (De _ _ _ (ne_next q) Ad AP) as (X' & U' & Ad' & Le). rewrite Es. refine (sle_trans _ _ _ _ Le). specialize (N q _ _ _ Iq Ad').
    set (a := nl_cost _ _ _ X' U') in *. set (b := l _ _). replace b with (s0 + b)%S at 1 by ring. apply sle_add_r. exact N.
  Qed.
  (** so at most (first plan)/e periods can cost e or more *)
  Theorem C88_errors_die_out s h x u pe qs J e : run s h x u (pe :: qs) -> good J (pe :: qs) ->
    (forall q x0 X U, In q (pe :: qs) -> nl_admissible d ni ne (ne_cfg q) x0 exactly X U -> (s0 <= nl_cost d (ne_cfg q) J X U)%S) -> (forall q, In q (pe :: qs) -> (s0 <= spent q)%S) ->
    (snat (length (filter (fun q => sleb e (spent q)) (pe :: qs))) * e <= planned J pe)%S.
  Proof using C0 C SL SM.
    intros H G N W. refine (sle_trans _ _ _ _ (C88_closed_loop _ _ _ _ _ _ _ H G N)). clear H G N.
    induction (pe :: qs) as [|q k IH]; cbn [filter map total length]; [replace (snat 0 * e)%S with (s0 : F) by (cbn; ring); apply sle_refl|].
    assert (IH' := IH (fun q' Iq => W q' (or_intror Iq))). destruct (sleb e (spent q)) eqn:Es.
    - cbn [length]. rewrite snat_S. replace ((snat (length (filter (fun q => sleb e (spent q)) k)) + s1) * e)%S with (e + snat (length (filter (fun q => sleb e (spent q)) k)) * e)%S by ring. apply sle_add; [exact Es|exact IH'].
    - replace (snat (length (filter (fun q => sleb e (spent q)) k)) * e)%S with (s0 + snat (length (filter (fun q => sleb e (spent q)) k)) * e)%S by ring. apply sle_add; [apply W; now left|exact IH'].
  Qed.
  (** and the solver is never asked for the impossible: after every period the next problem can be solved, as long as it is the same problem *)
  Theorem C88_always_solvable s h x u ps q J : run s h x u (ps ++ [q]) -> good J (ps ++ [q]) -> nl_relaxed d (ne_cfg q) (cf h) -> all_accepted (cf h) ->
    exists z, nlp_feasible d exactly (call s x u) z.
  Proof using C0 C SL SM.
    intros H G Rx Ac. assert (Iq : In q (ps ++ [q])) by (apply in_or_app; right; now left). destruct (G q Iq) as (Un & A & HJ & De & O & AP & Sm).
    destruct (period_facts _ _ _ _ _ _ _ H Iq Un A HJ O) as (Ad & _ & _). destruct (De _ _ _ x Ad) as (X' & U' & Ad' & _); [rewrite (nrun_last _ _ _ _ _ _ H); exact AP|].
    apply (relaxed_admissible d ni ne _ _ _ _ _ _ _ Rx (conj (sle_refl _) (conj (sle_refl _) (sle_refl _)))) in Ad'.
    destruct (nrun_reached junk d ni ne dyn_eq plant C0 C _ _ _ _ _ H) as (R & X & U). destruct (relaxed_scales d _ _ Rx (unit_nz d _ Un)) as [Sx Su].
    exists (dec_of d (cf h) X' U'). apply (C53_feasible_iff junk d ni ne dyn_eq C0 C s h x u exactly _ R X Sx Su Ac). refine (conj _ (conj _ _)); [apply dec_len|apply (dec_slack d); assumption|].
    apply (adm_ext d ni ne C0 C (cf h) x exactly X' U'); [| |exact Ad']; intros i j Hi Hj; symmetry; [eapply dec_x; eauto|eapply dec_u; eauto].
  Qed.
  (** the usual way: constrain the last row to a point of rest *)
  Theorem C88_terminal_constraint c J f G xs us : ends_at_rest d ni ne l c J f G xs us -> descends c J.
  Proof using C0 C SL.
    intros [[Ux Uu] Hd Ht Au [B1 B2] Co Cs Re Fr] x0 X U x1 Ad Ex. apply (proj1 (C53_unit_scales d ni ne c x0 X U Ux Uu)) in Ad. destruct Ad as (A1 & A2 & A3 & A4 & A5 & A6 & A7).
    destruct (proj1 (Cs X U) (conj A6 A7)) as (G1 & Tx & Tu). exists (moved_x d f X U), (moved_u d U). assert (P : 0 < ph) by lia.
    assert (Le : forall j, j < nx -> f (comps nx (X ph)) (comps nu (U ph)) 0 j = xs j) by (intros j Hj; rewrite (comps_ext nx _ xs Tx), (comps_ext nu _ us Tu); auto).
    assert (Mx : forall i, i < ph -> moved_x d f X U i = X (S i)) by (intros i Hi; unfold moved_x; destruct (Nat.ltb_spec i ph); [reflexivity|lia]).
    assert (Me : forall j, j < nx -> moved_x d f X U ph j = xs j) by (intros j Hj; unfold moved_x; destruct (Nat.ltb_spec ph ph); [lia|auto]).
    assert (Mu : forall i, i < ph -> moved_u d U i = U (S i)) by (intros i Hi; unfold moved_u; f_equal; lia).
    assert (Mv : moved_u d U ph = U ph) by (unfold moved_u; f_equal; lia).
    split.
    - apply (proj2 (C53_unit_scales d ni ne c x1 _ _ Ux Uu)). assert (Uc : user_constraints d ni ne c (moved_x d f X U) (moved_u d U)).
      { apply (proj2 (Cs _ _)). refine (conj _ (conj Me _)); [|rewrite Mv; exact Tu]. intros i Hi. destruct (Nat.lt_ge_cases i ph) as [Li|Li].
        - rewrite Mx, Mu by exact Li. apply G1. lia.
        - replace i with ph by lia. rewrite Mv, (comps_ext nx _ (X ph)); [apply G1; lia|]. intros j Hj. rewrite Me, Tx by exact Hj. reflexivity. }
      destruct Uc as [Ui Ue]. refine (conj _ (conj _ (conj _ (conj _ (conj _ (conj Ui Ue)))))).
      + intros j Hj. rewrite Mx by exact P. symmetry. auto.
      + intros i j Hi Hj. unfold moved_u. rewrite (A2 (Nat.min (S i) ph) j), (A2 (Nat.min (S (held d i)) ph) j) by (exact Hj || lia). f_equal. unfold held. lia.
      + intros k j Hk Hj. destruct (B1 k j Hk Hj) as [-> ->]. destruct (Nat.lt_ge_cases (k + 1) ph) as [Lk|Lk].
        * rewrite Mx by exact Lk. destruct (B1 (k + 1) j ltac:(lia) Hj) as [<- <-]. pose proof (A3 (k + 1) j ltac:(lia) Hj) as W. rewrite (Nat.add_1_r (k + 1)) in W. exact W.
        * replace (k + 1) with ph by lia. rewrite Me by exact Hj. destruct (B1 (ph - 1) j ltac:(lia) Hj) as [<- <-]. pose proof (A3 (ph - 1) j ltac:(lia) Hj) as W. replace (ph - 1 + 1) with ph in W by lia. rewrite Tx in W by exact Hj. exact W.
      + intros k j Hk Hj. destruct (B2 k j Hk Hj) as [-> ->]. unfold moved_u. rewrite A2 by (exact Hj || lia). destruct (B2 (held d (Nat.min (S k) ph)) j ltac:(unfold held; lia) Hj) as [<- <-].
        apply A4; [unfold held; lia|exact Hj].
      + intros f' Hf' i j Hi Hj. rewrite Hd in Hf'. injection Hf' as <-. unfold predicted. rewrite Ht. unfold traj_row. rewrite (Mx i Hi), (Mu i Hi).
        destruct (Nat.lt_ge_cases (S i) ph) as [Li|Li].
        * rewrite Mx by exact Li. pose proof (A5 f Hd (S i) j ltac:(lia) Hj) as W. unfold predicted in W. rewrite Ht in W. rewrite W. apply Au.
        * replace (S i) with ph by lia. rewrite Me by exact Hj. rewrite <- Le by exact Hj. apply Au.
    - rewrite !Co, !Nat.add_1_r, (ssum_S_l ph (fun i => l (comps nx (X i)) _)). cbn [ssum]. rewrite Mv, (comps_ext nx (moved_x d f X U ph) xs Me), (comps_ext nu (U ph) us Tu), Fr.
      rewrite (ssum_ext ph (fun i => l (comps nx (moved_x d f X U i)) (comps nu (moved_u d U i))) (fun i => l (comps nx (X (S i))) (comps nu (U (S i))))) by (intros i Hi; now rewrite Mx, Mu by exact Hi).
      set (a := ssum ph _). set (b := l _ _). replace (a + s0 + b)%S with (b + a)%S by ring. apply sle_refl.
  Qed.
End NLStab.
