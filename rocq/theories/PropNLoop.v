(** Property C77: the non-linear controller in closed loop with a plant. *)
From Coq Require Import Bool Arith ZArith List Lia QArith Qcanon Ring Field.
From Verif Require Import Scalar Sums Mat Slice Builder BuilderEnt LMPC SpecLMPC NLMap NLTraj NLFun SpecNL NLLoop NLGrad NLEval NLSlope NLSlope2 NLMPC SpecNLC SpecNLP SpecNLO NLRef NLRun NLCall NLObs PropNL1 PropNL3 PropNL4 PropNL6 Wit WitNL SpecNLoop.
From Verif Require PropWorld5 PropNL2.
Import ListNotations.
Local Open Scope nat_scope.

Section NLoop.
  Context {F : Type} {SO : ScalarOps F} {SM : ScalarMild F} {SL : ScalarLaws F}.
  Add Field SFnloop : (@s_field F SO SL).
  Variables (junk : nat -> nat -> F) (d : dims) (ni ne : nat) (dyn_eq : bool).
  Notation nx := (d_nx d). Notation nu := (d_nu d). Notation ny := (d_ny d).
  Notation ph := (d_ph d). Notation ch := (d_ch d).
  Notation reached := (nreached junk d ni ne dyn_eq). Notation cf := (ncfg_run d ni ne).
  Notation step := (n_step junk d ni ne dyn_eq). Notation call := (n_call junk d ni ne).
  Variable plant : list F -> list F -> nat -> F.
  Notation run := (nl_control_run junk d ni ne dyn_eq plant).
  Implicit Types (s : nmpc F) (h : list (nop F * ret F)).
  Hypothesis C0 : 0 < ch.
  Hypothesis C : ch <= ph.

  Lemma nreached_snoc s h op s' r : reached s h -> nop_sized d op -> step s op = Ok (s', r) -> reached s' (h ++ [(op, r)]).
  Proof using.
    intros (ops & Hs & E) Ho E'. exists (ops ++ [op]). split; [apply Forall_app; split; [exact Hs|constructor; [exact Ho|constructor]]|].
    unfold n_life in *. destruct (n_new d) as [s0'|]; [|discriminate E]. eapply PropWorld5.n_play_snoc; eassumption.
  Qed.
  Lemma nreached_new s : n_new d = Ok s -> reached s [].
  Proof using. intros E. exists []. split; [constructor|]. unfold n_life. rewrite E. reflexivity. Qed.
  Lemma no_result s op s' r : (forall x0 u0 a, op <> NOptimize x0 u0 a) -> step s op = Ok (s', r) -> forall res, r <> RResult res.
  Proof using.
    intros N E res ->.
    assert (B : forall o, bool_of o <> Ok (s', RResult res : ret F)) by (intros [o|] K; discriminate K).
    assert (K : forall off w H lo hi sl, n_slice off w H lo hi sl s <> Ok (s', RResult res : ret F)).
    { intros off w H lo hi sl K. unfold n_slice in K. destruct (slice_unset sl); [exact (B _ K)|]. destruct (slice_check _ _) as [[|]|]; [exact (B _ K)|discriminate K|discriminate K]. }
    destruct op as [| [|] | | | | | | | | | | | | | |x0 u0 a]; cbn [n_step] in E; try discriminate E; try exact (B _ E); try exact (K _ _ _ _ _ _ E); try (exact (N _ _ _ eq_refl));
      try (match type of E with (if ?b then _ else _) = _ => destruct b end; discriminate E).
  Qed.
  Lemma last_cmd_snoc h op r : last_cmd nu (h ++ [(op, r)]) = match r with RResult q => r_cmd q | _ => last_cmd nu h end.
  Proof using. unfold last_cmd. now rewrite fold_left_app. Qed.
  Lemma opt_res s x u a s' res : step s (NOptimize x u a) = Ok (s', RResult res) -> n_res s' = res.
  Proof using. cbn [n_step]. destruct (n_run _ _ _ _ _ _ _ _) as [s2|]; [|intros E; discriminate E]. intros E. now injection E as <- <-. Qed.
  Lemma reached_cmd s h : reached s h -> gm (r_cmd (n_res s)) nu 1.
  Proof using C0 C SM. intros H. exact (nr_cmd d s _ (nreached_NR junk d ni ne dyn_eq C0 C s h H)). Qed.
  Lemma nrun_reached s h x u ps : run s h x u ps -> reached s h /\ gm x nx 1 /\ gm u nu 1.
  Proof using C0 C SM.
    intros H. induction H as [s x u E X U|s h x u ps op s' r H IH Hs N E|s h x u ps a s' res x' H IH E X' EN].
    - exact (conj (nreached_new _ E) (conj X U)).
    - destruct IH as (R0 & X & U). refine (conj _ (conj X U)). eapply nreached_snoc; eassumption.
    - destruct IH as (R0 & X & U). assert (R1 : reached s' (h ++ [(NOptimize x u a, RResult res)])) by (eapply nreached_snoc; [exact R0|exact (conj X U)|exact E]).
      refine (conj R1 (conj X' _)). rewrite <- (opt_res _ _ _ _ _ _ E). eapply reached_cmd; exact R1.
  Qed.
  Lemma nrun_in s h x u ps pe : run s h x u ps -> In pe ps -> exists s0 h0 s1,
    reached s0 h0 /\ gm (ne_x pe) nx 1 /\ gm (ne_u pe) nu 1 /\ ne_cfg pe = cf h0 /\ ne_call pe = call s0 (ne_x pe) (ne_u pe) /\
    step s0 (NOptimize (ne_x pe) (ne_u pe) (ne_ans pe)) = Ok (s1, RResult (ne_res pe)) /\ ne_seq pe = n_seq s1 /\
    (forall j, j < nx -> vec (ne_next pe) j = plant (comps nx (vec (ne_x pe))) (comps nu (vec (r_cmd (ne_res pe)))) j).
  Proof using C0 C SM.
    intros H. induction H as [s x u E X U|s h x u ps op s' r H IH Hs N E|s h x u ps a s' res x' H IH E X' EN]; intros I; [destruct I|auto|].
    apply in_app_or in I. destruct I as [I|[<-|[]]]; [auto|]. destruct (nrun_reached _ _ _ _ _ H) as (R0 & X & U).
    exists s, h, s'. cbn [ne_x ne_u ne_cfg ne_call ne_ans ne_res ne_seq ne_next]. auto 10.
  Qed.
  Lemma comps_ext n (v w : nat -> F) : (forall l, l < n -> v l = w l) -> comps n v = comps n w.
  Proof using. intros E. unfold comps. apply map_ext_in. intros l Hl. apply in_seq in Hl. apply E. exact (proj2 Hl). Qed.
  Lemma unit_nz c : unit_scales d c -> scaled d c /\ (forall j, j < nu -> k_su c j <> s0).
  Proof using SL. intros [A B]. assert (N : (s1 : F) <> s0) by (apply (@F_1_neq_0 _ _ _ _ _ _ _ _ _ _ (@s_field F SO SL))). split; intros j Hj; [rewrite A by exact Hj|rewrite B by exact Hj]; exact N. Qed.
  Lemma sabs_unit (t : F) : (sabs s1 * t = t)%S.
  Proof using SL. rewrite (sabs_pos s1) by apply s01. ring. Qed.

  (** the returned trajectory is that of the returned decision vector *)
  Lemma seq_is s h x u z code cost s' res : reached s h -> gm x nx 1 -> scaled d (cf h) ->
    step s (NOptimize x u (NSolved z code cost)) = Ok (s', RResult res) ->
    (forall i j, i <= ph -> j < nx -> ent (q_state (n_seq s')) i j = x_traj d (cf h) x z i j) /\
    (forall j, j < nu -> vec (r_cmd res) j = u_traj d (cf h) z 0 j).
  Proof using C0 C SM SL.
    intros H X Sc E. destruct (C22_first_row junk d ni ne dyn_eq s h x u z code cost s' _ C0 C H X Sc E) as [A B].
    destruct (C21_returned_commands junk d ni ne dyn_eq s h x u z code cost s' _ C0 C H X Sc E) as (res' & Er & _ & _ & D & _). injection Er as <-. split.
    - intros i j Hi Hj. unfold x_traj, st_traj, v_state. destruct (Nat.eqb_spec i 0) as [->|Ni]; [exact (A j Hj)|]. replace i with ((i - 1) + 1) at 1 by lia. apply B; [lia|exact Hj].
    - intros j Hj. unfold vec. rewrite D by exact Hj. unfold u_traj, in_traj, v_input, held. reflexivity.
  Qed.

  (** C77: unit scales, discrete-time model f.  Whenever the solver's answer satisfies its problem up to t, the command is within the bounds of step 0, and the
      state the plant reaches is within t_dyn + m of the predicted one, hence of its bounds, where m bounds the error of the model at this state and command *)
  Theorem C77_solved_periods s h x u ps pe t f (m : F) : run s h x u ps -> In pe ps -> nl_solved d t pe ->
    unit_scales d (ne_cfg pe) -> all_accepted (ne_cfg pe) -> k_dyn (ne_cfg pe) = Some f -> k_ts (ne_cfg pe) = None ->
    (forall j, j < nx -> (sabs (f (comps nx (vec (ne_x pe))) (comps nu (vec (r_cmd (ne_res pe)))) 0%nat j - plant (comps nx (vec (ne_x pe))) (comps nu (vec (r_cmd (ne_res pe)))) j) <= m)%S) ->
    (forall j, j < nu -> within (k_ulo (ne_cfg pe) 0 j) (k_uhi (ne_cfg pe) 0 j) (vec (r_cmd (ne_res pe)) j)) /\
    (forall j, j < nx -> (sabs (ent (q_state (ne_seq pe)) 1%nat j - vec (ne_next pe) j) <= t_dyn t + m)%S /\
       within (k_xlo (ne_cfg pe) 0 j) (k_xhi (ne_cfg pe) 0 j) (ent (q_state (ne_seq pe)) 1 j)).
  Proof using C0 C SM SL.
    intros H I (z & code & cost & Ea & Hf) Un Ac Hd Ht Hm. destruct (nrun_in _ _ _ _ _ _ H I) as (s0' & h0 & s1' & R0 & X & U & Ec & El & E & Es & EN).
    rewrite Ea in E. rewrite El in Hf. rewrite Ec in *. destruct (unit_nz _ Un) as [Sc Su]. destruct Un as [Ux Uu].
    destruct (proj1 (C53_feasible_iff junk d ni ne dyn_eq C0 C s0' h0 _ _ t z R0 X Sc Su Ac) Hf) as (L & Sl & A1 & A2 & A3 & A4 & A5 & _).
    destruct (seq_is s0' h0 _ _ _ code cost s1' _ R0 X Sc E) as [Q1 Q2]. rewrite <- Es in Q1. assert (P : 0 < ph) by lia.
    assert (D1 : forall a : F, (a / s1 = a)%S) by (intros a; field; exact (@F_1_neq_0 _ _ _ _ _ _ _ _ _ _ (@s_field F SO SL))).
    refine (conj _ _).
    - intros j Hj. rewrite Q2 by exact Hj. pose proof (A4 0 j C0 Hj) as B. rewrite Uu, D1 in B by exact Hj. exact B.
    - intros j Hj. rewrite Q1 by lia. split.
      + pose proof (A5 f Hd 0 j P Hj) as B. unfold predicted in B. rewrite Ht, Ux, sabs_unit in B by exact Hj.
        assert (E1 : traj_row nx (x_traj d (cf h0) (ne_x pe) (dvar z)) 0 = comps nx (vec (ne_x pe))).
        { apply comps_ext. intros l Hl. rewrite A1, Ux by exact Hl. ring. }
        assert (E2 : traj_row nu (u_traj d (cf h0) (dvar z)) 0 = comps nu (vec (r_cmd (ne_res pe)))).
        { apply comps_ext. intros l Hl. symmetry. auto. }
        rewrite E1, E2 in B. rewrite EN by exact Hj. specialize (Hm j Hj). revert B Hm. generalize (f (comps nx (vec (ne_x pe))) (comps nu (vec (r_cmd (ne_res pe)))) 0 j), (plant (comps nx (vec (ne_x pe))) (comps nu (vec (r_cmd (ne_res pe)))) j).
        generalize (x_traj d (cf h0) (ne_x pe) (dvar z) 1 j). intros w v v' B Hm.
        replace (w - v' : F)%S with ((w - v) + (v - v') : F)%S by ring. eapply sle_trans; [apply sabs_add|]. now apply sle_add.
      + pose proof (A3 0 j P Hj) as B. rewrite Ux, D1 in B by exact Hj. exact B.
  Qed.
  (** ... in particular, when answer and model are exact, the plant reaches the predicted state and stays within the state bounds of step 0 *)
  Theorem C77_exact_periods s h x u ps pe f : run s h x u ps -> In pe ps -> nl_solved d exactly pe ->
    unit_scales d (ne_cfg pe) -> all_accepted (ne_cfg pe) -> k_dyn (ne_cfg pe) = Some f -> k_ts (ne_cfg pe) = None -> (forall x u j, f x u 0 j = plant x u j) ->
    forall j, j < nx -> vec (ne_next pe) j = ent (q_state (ne_seq pe)) 1 j /\ within (k_xlo (ne_cfg pe) 0 j) (k_xhi (ne_cfg pe) 0 j) (vec (ne_next pe) j).
  Proof using C0 C SM SL.
    intros H I Hs Un Ac Hd Ht Hm j Hj. assert (A0 : (sabs s0 <= (s0 : F))%S) by (rewrite sabs_pos; apply s_le_refl).
    assert (K : forall v : F, sabs (v - v)%S = sabs s0) by (intros v; f_equal; ring).
    destruct (C77_solved_periods s h x u ps pe exactly f s0 H I Hs Un Ac Hd Ht) as [_ A]; [intros l Hl; rewrite Hm, K; exact A0|]. destruct (A j Hj) as [B W].
    assert (E : vec (ne_next pe) j = ent (q_state (ne_seq pe)) 1 j).
    { cbn [exactly t_dyn] in B. replace (s0 + s0 : F)%S with (s0 * s0 : F)%S in B by ring. symmetry. exact (PropNL2.sabs_le0 _ _ _ B). }
    rewrite E. auto.
  Qed.

  (** a failed period repeats the command of the period before, zero if there was none *)
  Lemma nrun_cmd s h x u ps : run s h x u ps -> last_cmd nu h = match rev ps with [] => mzero nu 1 | pe :: _ => r_cmd (ne_res pe) end.
  Proof using.
    intros H. induction H as [s x u E X U|s h x u ps op s' r H IH Hs N E|s h x u ps a s' res x' H IH E X' EN].
    - reflexivity.
    - rewrite last_cmd_snoc. destruct r; try exact IH. now destruct (no_result _ _ _ _ N E r).
    - rewrite last_cmd_snoc, rev_app_distr. reflexivity.
  Qed.
  Theorem C77_failed_period s h x u ps pe qs : run s h x u (ps ++ pe :: qs) -> nl_failed pe ->
    forall j, j < nu -> vec (r_cmd (ne_res pe)) j = match rev ps with [] => s0 | pe' :: _ => vec (r_cmd (ne_res pe')) j end.
  Proof using C0 C SM.
    intros H Ff. remember (ps ++ pe :: qs) as l eqn:El. revert qs El.
    induction H as [s x u E X U|s h x u ps' op s' r H IH Hs N E|s h x u ps' a s' res x' H IH E X' EN]; intros qs El j Hj.
    - destruct ps; discriminate El.
    - eapply IH; [exact El|exact Hj].
    - destruct qs as [|q0 qs _] using rev_ind.
      + apply app_inj_tail in El. destruct El as [-> <-]. unfold nl_failed in Ff. cbn [ne_ans] in Ff. subst a. cbn [ne_res].
        destruct (nrun_reached _ _ _ _ _ H) as (R0 & X & U).
        destruct (C31_solver_failure junk d ni ne dyn_eq s h x u C0 C R0 (conj X U)) as (s2 & res' & E' & Ec & _). rewrite E in E'. injection E' as <- <-. rewrite Ec, (nrun_cmd _ _ _ _ _ H).
        destruct (rev ps); reflexivity.
      + replace (ps ++ pe :: qs ++ [q0]) with ((ps ++ pe :: qs) ++ [q0]) in El by (now rewrite <- app_assoc). apply app_inj_tail in El. destruct El as [El _]. eapply IH; [exact El|exact Hj].
  Qed.
  (** hence, with input bounds that never change, from the first solved period on every command is within them, also when the solver throws *)
  Theorem C77_commands_within_bounds s h x u ps pe qs (lo hi : nat -> ext F) : run s h x u (ps ++ pe :: qs) ->
    (exists t, nl_solved d t pe) -> (forall q, In q qs -> (exists t, nl_solved d t q) \/ nl_failed q) ->
    (forall q, In q (pe :: qs) -> unit_scales d (ne_cfg q) /\ all_accepted (ne_cfg q) /\ forall j, j < nu -> k_ulo (ne_cfg q) 0 j = lo j /\ k_uhi (ne_cfg q) 0 j = hi j) ->
    forall q j, In q (pe :: qs) -> j < nu -> within (lo j) (hi j) (vec (r_cmd (ne_res q)) j).
  Proof using C0 C SM SL.
    intros H Hs Hq Hb.
    assert (S1 : forall q, In q (pe :: qs) -> (exists t, nl_solved d t q) -> forall j, j < nu -> within (lo j) (hi j) (vec (r_cmd (ne_res q)) j)).
    { intros q Iq [t Sq] j Hj. destruct (Hb q Iq) as (Un & Ac & B). destruct (B j Hj) as [<- <-]. destruct Sq as (z & code & cost & Ea & Hf).
      destruct (nrun_in _ _ _ _ _ _ H (in_or_app _ _ _ (or_intror Iq))) as (s0' & h0 & s1' & R0 & X & U & Ec & El & E & Es & EN).
      rewrite Ea in E. rewrite El in Hf. rewrite Ec in *. destruct (unit_nz _ Un) as [Sc Su]. destruct Un as [Ux Uu].
      destruct (proj1 (C53_feasible_iff junk d ni ne dyn_eq C0 C s0' h0 _ _ t z R0 X Sc Su Ac) Hf) as (_ & _ & _ & _ & _ & A4 & _).
      destruct (seq_is s0' h0 _ _ _ code cost s1' _ R0 X Sc E) as [_ Q2]. rewrite Q2 by exact Hj. pose proof (A4 0 j C0 Hj) as W. rewrite Uu in W by exact Hj.
      replace (u_traj d (cf h0) (dvar z) 0 j / s1)%S with (u_traj d (cf h0) (dvar z) 0 j) in W by (field; exact (@F_1_neq_0 _ _ _ _ _ _ _ _ _ _ (@s_field F SO SL))). exact W. }
    assert (G : forall n q, nth_error (pe :: qs) n = Some q -> forall j, j < nu -> within (lo j) (hi j) (vec (r_cmd (ne_res q)) j)).
    { induction n as [|n IH]; intros q En j Hj.
      - injection En as <-. apply (S1 pe (or_introl eq_refl) Hs j Hj).
      - pose proof (nth_error_In _ _ En) as Iq. cbn [nth_error] in En. pose proof (nth_error_In _ _ En) as Iq'. destruct (Hq q Iq') as [Sq|Fq]; [now apply S1|].
        destruct (nth_error_split qs n En) as (l1 & l2 & -> & L).
        assert (H' : run s h x u ((ps ++ pe :: l1) ++ q :: l2)) by (now rewrite <- app_assoc).
        rewrite (C77_failed_period _ _ _ _ _ _ _ H' Fq j Hj). rewrite rev_app_distr. cbn [rev].
        destruct n as [|n].
        + destruct l1; [|discriminate L]. cbn [rev app]. apply (IH pe eq_refl j Hj).
        + destruct l1 as [|a l1 _] using rev_ind; [discriminate L|]. rewrite rev_app_distr. cbn [rev app]. apply (IH a); [|exact Hj].
          cbn [nth_error]. rewrite app_length in L. cbn in L. rewrite <- app_assoc. rewrite nth_error_app2 by lia. replace (n - length l1) with 0 by lia. reflexivity. }
    intros q j Iq Hj. destruct (In_nth_error _ _ Iq) as [n En]. exact (G n q En j Hj).
  Qed.

End NLoop.

(** *** the next period *)
Section NNext.
  Context {F : Type} {SO : ScalarOps F} {SM : ScalarMild F} {SL : ScalarLaws F}.
  Add Field SFnloop2 : (@s_field F SO SL).
  Variables (junk : nat -> nat -> F) (d : dims) (ni ne : nat) (dyn_eq : bool).
  Notation nx := (d_nx d). Notation nu := (d_nu d). Notation ny := (d_ny d).
  Notation ph := (d_ph d). Notation ch := (d_ch d).
  Notation reached := (nreached junk d ni ne dyn_eq). Notation cf := (ncfg_run d ni ne).
  Notation step := (n_step junk d ni ne dyn_eq). Notation call := (n_call junk d ni ne).
  Implicit Types (s : nmpc F) (h : list (nop F * ret F)).
  Hypothesis C0 : 0 < ch.
  Hypothesis C : ch <= ph.
  Lemma row_ext n (X Y : nat -> nat -> F) i k : (forall l, l < n -> X i l = Y k l) -> traj_row n X i = traj_row n Y k.
  Proof using. intros E. apply comps_ext. exact E. Qed.
  Lemma autonomous_at (f : dyn_t F) x u k l x' u' k' : autonomous f -> x = x' -> u = u' -> f x u k l = f x' u' k' l.
  Proof using. intros A -> ->. apply A. Qed.
  (** what a feasible point of the first period says, with unit scales and a discrete-time model *)
  Lemma first_facts s h f x0 u0 z : reached s h -> gm x0 nx 1 -> unit_scales d (cf h) -> all_accepted (cf h) -> k_dyn (cf h) = Some f -> k_ts (cf h) = None ->
    nlp_feasible d exactly (call s x0 u0) z ->
    let X := x_traj d (cf h) x0 (dvar z) in let U := u_traj d (cf h) (dvar z) in
    dvar z (v_slack d) = s0 /\ (forall j, j < nx -> X 0 j = vec x0 j) /\
    (forall i j, i <= ph -> j < nu -> U i j = U (held d i) j) /\
    (forall k j, k < ph -> j < nx -> within (k_xlo (cf h) k j) (k_xhi (cf h) k j) (X (k + 1)%nat j)) /\
    (forall k j, k < ch -> j < nu -> within (k_ulo (cf h) k j) (k_uhi (cf h) k j) (U k j)) /\
    (forall i l, i < ph -> l < nx -> X (S i) l = f (traj_row nx X i) (traj_row nu U i) i l).
  Proof using C0 C SM SL.
    intros R0 X0 Un Ac Hd Ht Hf X U. destruct (unit_nz d _ Un) as [Sc Su]. destruct Un as [Ux Uu].
    destruct (proj1 (C53_feasible_iff junk d ni ne dyn_eq C0 C s h _ _ exactly z R0 X0 Sc Su Ac) Hf) as (L & Sl & A).
    destruct (proj1 (C53_unit_scales d ni ne (cf h) x0 X U Ux Uu) A) as (A1 & A2 & A3 & A4 & A5 & _).
    refine (conj Sl (conj A1 (conj A2 (conj A3 (conj A4 _))))). intros i l Hi Hl. rewrite (A5 f Hd i l Hi Hl). unfold predicted. rewrite Ht. reflexivity.
  Qed.
  Lemma k_same h x u a res : let c := cf h in let c' := cf (h ++ [(NOptimize x u a, RResult res)]) in
    k_sx c' = k_sx c /\ k_su c' = k_su c /\ k_dyn c' = k_dyn c /\ k_ts c' = k_ts c /\ k_xlo c' = k_xlo c /\ k_xhi c' = k_xhi c /\ k_ulo c' = k_ulo c /\ k_uhi c' = k_uhi c /\
    k_ieq c' = k_ieq c /\ k_eqc c' = k_eqc c /\ k_out c' = k_out c /\ k_cons c' = k_cons c /\ k_obj c' = k_obj c /\ k_bobj c' = k_bobj c /\ k_warm c' = k_warm c.
  Proof using. intros c c'. subst c c'. unfold ncfg_run. rewrite fold_left_app. destruct a; repeat (apply conj); reflexivity. Qed.

  (** the warm start of the next period, in closed loop: after a period whose answer satisfies its problem exactly, with unit scales and a model that does not look
      at the step index, the starting point of the next optimization starts at the state the plant reached, obeys the dynamics at every step but the last, and - if the
      bounds are the same at every step - lies within them, so that NLopt does not reject it (C50); the last step is obeyed exactly if the plan ended at rest *)
  Theorem C77_warm_start s h f x0 u0 z code cost s1 res x1 u1 : reached s h -> gm x0 nx 1 -> gm u0 nu 1 -> gm x1 nx 1 ->
    unit_scales d (cf h) -> all_accepted (cf h) -> k_dyn (cf h) = Some f -> k_ts (cf h) = None -> autonomous f -> k_warm (cf h) = true ->
    nlp_feasible d exactly (call s x0 u0) z -> step s (NOptimize x0 u0 (NSolved (dvar z) code cost)) = Ok (s1, RResult res) ->
    (forall j, j < nx -> vec x1 j = f (comps nx (vec x0)) (comps nu (vec (r_cmd res))) 0 j) ->
    let g := nc_guess (call s1 x1 u1) in let X := x_traj d (cf h) x1 (dvar g) in let U := u_traj d (cf h) (dvar g) in
    let Xp := ent (q_state (n_seq s1)) in
    (forall j, j < nx -> X 0 j = vec x1 j) /\
    (forall i l, i < ph - 1 -> l < nx -> X (S i) l = f (traj_row nx X i) (traj_row nu U i) i l) /\
    (forall l, l < nx -> X ph l = Xp ph l) /\
    (forall l, l < nx -> (X ph l = f (traj_row nx X (ph - 1)) (traj_row nu U (ph - 1)) (ph - 1) l) <-> (Xp ph l = f (traj_row nx Xp ph) (traj_row nu (u_traj d (cf h) (dvar z)) ph) ph l)) /\
    (nl_uniform d (cf h) -> in_box d (call s1 x1 u1) g).
  Proof using C0 C SM SL.
    intros R0 X0 U0 X1 Un Ac Hd Ht Au Hw Hf E Ex g X U Xp. destruct (unit_nz d _ Un) as [Sc Su].
    destruct (first_facts s h f x0 u0 z R0 X0 Un Ac Hd Ht Hf) as (Sl & F1 & F2 & F3 & F4 & F5).
    set (Z := x_traj d (cf h) x0 (dvar z)) in *. set (V := u_traj d (cf h) (dvar z)) in *. destruct Un as [Ux Uu].
    destruct (seq_is junk d ni ne dyn_eq C0 C s h _ _ _ code cost s1 _ R0 X0 Sc E) as [Q1 Q2]. fold Z V in Q1, Q2.
    set (h' := h ++ [(NOptimize x0 u0 (NSolved (dvar z) code cost), RResult res)]).
    assert (R1 : reached s1 h') by (eapply nreached_snoc; [exact R0|exact (conj X0 U0)|exact E]).
    destruct (k_same h x0 u0 (NSolved (dvar z) code cost) res) as (K1 & K2 & K3 & K4 & K5 & K6 & K7 & K8 & K9 & K10 & K11 & K12 & K13 & K14 & K15). fold h' in K1, K2, K3, K4, K5, K6, K7, K8, K9, K10, K11, K12, K13, K14, K15.
    destruct (C30_warm_start junk d ni ne dyn_eq s1 h x0 u0 (dvar z) code cost (RResult res) [] x1 u1 C0 C R1) as (G1 & G2 & G3 & G4 & G5 & G6 & G7).
    { fold h'. rewrite K2. exact Su. } { reflexivity. } { fold h'. rewrite K15. exact Hw. }
    fold h' in G5, G6, G7. fold g in G1, G2, G3, G4, G5, G6, G7.
    assert (TX : forall w y, x_traj d (cf h') y w = x_traj d (cf h) y w) by (intros; unfold x_traj; now rewrite K1).
    assert (TU : forall w, u_traj d (cf h') w = u_traj d (cf h) w) by (intros; unfold u_traj; now rewrite K2).
    rewrite !TX in G5. rewrite !TX in G6. rewrite !TU in G7. fold X in G5, G6. fold U V in G7.
    assert (ZZ : forall i j, 0 < i -> x_traj d (cf h) x1 (dvar z) i j = Z i j) by (intros i j Hi; unfold Z, x_traj, st_traj; destruct (Nat.eqb_spec i 0); [lia|reflexivity]).
    assert (P : 0 < ph) by lia.
    assert (H0 : forall j, j < nx -> X 0 j = vec x1 j).
    { intros j Hj. unfold X, x_traj, st_traj. cbn [Nat.eqb]. rewrite Ux by exact Hj. ring. }
    assert (E1 : forall j, j < nx -> vec x1 j = Z 1 j).
    { intros j Hj. rewrite Ex, F5 by (exact P || exact Hj). apply autonomous_at; [exact Au| |]; apply comps_ext; intros l Hl; [rewrite F1; auto|auto]. }
    assert (Hrow : forall i l, i < ph -> l < nx -> X i l = Z (S i) l).
    { intros i l Hi Hl. destruct i as [|i]; [rewrite H0 by exact Hl; auto|]. rewrite G5, ZZ by lia. f_equal. lia. }
    assert (Hu : forall i l, i < ph -> l < nu -> U i l = V (S i) l) by (intros i l Hi Hl; rewrite G7 by assumption; f_equal; lia).
    assert (HL : forall l, l < nx -> X ph l = Z ph l) by (intros l Hl; rewrite G6, ZZ by (assumption || lia); reflexivity).
    refine (conj H0 (conj _ (conj _ (conj _ _)))).
    - intros i l Hi Hl. rewrite Hrow, F5 by lia. apply autonomous_at; [exact Au| |]; apply row_ext; intros j Hj; symmetry; [apply Hrow|apply Hu]; (exact Hj || lia).
    - intros l Hl. rewrite HL by exact Hl. symmetry. apply Q1; [lia|exact Hl].
    - intros l Hl. rewrite HL by exact Hl. unfold Xp. rewrite Q1 by (lia || exact Hl).
      assert (EQ : f (traj_row nx X (ph - 1)) (traj_row nu U (ph - 1)) (ph - 1) l = f (traj_row nx (ent (q_state (n_seq s1))) ph) (traj_row nu V ph) ph l).
      { apply autonomous_at; [exact Au| |]; apply row_ext; intros j Hj; [rewrite Hrow, Q1 by (exact Hj || lia)|rewrite Hu by (exact Hj || lia)]; f_equal; lia. }
      rewrite EQ. tauto.
    - intros [B1 B2]. apply (C23_box junk d ni ne dyn_eq s1 h' x1 u1 g C0 C R1). rewrite K5, K6, K7, K8.
      assert (ZE : forall i j, j < nx -> Z (S i) j = dvar z (i * nx + j)) by (intros i j Hj; unfold Z, x_traj, st_traj, v_state; cbn [Nat.eqb]; rewrite Ux by exact Hj; replace (S i - 1) with i by lia; ring).
      assert (VE : forall i j, i < ch -> j < nu -> V i j = dvar z (ph * nx + (i * nu + j))) by (intros i j Hi Hj; unfold V, u_traj, in_traj, v_input; rewrite Uu by exact Hj; replace (held d i) with i by (unfold held; lia); ring).
      refine (conj _ (conj _ _)).
      + intros k j Hk Hj. rewrite G2, <- ZE by assumption. destruct (B1 k j Hk Hj) as [-> ->]. destruct (B1 (Nat.min (k + 1) (ph - 1)) j ltac:(lia) Hj) as [<- <-].
        pose proof (F3 (Nat.min (k + 1) (ph - 1)) j ltac:(lia) Hj) as W. rewrite (Nat.add_1_r (Nat.min _ _)) in W. exact W.
      + intros k j Hk Hj. rewrite G3, <- VE by (assumption || lia). destruct (B2 k j Hk Hj) as [-> ->]. destruct (B2 (Nat.min (k + 1) (ch - 1)) j ltac:(lia) Hj) as [<- <-].
        apply F4; [lia|exact Hj].
      + unfold v_slack in *. rewrite G4. exact Sl.
  Qed.

  (** recursive feasibility: same bounds at every step, a model that does not look at the step index; if the state one step behind the horizon is within the bounds
      and the user's constraints hold along the moved plan, then the problem of the next period is feasible *)
  Theorem C77_recursive_feasibility s h f x0 u0 z code cost s1 res x1 u1 : reached s h -> gm x0 nx 1 -> gm u0 nu 1 -> gm x1 nx 1 ->
    unit_scales d (cf h) -> all_accepted (cf h) -> k_dyn (cf h) = Some f -> k_ts (cf h) = None -> autonomous f -> nl_uniform d (cf h) ->
    nlp_feasible d exactly (call s x0 u0) z -> step s (NOptimize x0 u0 (NSolved (dvar z) code cost)) = Ok (s1, RResult res) ->
    (forall j, j < nx -> vec x1 j = f (comps nx (vec x0)) (comps nu (vec (r_cmd res))) 0 j) ->
    let X := x_traj d (cf h) x0 (dvar z) in let U := u_traj d (cf h) (dvar z) in
    (forall j, j < nx -> within (k_xlo (cf h) 0 j) (k_xhi (cf h) 0 j) (f (comps nx (X ph)) (comps nu (U ph)) 0 j)) ->
    user_constraints d ni ne (cf h) (moved_x d f X U) (moved_u d U) ->
    exists z', nlp_feasible d exactly (call s1 x1 u1) z'.
  Proof using C0 C SM SL.
    intros R0 X0 U0 X1 Un Ac Hd Ht Au [B1 B2] Hf E Ex Z V Tm [Ui Ue]. destruct (unit_nz d _ Un) as [Sc Su].
    destruct (first_facts s h f x0 u0 z R0 X0 Un Ac Hd Ht Hf) as (Sl & F1 & F2 & F3 & F4 & F5). fold Z V in F1, F2, F3, F4, F5.
    destruct (seq_is junk d ni ne dyn_eq C0 C s h _ _ _ code cost s1 _ R0 X0 Sc E) as [Q1 Q2]. fold Z V in Q1, Q2. destruct Un as [Ux Uu].
    set (h' := h ++ [(NOptimize x0 u0 (NSolved (dvar z) code cost), RResult res)]).
    assert (R1 : reached s1 h') by (eapply nreached_snoc; [exact R0|exact (conj X0 U0)|exact E]).
    destruct (k_same h x0 u0 (NSolved (dvar z) code cost) res) as (K1 & K2 & K3 & K4 & K5 & K6 & K7 & K8 & K9 & K10 & K11 & K12 & K13 & K14 & K15). fold h' in K1, K2, K3, K4, K5, K6, K7, K8, K9, K10, K11, K12, K13, K14, K15.
    assert (P : 0 < ph) by lia.
    assert (A : nl_admissible d ni ne (cf h') x1 exactly (moved_x d f Z V) (moved_u d V)).
    { apply (proj2 (C53_unit_scales d ni ne (cf h') x1 _ _ ltac:(rewrite K1; exact Ux) ltac:(rewrite K2; exact Uu))). rewrite K3, K4, K5, K6, K7, K8, K9, K10, K11, Ht.
      refine (conj _ (conj _ (conj _ (conj _ (conj _ (conj Ui Ue)))))).
      - intros j Hj. unfold moved_x. destruct (Nat.ltb_spec 0 ph); [|lia]. rewrite Ex, F5 by (exact P || exact Hj).
        symmetry. apply autonomous_at; [exact Au| |]; apply comps_ext; intros l Hl; [rewrite F1; auto|auto].
      - intros i j Hi Hj. unfold moved_u. rewrite (F2 (Nat.min (S i) ph) j), (F2 (Nat.min (S (held d i)) ph) j) by (exact Hj || lia). f_equal. unfold held. lia.
      - intros k j Hk Hj. destruct (B1 k j Hk Hj) as [-> ->]. unfold moved_x. destruct (Nat.ltb_spec (k + 1) ph).
        + destruct (B1 (k + 1) j ltac:(lia) Hj) as [<- <-]. pose proof (F3 (k + 1) j ltac:(lia) Hj) as W. rewrite (Nat.add_1_r (k + 1)) in W. exact W.
        + auto.
      - intros k j Hk Hj. destruct (B2 k j Hk Hj) as [-> ->]. unfold moved_u. rewrite F2 by (exact Hj || lia). destruct (B2 (held d (Nat.min (S k) ph)) j ltac:(unfold held; lia) Hj) as [<- <-].
        apply F4; [unfold held; lia|exact Hj].
      - intros f' Hf' i l Hi Hl. rewrite Hd in Hf'. injection Hf' as <-. unfold predicted.
        assert (Er : traj_row nx (moved_x d f Z V) i = traj_row nx Z (S i)) by (apply row_ext; intros j Hj; unfold moved_x; destruct (Nat.ltb_spec i ph); [reflexivity|lia]).
        assert (Eu : traj_row nu (moved_u d V) i = traj_row nu V (S i)) by (apply row_ext; intros j Hj; unfold moved_u; f_equal; lia).
        rewrite Er, Eu. unfold moved_x. destruct (Nat.ltb_spec (S i) ph).
        + rewrite F5 by (exact Hl || lia). apply Au.
        + replace (S i) with ph by lia. apply Au. }
    assert (Sc' : scaled d (cf h')) by (unfold scaled; rewrite K1; exact Sc). assert (Su' : forall j, j < nu -> k_su (cf h') j <> s0) by (rewrite K2; exact Su).
    assert (Ac' : all_accepted (cf h')) by (unfold all_accepted; rewrite K3, K9, K10, K12, K13, K14; exact Ac).
    exists (dec_of d (cf h') (moved_x d f Z V) (moved_u d V)). apply (C53_feasible_iff junk d ni ne dyn_eq C0 C s1 h' x1 u1 exactly _ R1 X1 Sc' Su' Ac').
    refine (conj _ (conj _ _)).
    - apply dec_len.
    - apply (dec_slack d); assumption.
    - apply (adm_ext d ni ne C0 C (cf h') x1 exactly (moved_x d f Z V) (moved_u d V)); [| |exact A].
      + intros i j Hi Hj. symmetry. eapply dec_x; eauto.
      + intros i j Hi Hj. symmetry. eapply dec_u; eauto.
  Qed.
End NNext.

(** *** Instances *)
Section Play.
  Variables (d : dims) (ni ne : nat) (plant : list Qc -> list Qc -> nat -> Qc).
  Notation run := (nl_control_run qj d ni ne false plant).
  Definition no_optimize (op : nop Qc) : bool := match op with NOptimize _ _ _ => false | _ => true end.
  Lemma nrun_play ops : forall s s' h h' x u ps, run s h x u ps -> Forall (nop_sized d) ops -> forallb no_optimize ops = true ->
    n_play qj d ni ne false s ops = Ok (s', h') -> run s' (h ++ h') x u ps.
  Proof.
    induction ops as [|op ops IH]; intros s s' h h' x u ps H Hs Hn E.
    - injection E as <- <-. now rewrite app_nil_r.
    - cbn [forallb] in Hn. apply andb_true_iff in Hn. destruct Hn as [N Hn]. inversion Hs as [|? ? S1 S2]; subst. cbn [n_play] in E.
      destruct (n_step qj d ni ne false s op) as [[s1 r1]|] eqn:E1; [|discriminate E]. destruct (n_play qj d ni ne false s1 ops) as [[s2 h2]|] eqn:E2; [|discriminate E]. injection E as <- <-.
      replace (h ++ (op, r1) :: h2) with ((h ++ [(op, r1)]) ++ h2) by (now rewrite <- app_assoc).
      eapply IH; try eassumption. eapply nrun_call; try eassumption. intros x0 u0 a ->. discriminate N.
  Qed.
  Lemma nw_run ops x u : gm x (d_nx d) 1 -> gm u (d_nu d) 1 -> Forall (nop_sized d) ops -> forallb no_optimize ops = true ->
    is_ok (n_life qj d ni ne false ops) = true -> run (nS d ni ne ops) (nH d ni ne ops) x u [].
  Proof.
    intros X U Hs Hn E. unfold nS, nH. destruct (n_life qj d ni ne false ops) as [[s h]|] eqn:E1; [|discriminate E]. unfold n_life in E1. destruct (n_new d) as [s1|] eqn:En; [|discriminate E1].
    exact (nrun_play ops _ _ [] _ _ _ _ (nrun_start qj d ni ne false plant s1 x u En X U) Hs Hn E1).
  Qed.
  Definition after (x u : mat Qc) : mat Qc := mkMat (d_nx d) 1 (fun j _ => plant (comps (d_nx d) (vec x)) (comps (d_nu d) (vec u)) j) true.
  Lemma next_period s h x u ps a s' res : run s h x u ps -> n_step qj d ni ne false s (NOptimize x u a) = Ok (s', RResult res) ->
    run s' (h ++ [(NOptimize x u a, RResult res)]) (after x (r_cmd res)) (r_cmd res)
      (ps ++ [mkNPeriod (ncfg_run d ni ne h) x u (n_call qj d ni ne s x u) a res (n_seq s') (after x (r_cmd res))]).
  Proof. intros H E. eapply nrun_period; try eassumption; [split; [reflexivity|split; reflexivity]|reflexivity]. Qed.
End Play.

(** double integrator, unit scales, bounds 20 on the states, 3 on the command, warm start; from (1, 2) the commands -1, -1, -1 lead through (3, 1), (4, 0) to (4, -1) *)
Definition v_ops : list (nop Qc) := [NSetObjective n_J true; NSetDynamics n_f (q 0) true; NSetStateBounds (qe [-20; -20]%Z) (qe [20; 20]%Z) (mkSlice (-1) (-1));
  NSetInputBounds (qe [-3]%Z) (qe [3]%Z) (mkSlice (-1) (-1)); NSetParams (NPNonLinear (mkNP 50 (q 9) true (q 1) (q 1) (q 1) (q 1) true))].
Definition v_h := nH nd 0 0 v_ops.
Definition v_s := nS nd 0 0 v_ops.
Definition v_c : ncfg Qc := ncfg_run nd 0 0 v_h.
Definition v_z : list Qc := map q [3; 1; 4; 0; 4; -1; -1; -1; 0]%Z.
Definition v_plant (x u : list Qc) (j : nat) : Qc := n_f x u 0 j.
Lemma v_reached : nreached qj nd 0 0 false v_s v_h. Proof. n_reach. Qed.
Lemma qeq (a b : Qc) : sleb a b && sleb b a = true -> a = b.
Proof. intros H. apply andb_true_iff in H as [H1 H2]. now apply s_le_antisym. Qed.
Lemma v_unit : unit_scales nd v_c.
Proof. split; intros j Hj; [destruct j as [|[|j]]; [| |cbn in Hj; lia]|destruct j as [|j]; [|cbn in Hj; lia]]; apply qeq; vm_compute; reflexivity. Qed.
Lemma v_acc : all_accepted v_c.
Proof.
  refine (conj _ (conj _ (conj _ _))); intros K; [apply con_in_ok; vm_compute; reflexivity| | |vm_compute; reflexivity]; exfalso; apply K; reflexivity.
Qed.
Lemma v_funs : k_dyn v_c = Some n_f /\ k_ts v_c = None /\ k_ieq v_c = None /\ k_eqc v_c = None /\ k_warm v_c = true.
Proof. repeat apply conj; reflexivity. Qed.
Lemma v_aut : autonomous n_f. Proof. intros x u k k' l. reflexivity. Qed.
Lemma v_uniform : nl_uniform nd v_c.
Proof.
  split; intros k j Hk Hj.
  - destruct k as [|[|[|k]]]; [| | |cbn in Hk; lia]; (destruct j as [|[|j]]; [| |cbn in Hj; lia]); split; reflexivity.
  - destruct k as [|[|k]]; [| |cbn in Hk; lia]; (destruct j as [|j]; [|cbn in Hj; lia]); split; reflexivity.
Qed.
Lemma v_feasible : nlp_feasible nd exactly (n_call qj nd 0 0 v_s n_x0 n_u0) v_z.
Proof.
  destruct (unit_nz nd v_c v_unit) as [Sc Su].
  apply (C53_feasible_iff qj nd 0 0 false nd_ch nd_ph v_s v_h n_x0 n_u0 exactly v_z v_reached ltac:(repeat split) Sc Su v_acc).
  refine (conj eq_refl (conj _ _)); [apply qeq; vm_compute; reflexivity|]. destruct v_unit as [Ux Uu].
  apply (proj2 (C53_unit_scales nd 0 0 v_c n_x0 _ _ Ux Uu)). destruct v_funs as (K1 & K2 & K3 & K4 & _).
  refine (conj _ (conj _ (conj _ (conj _ (conj _ (conj _ _)))))).
  - intros j Hj. destruct j as [|[|j]]; [| |cbn in Hj; lia]; apply qeq; vm_compute; reflexivity.
  - intros i j Hi Hj. destruct i as [|[|[|[|i]]]]; [| | | |cbn in Hi; lia]; (destruct j as [|j]; [|cbn in Hj; lia]); apply qeq; vm_compute; reflexivity.
  - intros k j Hk Hj. destruct k as [|[|[|k]]]; [| | |cbn in Hk; lia]; (destruct j as [|[|j]]; [| |cbn in Hj; lia]); apply within_dec_true; vm_compute; reflexivity.
  - intros k j Hk Hj. destruct k as [|[|k]]; [| |cbn in Hk; lia]; (destruct j as [|j]; [|cbn in Hj; lia]); apply within_dec_true; vm_compute; reflexivity.
  - intros f Hf i l Hi Hl. rewrite K1 in Hf. injection Hf as <-. destruct i as [|[|[|i]]]; [| | |cbn in Hi; lia]; (destruct l as [|[|l]]; [| |cbn in Hl; lia]); apply qeq; vm_compute; reflexivity.
  - intros f Hf. rewrite K3 in Hf. discriminate Hf.
  - intros f Hf. rewrite K4 in Hf. discriminate Hf.
Qed.
Lemma v_run : nl_control_run qj nd 0 0 false v_plant v_s v_h n_x0 n_u0 [].
Proof. exact (nw_run nd 0 0 v_plant v_ops n_x0 n_u0 ltac:(repeat split) ltac:(repeat split) ltac:(all_sized) ltac:(reflexivity) ltac:(vm_compute; reflexivity)). Qed.
(** a solved period, then one in which the solver throws; warm start and recursive feasibility apply to the first *)
Example C77_instance : exists s h x u pe1 pe2, nl_control_run qj nd 0 0 false v_plant s h x u ([pe1] ++ [pe2]) /\ nl_solved nd exactly pe1 /\ nl_failed pe2 /\
  ne_cfg pe1 = v_c /\ unit_scales nd v_c /\ all_accepted v_c /\ k_dyn v_c = Some n_f /\ k_ts v_c = None /\ (forall x u j, n_f x u 0 j = v_plant x u j) /\
  autonomous n_f /\ nl_uniform nd v_c /\ k_warm v_c = true /\ nreached qj nd 0 0 false v_s v_h /\ nlp_feasible nd exactly (n_call qj nd 0 0 v_s n_x0 n_u0) v_z /\
  (forall j, j < 2 -> within (k_xlo v_c 0 j) (k_xhi v_c 0 j) (n_f (comps 2 (x_traj nd v_c n_x0 (dvar v_z) 3)) (comps 1 (u_traj nd v_c (dvar v_z) 3)) 0 j)) /\
  user_constraints nd 0 0 v_c (moved_x nd n_f (x_traj nd v_c n_x0 (dvar v_z)) (u_traj nd v_c (dvar v_z))) (moved_u nd (u_traj nd v_c (dvar v_z))).
Proof.
  pose proof v_run as R0.
  destruct (is_res_ok (n_step qj nd 0 0 false v_s (NOptimize n_x0 n_u0 (NSolved (dvar v_z) 1 (Fin (q 3))))) ltac:(vm_compute; reflexivity)) as (s1 & r1 & E1).
  pose proof (next_period nd 0 0 v_plant _ _ _ _ _ _ _ _ R0 E1) as R1.
  destruct (nrun_reached qj nd 0 0 false v_plant nd_ch nd_ph _ _ _ _ _ R1) as (H1 & X1 & U1).
  destruct (C31_solver_failure qj nd 0 0 false s1 _ _ _ nd_ch nd_ph H1 (conj X1 U1)) as (s2 & r2 & E2 & _).
  pose proof (next_period nd 0 0 v_plant _ _ _ _ _ _ _ _ R1 E2) as R2. cbn [app] in R2 |- *.
  eexists _, _, _, _, _, _. destruct v_funs as (K1 & K2 & K3 & K4 & K5).
  refine (conj R2 (conj _ (conj eq_refl (conj eq_refl (conj v_unit (conj v_acc (conj K1 (conj K2 (conj _ (conj v_aut (conj v_uniform (conj K5 (conj v_reached (conj v_feasible (conj _ _))))))))))))))).
  - exists v_z, 1%Z, (Fin (q 3)). exact (conj eq_refl v_feasible).
  - reflexivity.
  - intros j Hj. destruct j as [|[|j]]; [| |lia]; apply within_dec_true; vm_compute; reflexivity.
  - split; intros f Hf; [rewrite K3 in Hf|rewrite K4 in Hf]; discriminate Hf.
Qed.

(** refuted for scaled states: "the plant reaches the predicted state".  State scale (2, 5): the plan starts at (2, 10) instead of (1, 2) (C22) *)
Theorem C77_scaled_prediction_refuted :
  ~ (forall d ni ne s h (x u : mat Qc) ps pe f, 0 < d_ch d -> d_ch d <= d_ph d -> nl_control_run qj d ni ne false (fun x u j => f x u 0 j) s h x u ps -> In pe ps -> nl_solved d exactly pe ->
       scaled d (ne_cfg pe) -> (forall j, j < d_nu d -> k_su (ne_cfg pe) j <> s0) -> all_accepted (ne_cfg pe) -> k_dyn (ne_cfg pe) = Some f -> k_ts (ne_cfg pe) = None -> autonomous f ->
       forall j, j < d_nx d -> vec (ne_next pe) j = ent (q_state (ne_seq pe)) 1 j).
Proof.
  intros H. set (z := dec_of nd o_c o_X o_U).
  assert (Hf : nlp_feasible nd exactly (n_call qj nd 2 1 (nS nd 2 1 o_ops) n_x0 n_u0) z).
  { apply (C53_feasible_iff qj nd 2 1 false nd_ch nd_ph _ o_h n_x0 n_u0 exactly z o_reached ltac:(repeat split) o_scaled o_su o_acc).
    refine (conj (dec_len _ _ _ _) (conj (dec_slack nd nd_ch nd_ph o_c o_X o_U) _)). apply (adm_ext nd 2 1 nd_ch nd_ph o_c n_x0 exactly o_X o_U); [| |exact o_adm].
    - intros i j Hi Hj. symmetry. eapply dec_x; eauto using nd_ch, nd_ph, o_scaled, o_adm.
    - intros i j Hi Hj. symmetry. eapply dec_u; eauto using nd_ch, nd_ph, o_su, o_adm. }
  pose proof (nw_run nd 2 1 v_plant o_ops n_x0 n_u0 ltac:(repeat split) ltac:(repeat split) ltac:(all_sized) ltac:(reflexivity) ltac:(vm_compute; reflexivity)) as R0.
  pose proof (nreached_NR qj nd 2 1 false nd_ch nd_ph _ _ o_reached) as HN.
  assert (E : exists s1 r1, n_step qj nd 2 1 false (nS nd 2 1 o_ops) (NOptimize n_x0 n_u0 (NSolved (dvar z) 4 (Fin (q 3)))) = Ok (s1, RResult r1)).
  { eexists _, _. cbn [n_step]. rewrite (run_solved qj nd 2 1 nd_ch nd_ph _ _ n_x0 n_u0 (dvar z) 4 (Fin (q 3)) HN ltac:(repeat split) ltac:(intros; lia)). reflexivity. }
  destruct E as (s1 & r1 & E1). pose proof (next_period nd 2 1 v_plant _ _ _ _ _ _ _ _ R0 E1) as R1. cbn [app] in R1.
  assert (G0 : gm n_x0 (d_nx nd) 1) by (repeat split).
  destruct (seq_is qj nd 2 1 false nd_ch nd_ph _ o_h _ _ _ _ _ s1 r1 o_reached G0 o_scaled E1) as [Q1 Q2].
  specialize (H nd 2 1 _ _ _ _ _ _ n_f nd_ch nd_ph R1 (or_introl eq_refl)). cbn [ne_cfg ne_next ne_seq] in H.
  specialize (H ltac:(exists z, 4%Z, (Fin (q 3)); exact (conj eq_refl Hf)) o_scaled o_su o_acc eq_refl eq_refl v_aut 0 ltac:(cbn; lia)).
  rewrite Q1 in H by (cbn; lia). unfold z in H.
  pose proof (eq_trans H (dec_x nd 2 1 nd_ch nd_ph o_c n_x0 exactly o_X o_U 1 0 o_scaled o_adm ltac:(cbn; lia) ltac:(cbn; lia))) as H'. clear H. rename H' into H.
  apply (f_equal (fun v => sleb v (q 4))) in H. vm_compute in H. discriminate H.
Qed.

(** refuted: "every command is within the configured input bounds": bounds 1 <= u <= 2; the solver throws in the first period: the command is 0 *)
Definition c12_ops : list (nop Qc) := [NSetObjective n_J true; NSetDynamics n_f (q 0) true; NSetInputBounds (qe [1]%Z) (qe [2]%Z) (mkSlice (-1) (-1))].
Theorem C77_commands_within_refuted :
  ~ (forall d ni ne plant s h (x u : mat Qc) ps pe, 0 < d_ch d -> d_ch d <= d_ph d -> nl_control_run qj d ni ne false plant s h x u ps -> In pe ps -> nl_solved d exactly pe \/ nl_failed pe ->
       unit_scales d (ne_cfg pe) -> all_accepted (ne_cfg pe) -> nl_uniform d (ne_cfg pe) ->
       forall j, j < d_nu d -> within (k_ulo (ne_cfg pe) 0 j) (k_uhi (ne_cfg pe) 0 j) (vec (r_cmd (ne_res pe)) j)).
Proof.
  intros H.
  pose proof (nw_run nd 0 0 v_plant c12_ops n_x0 n_u0 ltac:(repeat split) ltac:(repeat split) ltac:(all_sized) ltac:(reflexivity) ltac:(vm_compute; reflexivity)) as R0.
  destruct (nrun_reached qj nd 0 0 false v_plant nd_ch nd_ph _ _ _ _ _ R0) as (H1 & X1 & U1).
  destruct (C31_solver_failure qj nd 0 0 false _ _ _ _ nd_ch nd_ph H1 (conj X1 U1)) as (s2 & r2 & E2 & _).
  pose proof (next_period nd 0 0 v_plant _ _ _ _ _ _ _ _ R0 E2) as R1. cbn [app] in R1.
  pose proof (C77_failed_period qj nd 0 0 false v_plant nd_ch nd_ph _ _ _ _ [] _ [] R1 eq_refl 0 ltac:(cbn; lia)) as Z. cbn [ne_res rev app] in Z.
  specialize (H nd 0 0 v_plant _ _ _ _ _ _ nd_ch nd_ph R1 (or_introl eq_refl) (or_intror eq_refl)). cbn [ne_cfg ne_res] in H.
  set (c := ncfg_run nd 0 0 (nH nd 0 0 c12_ops)) in *.
  refine (within_dec_false (k_ulo c 0 0) (k_uhi c 0 0) (q 0) _ _); [vm_compute; reflexivity|].
  replace (q 0) with (vec (r_cmd r2) 0) by (rewrite Z; apply qeq; vm_compute; reflexivity). apply H; [| | |cbn; lia].
  - split; intros j Hj; [destruct j as [|[|j]]; [| |cbn in Hj; lia]|destruct j as [|j]; [|cbn in Hj; lia]]; apply qeq; vm_compute; reflexivity.
  - refine (conj _ (conj _ (conj _ _))); intros K; [apply con_in_ok; vm_compute; reflexivity| | |vm_compute; reflexivity]; exfalso; apply K; reflexivity.
  - split; intros k j Hk Hj.
    + destruct k as [|[|[|k]]]; [| | |cbn in Hk; lia]; (destruct j as [|[|j]]; [| |cbn in Hj; lia]); split; reflexivity.
    + destruct k as [|[|k]]; [| |cbn in Hk; lia]; (destruct j as [|j]; [|cbn in Hj; lia]); split; reflexivity.
Qed.

(** refuted: "once feasible, always feasible": one state, horizon 1, x+ = 2 x + u, |u| <= 1, |x| <= 10: from 5 the command 0 is feasible, at 10 nothing is *)
Definition e_d : dims := mkDims 1 1 0 1 1 1.
Definition e_f : dyn_t Qc := fun x u k l => (q 2 * nth 0 x (q 0) + nth 0 u (q 0))%S.
Definition e_ops : list (nop Qc) := [NSetDynamics e_f (q 0) true; NSetStateBounds (qe [-10]%Z) (qe [10]%Z) (mkSlice (-1) (-1)); NSetInputBounds (qe [-1]%Z) (qe [1]%Z) (mkSlice (-1) (-1))].
Definition e_h := nH e_d 0 0 e_ops.
Definition e_s := nS e_d 0 0 e_ops.
Definition e_c : ncfg Qc := ncfg_run e_d 0 0 e_h.
Definition e_z : list Qc := map q [10; 0; 0]%Z.
Lemma e_ch : 0 < d_ch e_d. Proof. cbn. lia. Qed.
Lemma e_ph : d_ch e_d <= d_ph e_d. Proof. cbn. lia. Qed.
Lemma e_reached : nreached qj e_d 0 0 false e_s e_h. Proof. n_reach. Qed.
Lemma e_unit : unit_scales e_d e_c.
Proof. split; intros j Hj; (destruct j as [|j]; [|cbn in Hj; lia]); apply qeq; vm_compute; reflexivity. Qed.
Lemma e_acc : all_accepted e_c.
Proof. refine (conj _ (conj _ (conj _ _))); intros K; [apply con_in_ok; vm_compute; reflexivity| | |]; exfalso; apply K; reflexivity. Qed.
Lemma e_feasible : nlp_feasible e_d exactly (n_call qj e_d 0 0 e_s (qv [5]%Z) (qv [0]%Z)) e_z.
Proof.
  destruct (unit_nz e_d e_c e_unit) as [Sc Su].
  apply (C53_feasible_iff qj e_d 0 0 false e_ch e_ph e_s e_h (qv [5]%Z) (qv [0]%Z) exactly e_z e_reached ltac:(repeat split) Sc Su e_acc).
  refine (conj eq_refl (conj _ _)); [apply qeq; vm_compute; reflexivity|]. destruct e_unit as [Ux Uu].
  apply (proj2 (C53_unit_scales e_d 0 0 e_c (qv [5]%Z) _ _ Ux Uu)).
  refine (conj _ (conj _ (conj _ (conj _ (conj _ (conj _ _)))))).
  - intros j Hj. destruct j as [|j]; [|cbn in Hj; lia]; apply qeq; vm_compute; reflexivity.
  - intros i j Hi Hj. destruct i as [|[|i]]; [| |cbn in Hi; lia]; (destruct j as [|j]; [|cbn in Hj; lia]); apply qeq; vm_compute; reflexivity.
  - intros k j Hk Hj. destruct k as [|k]; [|cbn in Hk; lia]; (destruct j as [|j]; [|cbn in Hj; lia]); apply within_dec_true; vm_compute; reflexivity.
  - intros k j Hk Hj. destruct k as [|k]; [|cbn in Hk; lia]; (destruct j as [|j]; [|cbn in Hj; lia]); apply within_dec_true; vm_compute; reflexivity.
  - intros f Hf i l Hi Hl. change (k_dyn e_c) with (Some e_f) in Hf. injection Hf as <-. destruct i as [|i]; [|cbn in Hi; lia]; (destruct l as [|l]; [|cbn in Hl; lia]); apply qeq; vm_compute; reflexivity.
  - intros f Hf. change (k_ieq e_c) with (None : option (ieq_t Qc)) in Hf. discriminate Hf.
  - intros f Hf. change (k_eqc e_c) with (None : option (eqc_t Qc)) in Hf. discriminate Hf.
Qed.
Theorem C77_recursive_feasibility_refuted :
  ~ (forall d ni ne s h f (x0 u0 : mat Qc) z code cost s1 res (x1 u1 : mat Qc), 0 < d_ch d -> d_ch d <= d_ph d -> nreached qj d ni ne false s h -> gm x0 (d_nx d) 1 -> gm u0 (d_nu d) 1 -> gm x1 (d_nx d) 1 ->
       unit_scales d (ncfg_run d ni ne h) -> all_accepted (ncfg_run d ni ne h) -> k_dyn (ncfg_run d ni ne h) = Some f -> k_ts (ncfg_run d ni ne h) = None -> autonomous f -> nl_uniform d (ncfg_run d ni ne h) ->
       nlp_feasible d exactly (n_call qj d ni ne s x0 u0) z -> n_step qj d ni ne false s (NOptimize x0 u0 (NSolved (dvar z) code cost)) = Ok (s1, RResult res) ->
       (forall j, j < d_nx d -> vec x1 j = f (comps (d_nx d) (vec x0)) (comps (d_nu d) (vec (r_cmd res))) 0 j) ->
       exists z', nlp_feasible d exactly (n_call qj d ni ne s1 x1 u1) z').
Proof.
  intros H. destruct (is_res_ok (n_step qj e_d 0 0 false e_s (NOptimize (qv [5]%Z) (qv [0]%Z) (NSolved (dvar e_z) 1 (Fin (q 3))))) ltac:(vm_compute; reflexivity)) as (s1 & r1 & E1).
  destruct (unit_nz e_d e_c e_unit) as [Sc Su].
  assert (G0 : gm (qv [5]%Z) (d_nx e_d) 1) by (repeat split).
  destruct (seq_is qj e_d 0 0 false e_ch e_ph _ e_h _ _ _ _ _ s1 r1 e_reached G0 Sc E1) as [_ Q2].
  assert (C1 : vec (r_cmd r1) 0 = q 0) by (rewrite Q2 by (cbn; lia); apply qeq; vm_compute; reflexivity).
  destruct (H e_d 0 0 e_s e_h e_f (qv [5]%Z) (qv [0]%Z) e_z 1%Z (Fin (q 3)) s1 r1 (qv [10]%Z) (qv [0]%Z) e_ch e_ph e_reached ltac:(repeat split) ltac:(repeat split) ltac:(repeat split) e_unit e_acc eq_refl eq_refl) as [z' Hz].
  - intros x u k k' l. reflexivity.
  - split; intros k j Hk Hj; (destruct k as [|k]; [|cbn in Hk; lia]); (destruct j as [|j]; [|cbn in Hj; lia]); split; reflexivity.
  - exact e_feasible.
  - exact E1.
  - intros j Hj. destruct j as [|j]; [|cbn in Hj; lia]. unfold e_f, comps. cbn [d_nx d_nu e_d seq map nth]. rewrite C1. apply qeq. vm_compute. reflexivity.
  - assert (Sz : nop_sized e_d (NOptimize (qv [5]%Z) (qv [0]%Z) (NSolved (dvar e_z) 1 (Fin (q 3))))) by (repeat split).
    pose proof (nreached_snoc qj e_d 0 0 false e_s e_h _ _ _ e_reached Sz E1) as R1. set (h' := e_h ++ _) in R1.
    destruct (k_same e_d 0 0 e_h (qv [5]%Z) (qv [0]%Z) (NSolved (dvar e_z) 1 (Fin (q 3))) r1) as (K1 & K2 & K3 & K4 & K5 & K6 & K7 & K8 & K9 & K10 & K11 & K12 & K13 & K14 & K15).
    fold h' in K1, K2, K3, K4, K5, K6, K7, K8, K9, K10, K12, K13, K14. destruct e_unit as [Ux Uu].
    assert (Un' : unit_scales e_d (ncfg_run e_d 0 0 h')) by (split; [rewrite K1; exact Ux|rewrite K2; exact Uu]).
    assert (Ac' : all_accepted (ncfg_run e_d 0 0 h')) by (unfold all_accepted; rewrite K3, K9, K10, K12, K13, K14; exact e_acc).
    destruct (first_facts qj e_d 0 0 false e_ch e_ph s1 h' e_f (qv [10]%Z) (qv [0]%Z) z' R1 ltac:(repeat split) Un' Ac' ltac:(rewrite K3; reflexivity) ltac:(rewrite K4; reflexivity) Hz) as (_ & F1 & _ & F3 & F4 & F5).
    clear H Hz Q2. clearbody h'. set (X := x_traj e_d _ _ _) in *. set (U := u_traj e_d _ _) in *. clearbody X U.
    pose proof (F5 0 0 ltac:(cbn; lia) ltac:(cbn; lia)) as T. pose proof (F1 0 ltac:(cbn; lia)) as T0. destruct (F3 0 0 ltac:(cbn; lia) ltac:(cbn; lia)) as [_ W]. destruct (F4 0 0 ltac:(cbn; lia) ltac:(cbn; lia)) as [V _].
    rewrite K6 in W. rewrite K7 in V. assert (W' : (X 1%nat 0%nat <= q 10)%S) by exact W. assert (V' : (q (-1) <= U 0%nat 0%nat)%S) by exact V.
    unfold e_f, traj_row in T. cbn [d_nx d_nu e_d seq map nth] in T. rewrite T0 in T. rewrite T in W'.
    replace (q 2 * vec (qv [10%Z]) 0)%S with (q 20) in W' by (apply qeq; vm_compute; reflexivity).
    pose proof (sle_trans _ _ _ (sle_add _ _ _ _ (s_le_refl (q 20)) V') W') as K. revert K. vm_compute. discriminate.
Qed.
