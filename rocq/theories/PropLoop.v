(** Property C76: the linear controller in closed loop with the plant it was given. *)
From Coq Require Import Bool Arith ZArith List Lia QArith Qcanon Ring Field.
From Verif Require Import Scalar Sums Mat Slice Csc CscProof Builder BuilderEnt LMPC SpecLMPC SpecQP SpecCert LMPCRef LQP LRows LUniq Wit PropLMPC1 PropLMPC2 PropLMPC3 PropLMPC4 PropLMPC5 SpecLoop.
From Verif Require PropWorld NLSlope2.
Import ListNotations.
Local Open Scope nat_scope.

Section Loop.
  Context {F : Type} {SO : ScalarOps F} {SL : ScalarLaws F}.
  Add Field SFloop : (@s_field F SO SL).
  Variables (junk : nat -> nat -> F) (ejunk : nat -> nat -> ext F) (d : dims).
  Notation nx := (d_nx d). Notation nu := (d_nu d). Notation ndu := (d_ndu d).
  Notation ny := (d_ny d). Notation ph := (d_ph d). Notation ch := (d_ch d).
  Notation reached := (SpecLMPC.reached junk ejunk d).
  Notation step := (l_step junk ejunk d).
  Notation run := (control_run junk ejunk d).
  Implicit Types (s : lmpc F) (h : list (lop F * ret F)) (p : plant F) (z : nat -> F).

  Lemma rf_sum (a b w e : F) : (s0 + a * b + (s0 + s1 * w) + (s0 + s0 * e) = a * b + w)%S.
  Proof. ring. Qed.
  Lemma start_reached : reached (l_init junk ejunk d) [].
  Proof. exists []. repeat split; constructor. Qed.
  Lemma cmd_sized s h : 0 < ph -> reached s h -> sized (r_cmd (o_res (l_o s))) nu 1.
  Proof. intros P H. pose proof (reached_R _ _ _ _ _ P H) as HR. destruct (ro_seq _ _ _ (r_o _ _ _ _ _ HR)) as (_ & _ & _ & Q4). exact Q4. Qed.
  Lemma step_res s x u a s' res : step s (LOptimize x u a) = Ok (s', RResult res) -> o_res (l_o s') = res.
  Proof. intros E. exact (PropWorld.l_res junk ejunk d s _ s' _ E). Qed.
  Lemma step_keep s op s' r : (forall x0 u0 a, op <> LOptimize x0 u0 a) -> step s op = Ok (s', r) -> o_res (l_o s') = o_res (l_o s).
  Proof.
    intros N E. pose proof (PropWorld.l_res junk ejunk d s op s' r E) as K. destruct r; try exact K. exfalso.
    destruct op; try (now destruct (N x0 u0 a)); cbn [l_step] in E;
      try (unfold finish in E; match type of E with (if ?b then _ else _) = _ => destruct b end; [|discriminate E]; injection E as _ E; discriminate E);
      try (apply PropWorld.on_slice_res in E; [destruct E as [E1 [b E]]; discriminate E|intros; reflexivity|intros; reflexivity]);
      try (injection E as _ E; discriminate E).
    - destruct (N.of_nat (d_ph d) <=? index)%N; [injection E as _ E; discriminate E|]. unfold finish in E. match type of E with (if ?b then _ else _) = _ => destruct b end; [|discriminate E]. injection E as _ E. discriminate E.
    - destruct p; [|discriminate E]. injection E as _ E. discriminate E.
  Qed.
  (** a run ends in a reached object; the state and the command are vectors *)
  Lemma run_reached s h x u ps : 0 < ph -> run s h x u ps -> reached s h /\ sized x nx 1 /\ sized u nu 1.
  Proof.
    intros P H. induction H as [x u X U|s h x u ps op s' r H IH Hs Hp N E|s h x u ps p a s' res x' H IH Hp E X' EN].
    - refine (conj start_reached (conj X U)).
    - destruct IH as (R0 & X & U). refine (conj _ (conj X U)). eapply reached_snoc; eassumption.
    - destruct IH as (R0 & X & U). assert (R1 : reached s' (h ++ [(LOptimize x u a, RResult res)])) by (eapply reached_snoc; [exact R0|exact (conj X U)|exact I|exact E]).
      refine (conj R1 (conj X' _)). rewrite <- (step_res _ _ _ _ _ _ E). eapply cmd_sized; eassumption.
  Qed.
  (** the period's record, unfolded *)
  Lemma run_in s h x u ps pe : 0 < ph -> run s h x u ps -> In pe ps -> exists s0 h0 s1,
    reached s0 h0 /\ sized (pe_x pe) nx 1 /\ sized (pe_u pe) nu 1 /\ pe_cfg pe = cfg_run h0 /\ g_plant (cfg_run h0) = Some (pe_plant pe) /\
    pe_call pe = l_call d s0 (pe_x pe) (pe_u pe) /\ step s0 (LOptimize (pe_x pe) (pe_u pe) (pe_ans pe)) = Ok (s1, RResult (pe_res pe)) /\ pe_seq pe = o_seq (l_o s1) /\
    (forall j, j < nx -> vec (pe_next pe) j = next_state d (pe_plant pe) (pe_cfg pe) 0 (vec (pe_x pe)) (vec (r_cmd (pe_res pe))) j).
  Proof.
    intros P H. induction H as [x u X U|s h x u ps op s' r H IH Hs Hp N E|s h x u ps p a s' res x' H IH Hp E X' EN]; intros I; [destruct I|auto|].
    apply in_app_or in I. destruct I as [I|[<-|[]]]; [auto|]. destruct (run_reached _ _ _ _ _ P H) as (R0 & X & U).
    exists s, h, s'. cbn [pe_x pe_u pe_cfg pe_plant pe_call pe_ans pe_res pe_seq pe_next]. auto 10.
  Qed.
  Lemma out_first p c (x : nat -> nat -> F) (x1 : nat -> F) j : (forall l, l < nx -> x 1 l = x1 l) -> output d p c x 1 j = out_now d p c 0 x1 j.
  Proof. intros E. unfold output, out_now. cbn [stp Nat.pred]. f_equal. apply ssum_ext. intros l Hl. now rewrite E. Qed.

  (** C76: whenever the solver's answer satisfies its problem, the state the plant reaches is the predicted one and meets the bounds configured for step
      0 (state, output under the same disturbance, scalar constraint), and the command meets those that the code applies to it (step 1, C06) *)
  Theorem C76_solved_periods s h x u ps pe : 0 < ph -> run s h x u ps -> In pe ps -> solved pe ->
    (forall j, j < nx -> vec (pe_next pe) j = ent (q_state (pe_seq pe)) 1 j) /\
    state_allowed d (pe_plant pe) (pe_cfg pe) 0 (vec (pe_next pe)) (vec (r_cmd (pe_res pe))) /\
    (forall j, j < nu -> within (g_ulo (pe_cfg pe) (Nat.min 1 (ph - 1)) j) (g_uhi (pe_cfg pe) (Nat.min 1 (ph - 1)) j) (vec (r_cmd (pe_res pe)) j)).
  Proof.
    intros P H I (z & y & code & obj & Ea & Hf). destruct (run_in _ _ _ _ _ _ P H I) as (s0' & h0 & s1 & R0 & X & U & Ec & Hp & El & E & Es & EN).
    rewrite Ea in E. rewrite El in Hf. destruct (C14_sequences junk ejunk d s0' h0 _ _ _ z y code obj s1 _ P R0 Hp X U E) as (res & Er & A1 & A2 & _ & _ & A5 & _ & _ & _ & A6).
    injection Er as <-. specialize (A6 Hf). destruct A6 as ((T0 & T1) & BX & BY & BU & _ & BS). rewrite <- Es in *. rewrite Ec in *.
    set (X0 := fun k l => ent (q_state (pe_seq pe)) k l) in *. set (U0 := fun k l => ent (q_input (pe_seq pe)) k l) in *.
    assert (N : forall j, j < nx -> X0 1 j = vec (pe_next pe) j).
    { intros j Hj. rewrite EN by exact Hj. unfold next_state. rewrite (T1 0 j P Hj). f_equal; f_equal.
      - apply ssum_ext. intros l Hl. now rewrite T0.
      - apply ssum_ext. intros l Hl. rewrite A5 by exact Hl. reflexivity. }
    refine (conj _ (conj _ _)).
    - intros j Hj. symmetry. exact (N j Hj).
    - refine (conj _ (conj _ _)).
      + intros j Hj. rewrite <- N by exact Hj. exact (BX 1 j P Hj).
      + intros j Hj. rewrite <- (out_first _ _ X0 _ j N). exact (BY 1 j P Hj).
      + specialize (BS 1 P). cbn [stp Nat.pred ucmd] in BS.
        rewrite (ssum_ext nx _ (fun l => (g_sX (cfg_run h0) l * vec (pe_next pe) l)%S)) in BS by (intros; now rewrite N).
        rewrite (ssum_ext nu _ (fun l => (g_sU (cfg_run h0) l * vec (r_cmd (pe_res pe)) l)%S)) in BS by (intros; now rewrite A5). exact BS.
    - intros j Hj. rewrite A5 by exact Hj. exact (BU 1 j P Hj).
  Qed.

  (** the command of a period without a solution is the command of the period before, and the zero command if there was none *)
  Lemma run_cmd s h x u ps : 0 < ph -> run s h x u ps ->
    r_cmd (o_res (l_o s)) = match rev ps with [] => mzero nu 1 | pe :: _ => r_cmd (pe_res pe) end.
  Proof.
    intros P H. induction H as [x u X U|s h x u ps op s' r H IH Hs Hp N E|s h x u ps p a s' res x' H IH Hp E X' EN].
    - reflexivity.
    - now rewrite (step_keep _ _ _ _ N E).
    - rewrite rev_app_distr. cbn [rev app pe_res]. now rewrite (step_res _ _ _ _ _ _ E).
  Qed.
  Theorem C76_failed_period s h x u ps pe qs : 0 < ph -> run s h x u (ps ++ pe :: qs) -> failed pe ->
    forall j, j < nu -> vec (r_cmd (pe_res pe)) j = match rev ps with [] => s0 | pe' :: _ => vec (r_cmd (pe_res pe')) j end.
  Proof.
    intros P H Ff. remember (ps ++ pe :: qs) as l eqn:El. revert qs El.
    induction H as [x u X U|s h x u ps' op s' r H IH Hs Hp N E|s h x u ps' p a s' res x' H IH Hp E X' EN]; intros qs El j Hj.
    - destruct ps; discriminate El.
    - eapply IH; [exact El|exact Hj].
    - destruct qs as [|q0 qs _] using rev_ind.
      + apply app_inj_tail in El. destruct El as [-> <-]. unfold failed in Ff. cbn [pe_ans] in Ff. subst a. cbn [pe_res].
        destruct (run_reached _ _ _ _ _ P H) as (R0 & X & U).
        destruct (C16_no_solution junk ejunk d s h x u s' _ P R0 X U E) as (res' & Er & _ & _ & _ & _ & Ec & _). injection Er as <-. rewrite Ec, (run_cmd _ _ _ _ _ P H).
        destruct (rev ps); reflexivity.
      + replace (ps ++ pe :: qs ++ [q0]) with ((ps ++ pe :: qs) ++ [q0]) in El by (now rewrite <- app_assoc). apply app_inj_tail in El. destruct El as [El _]. eapply IH; [exact El|exact Hj].
  Qed.
  (** hence, with input bounds that never change, from the first solved period on every command is within them, also when the solver fails *)
  Theorem C76_commands_within_bounds s h x u ps pe qs (lo hi : nat -> ext F) : 0 < ph -> run s h x u (ps ++ pe :: qs) ->
    solved pe -> (forall q, In q qs -> solved q \/ failed q) ->
    (forall q j, In q (pe :: qs) -> j < nu -> g_ulo (pe_cfg q) (Nat.min 1 (ph - 1)) j = lo j /\ g_uhi (pe_cfg q) (Nat.min 1 (ph - 1)) j = hi j) ->
    forall q j, In q (pe :: qs) -> j < nu -> within (lo j) (hi j) (vec (r_cmd (pe_res q)) j).
  Proof.
    intros P H Hs Hq Hb.
    assert (S1 : forall q, In q (pe :: qs) -> solved q -> forall j, j < nu -> within (lo j) (hi j) (vec (r_cmd (pe_res q)) j)).
    { intros q Iq Sq j Hj. destruct (Hb q j Iq Hj) as [<- <-]. destruct (C76_solved_periods _ _ _ _ _ q P H (in_or_app _ _ _ (or_intror Iq)) Sq) as (_ & _ & B). exact (B j Hj). }
    assert (G : forall n q, nth_error (pe :: qs) n = Some q -> forall j, j < nu -> within (lo j) (hi j) (vec (r_cmd (pe_res q)) j)).
    { induction n as [|n IH]; intros q En j Hj.
      - injection En as <-. apply (S1 pe (or_introl eq_refl) Hs j Hj).
      - pose proof (nth_error_In _ _ En) as Iq. cbn [nth_error] in En. pose proof (nth_error_In _ _ En) as Iq'. destruct (Hq q Iq') as [Sq|Fq]; [now apply S1|].
        destruct (nth_error_split qs n En) as (l1 & l2 & -> & L). 
        assert (H' : run s h x u ((ps ++ pe :: l1) ++ q :: l2)) by (now rewrite <- app_assoc).
        rewrite (C76_failed_period _ _ _ _ _ _ _ P H' Fq j Hj). rewrite rev_app_distr. cbn [rev].
        destruct n as [|n].
        + destruct l1; [|discriminate L]. cbn [rev app]. apply (IH pe eq_refl j Hj).
        + destruct l1 as [|a l1 _] using rev_ind; [discriminate L|]. rewrite rev_app_distr. cbn [rev app]. apply (IH a); [|exact Hj].
          cbn [nth_error]. rewrite app_length in L. cbn in L. rewrite <- app_assoc. rewrite nth_error_app2 by lia. replace (n - length l1) with 0 by lia. reflexivity. }
    intros q j Iq Hj. destruct (In_nth_error _ _ Iq) as [n En]. exact (G n q En j Hj).
  Qed.

  (** with an answer that satisfies its problem up to e the plant stays near the prediction and its bounds *)
  Fixpoint simulate p (c : cfg F) (x0 : nat -> F) (u : nat -> nat -> F) (k : nat) : nat -> F :=
    match k with O => x0 | S k' => next_state d p c k' (simulate p c x0 u k') (u k') end.
  Theorem C76_inexact_answers s h x u ps pe (e a b : F) : 0 < ph -> run s h x u ps -> In pe ps -> (s0 <= e)%S -> nearly_solved e pe ->
    (forall j, j < nx -> (norm1 nx (pl_A (pe_plant pe) j) <= a)%S) -> (forall j, j < nx -> (norm1 nu (pl_B (pe_plant pe) j) <= b)%S) ->
    forall j, j < nx -> (sabs (ent (q_state (pe_seq pe)) 1 j - vec (pe_next pe) j) <= a * e + e * (s1 + b))%S /\
      exists v, within (g_xlo (pe_cfg pe) 0 j) (g_xhi (pe_cfg pe) 0 j) v /\ (sabs (vec (pe_next pe) j - v) <= a * e + e * (s1 + b) + e)%S.
  Proof.
    intros P H I He (z & y & code & obj & Ea & Hf) HA HB. destruct (run_in _ _ _ _ _ _ P H I) as (s0' & h0 & s1' & R0 & X & U & Ec & Hp & El & E & Es & EN).
    rewrite Ea in E. rewrite El in Hf. destruct (C56_sequences_nearly_admissible junk ejunk d s0' h0 _ _ _ e z y code obj s1' _ P R0 Hp X U He Hf E) as (NA & res & Er & A5).
    injection Er as <-. rewrite <- Es in *. rewrite Ec in *. set (X0 := fun i j => ent (q_state (pe_seq pe)) i j) in *. set (U0 := fun i j => ent (q_input (pe_seq pe)) i j) in *.
    assert (T : trajectory d (pe_plant pe) (cfg_run h0) (vec (pe_x pe)) (simulate (pe_plant pe) (cfg_run h0) (vec (pe_x pe)) U0) U0) by (split; intros; reflexivity).
    intros j Hj. pose proof (C56_prediction_error d _ _ _ _ e a b _ _ _ He HA HB NA T 1 j P Hj) as D. cbn [drift] in D.
    assert (N : simulate (pe_plant pe) (cfg_run h0) (vec (pe_x pe)) U0 1 j = vec (pe_next pe) j).
    { rewrite EN by exact Hj. cbn [simulate]. unfold next_state. f_equal; f_equal. apply ssum_ext. intros l Hl. rewrite A5 by exact Hl. reflexivity. }
    rewrite N in D. split; [exact D|]. destruct NA as (_ & _ & BX & _). destruct (BX 1 j P Hj) as (v & W & V). exists v. refine (conj W _).
    set (w := X0 1 j) in *. clearbody w.
    replace (vec (pe_next pe) j - v : F)%S with ((w - v) + (- (w - vec (pe_next pe) j)) : F)%S by ring.
    replace (a * e + e * (s1 + b) + e : F)%S with (e + (a * e + e * (s1 + b)) : F)%S by ring.
    eapply sle_trans; [apply NLSlope2.sabs_add|]. apply sle_add; [exact V|]. rewrite NLSlope2.sabs_opp. exact D.
  Qed.
End Loop.

Section Feasible.
  Context {F : Type} {SO : ScalarOps F} {SL : ScalarLaws F}.
  Variables (junk : nat -> nat -> F) (ejunk : nat -> nat -> ext F) (d : dims).
  Notation nx := (d_nx d). Notation nu := (d_nu d). Notation ndu := (d_ndu d).
  Notation ny := (d_ny d). Notation ph := (d_ph d). Notation ch := (d_ch d).
  Notation reached := (SpecLMPC.reached junk ejunk d).
  Notation step := (l_step junk ejunk d).
  Implicit Types (s : lmpc F) (h : list (lop F * ret F)) (p : plant F) (z : nat -> F).

  (** the plan moved one period on: its tail, then the last command once more *)
  Definition shift_x p (c : cfg F) (x u : nat -> nat -> F) (i : nat) : nat -> F :=
    if i <? ph then x (S i) else next_state d p c 0 (x ph) (u (ph - 1)).
  Definition shift_u (u : nat -> nat -> F) (i : nat) : nat -> F := if i <? ph - 1 then u (S i) else u (ph - 1).
  Lemma within_eq (l l' u u' : ext F) (v v' : F) : l = l' -> u = u' -> v = v' -> within l u v -> within l' u' v'.
  Proof. intros -> -> ->. auto. Qed.

  Lemma shift_admissible p c x0 um x u x1 u1 : 0 < ph -> uniform d c -> admissible d p c x0 um x u ->
    (forall j, j < nx -> x1 j = x 1 j) -> (forall j, j < nu -> u1 j = u 0 j) ->
    state_allowed d p c 0 (next_state d p c 0 (x ph) (u (ph - 1))) (u (ph - 1)) ->
    admissible d p c x1 u1 (shift_x p c x u) (shift_u u).
  Proof.
    intros P Un ((T0 & T1) & BX & BY & BU & Fz & BS) E1 E2 (SX & SY & SS).
    assert (Hu : forall k, k < ph -> forall j, shift_u u k j = if k <? ph - 1 then u (S k) j else u (ph - 1) j) by (intros k Hk j; unfold shift_u; now destruct (k <? ph - 1)).
    assert (Hd : forall (M : nat -> nat -> F) k j, k < ph -> ssum ndu (fun l => (M j l * g_d c k l)%S) = ssum ndu (fun l => (M j l * g_d c 0 l)%S)).
    { intros M k j Hk. apply ssum_ext. intros l Hl. destruct (Un k Hk) as (_ & _ & _ & _ & _ & D). now rewrite D. }
    assert (St : forall i, stp i <= i) by (intros; unfold stp; lia).
    refine (conj (conj _ _) (conj _ (conj _ (conj _ (conj _ _))))).
    - intros j Hj. unfold shift_x. destruct (Nat.ltb_spec 0 ph); [|lia]. symmetry. auto.
    - intros k j Hk Hj. rewrite Hd by exact Hk.
      assert (A1 : forall l, l < nx -> shift_x p c x u k l = x (S k) l) by (intros; unfold shift_x; destruct (Nat.ltb_spec k ph); [reflexivity|lia]).
      rewrite (ssum_ext nx _ (fun l => (pl_A p j l * x (S k) l)%S)) by (intros; now rewrite A1).
      unfold shift_x, shift_u. destruct (Nat.ltb_spec (S k) ph), (Nat.ltb_spec k (ph - 1)); try lia.
      + rewrite (T1 (S k) j) by assumption. now rewrite Hd by assumption.
      + replace (S k) with ph by lia. reflexivity.
    - intros i j Hi Hj. destruct (Un (stp i) ltac:(unfold stp; lia)) as (UX & _). destruct (UX j Hj) as [-> ->]. unfold shift_x. destruct (Nat.ltb_spec i ph).
      + destruct (Un (stp (S i)) ltac:(cbn; lia)) as (UX' & _). destruct (UX' j Hj) as [<- <-]. apply BX; [lia|exact Hj].
      + auto.
    - intros i j Hi Hj. destruct (Un (stp i) ltac:(unfold stp; lia)) as (_ & UY & _). destruct (UY j Hj) as [-> ->]. unfold shift_x, output. rewrite Hd by (unfold stp; lia). destruct (Nat.ltb_spec i ph).
      + destruct (Un (stp (S i)) ltac:(cbn; lia)) as (_ & UY' & _). destruct (UY' j Hj) as [<- <-]. pose proof (BY (S i) j ltac:(lia) Hj) as B. unfold output in B. rewrite Hd in B by (cbn; lia). exact B.
      + apply SY, Hj.
    - intros i j Hi Hj. destruct (Un (Nat.min i (ph - 1)) ltac:(lia)) as (_ & _ & UU & _). destruct (UU j Hj) as [-> ->].
      assert (B : forall k, k < ph -> within (g_ulo c 0 j) (g_uhi c 0 j) (u k j)).
      { intros k Hk. destruct (Un (Nat.min (S k) (ph - 1)) ltac:(lia)) as (_ & _ & UU' & _). destruct (UU' j Hj) as [<- <-]. exact (BU (S k) j ltac:(lia) Hj). }
      destruct i as [|i]; cbn [ucmd].
      + rewrite E2 by exact Hj. apply B. exact P.
      + unfold shift_u. destruct (Nat.ltb_spec i (ph - 1)); apply B; lia.
    - intros i j Hi Hi' Hj. destruct i as [|i]; [lia|]. cbn [ucmd]. unfold shift_u.
      destruct (Nat.ltb_spec (S i) (ph - 1)), (Nat.ltb_spec i (ph - 1)); try lia.
      + apply (Fz (S (S i)) j); lia.
      + replace (S i) with (ph - 1) by lia. reflexivity.
    - intros i Hi. destruct (Un (stp i) ltac:(unfold stp; lia)) as (_ & _ & _ & -> & -> & _).
      assert (B : forall k, k < ph -> within (g_slo c 0) (g_shi c 0) (ssum nx (fun l => g_sX c l * x (S k) l) + ssum nu (fun l => g_sU c l * u k l))%S).
      { intros k Hk. pose proof (BS (S k) ltac:(lia)) as B. cbn [ucmd stp Nat.pred] in B. destruct (Un k Hk) as (_ & _ & _ & <- & <- & _). exact B. }
      destruct i as [|i]; cbn [ucmd].
      + eapply within_eq; [reflexivity|reflexivity| |exact (B 0 P)]. unfold shift_x. destruct (Nat.ltb_spec 0 ph); [|lia]. f_equal. apply ssum_ext. intros l Hl. now rewrite E2.
      + unfold shift_x, shift_u. destruct (Nat.ltb_spec (S i) ph), (Nat.ltb_spec i (ph - 1)); try lia.
        * apply B. lia.
        * exact SS.
  Qed.

  (** recursive feasibility: with the same bounds and disturbance at every step, if the problem of this period has the feasible point z and the state one
      step behind its horizon, with the last command held, is allowed, then the problem of the next period - whatever solver answer led there, as long as
      the command z begins with was applied to the plant - is feasible *)
  Theorem C76_recursive_feasibility s h p x0 u0 z s' h' x1 u1 :
    0 < ph -> reached s h -> reached s' h' -> cfg_run h' = cfg_run h -> g_plant (cfg_run h) = Some p ->
    sized x0 nx 1 -> sized u0 nu 1 -> sized x1 nx 1 -> sized u1 nu 1 -> uniform d (cfg_run h) ->
    qp_feasible (l_call d s x0 u0) z ->
    state_allowed d p (cfg_run h) 0 (next_state d p (cfg_run h) 0 (z_state d z ph) (z_cmd d z (ph - 1))) (z_cmd d z (ph - 1)) ->
    (forall j, j < nu -> vec u1 j = z_cmd d z 0 j) ->
    (forall j, j < nx -> vec x1 j = next_state d p (cfg_run h) 0 (vec x0) (vec u1) j) ->
    exists z', qp_feasible (l_call d s' x1 u1) z'.
  Proof.
    intros P H H' Ec Hp X0 U0 X1 U1 Un Hf SA Eu Ex. destruct (proj1 (C01_feasible_iff_admissible junk ejunk d s h p x0 u0 z P H Hp X0 U0) Hf) as [A _].
    assert (E1 : forall j, j < nx -> vec x1 j = z_state d z 1 j).
    { intros j Hj. rewrite Ex by exact Hj. destruct A as ((T0 & T1) & _). rewrite (T1 0 j P Hj). unfold next_state. f_equal; f_equal.
      - apply ssum_ext. intros l Hl. now rewrite T0.
      - apply ssum_ext. intros l Hl. now rewrite Eu. }
    pose proof (shift_admissible p _ _ _ _ _ (vec x1) (vec u1) P Un A E1 Eu SA) as B. rewrite <- Ec in B, Hp.
    destruct (C01_admissible_represented junk ejunk d s' h' p x1 u1 _ _ P H' Hp X1 U1 B) as [B1 _]. eauto.
  Qed.
  (** with bounds on the inputs only, the same at every step, the problem is feasible for every measured state, as long as the last command is within them *)
  Theorem C76_input_bounds_only s h p x0 u0 : 0 < ph -> reached s h -> g_plant (cfg_run h) = Some p -> sized x0 nx 1 -> sized u0 nu 1 ->
    only_input_bounds d (cfg_run h) -> (forall k j, k < ph -> j < nu -> within (g_ulo (cfg_run h) k j) (g_uhi (cfg_run h) k j) (vec u0 j)) ->
    exists z, qp_feasible (l_call d s x0 u0) z.
  Proof.
    intros P H Hp X U O B. set (c := cfg_run h) in *.
    assert (Fr : forall v : F, within MInf PInf v) by (intros; split; exact I).
    assert (A : admissible d p c (vec x0) (vec u0) (simulate d p c (vec x0) (fun _ => vec u0)) (fun _ => vec u0)).
    { refine (conj (conj _ _) (conj _ (conj _ (conj _ (conj _ _))))).
      - reflexivity.
      - reflexivity.
      - intros i j Hi Hj. destruct (O (stp i) ltac:(unfold stp; lia)) as (O1 & _). destruct (O1 j Hj) as [-> ->]. apply Fr.
      - intros i j Hi Hj. destruct (O (stp i) ltac:(unfold stp; lia)) as (_ & O1 & _). destruct (O1 j Hj) as [-> ->]. apply Fr.
      - intros i j Hi Hj. destruct i; cbn [ucmd]; apply B; lia.
      - intros i j Hi Hi' Hj. destruct i; [lia|]. reflexivity.
      - intros i Hi. destruct (O (stp i) ltac:(unfold stp; lia)) as (_ & _ & -> & ->). apply Fr. }
    destruct (C01_admissible_represented junk ejunk d s h p x0 u0 _ _ P H Hp X U A) as [K _]. eauto.
  Qed.
End Feasible.


(** *** Instances *)
Section Play.
  Variable d : dims.
  Notation run := (control_run qj qej d).
  Definition no_optimize (op : lop Qc) : bool := match op with LOptimize _ _ _ => false | _ => true end.
  Lemma run_play ops : forall s s' h h' x u ps, run s h x u ps -> Forall (op_sized d) ops -> Forall op_proper ops -> forallb no_optimize ops = true ->
    l_play qj qej d s ops = Ok (s', h') -> run s' (h ++ h') x u ps.
  Proof.
    induction ops as [|op ops IH]; intros s s' h h' x u ps H Hs Hp Hn E.
    - injection E as <- <-. now rewrite app_nil_r.
    - cbn [forallb] in Hn. apply andb_true_iff in Hn. destruct Hn as [N Hn]. inversion Hs as [|? ? S1 S2]; inversion Hp as [|? ? P1 P2]; subst. cbn [l_play] in E.
      destruct (l_step qj qej d s op) as [[s1 r1]|] eqn:E1; [|discriminate E]. destruct (l_play qj qej d s1 ops) as [[s2 h2]|] eqn:E2; [|discriminate E]. injection E as <- <-.
      replace (h ++ (op, r1) :: h2) with ((h ++ [(op, r1)]) ++ h2) by (now rewrite <- app_assoc).
      eapply IH; try eassumption. eapply run_call; try eassumption. intros x0 u0 a ->. discriminate N.
  Qed.
  Lemma w_run ops x u : sized x (d_nx d) 1 -> sized u (d_nu d) 1 -> Forall (op_sized d) ops -> Forall op_proper ops -> forallb no_optimize ops = true ->
    is_ok (l_play qj qej d (l_init qj qej d) ops) = true -> run (wS d ops) (wH d ops) x u [].
  Proof.
    intros X U Hs Hp Hn E. unfold wS, wH. destruct (l_play qj qej d (l_init qj qej d) ops) as [[s h]|] eqn:E1; [|discriminate E].
    exact (run_play ops _ _ [] _ _ _ _ (run_start qj qej d x u X U) Hs Hp Hn E1).
  Qed.
End Play.
Ltac w_running := apply w_run; [repeat split|repeat split|all_sized|all_proper|reflexivity|vm_compute; reflexivity].
(** the state of a plant after one period, as a matrix *)
Definition after (d : dims) (p : plant Qc) (c : cfg Qc) (x : mat Qc) (u : mat Qc) : mat Qc := mkMat (d_nx d) 1 (fun j _ => next_state d p c 0 (vec x) (vec u) j) true.

Lemma next_period d s h x u ps p c a s' res : control_run qj qej d s h x u ps -> cfg_run h = c -> g_plant c = Some p ->
  l_step qj qej d s (LOptimize x u a) = Ok (s', RResult res) ->
  control_run qj qej d s' (h ++ [(LOptimize x u a, RResult res)]) (after d p c x (r_cmd res)) (r_cmd res)
    (ps ++ [mkPeriod c p x u (l_call d s x u) a res (o_seq (l_o s')) (after d p c x (r_cmd res))]).
Proof. intros H <- Hp E. eapply run_period; try eassumption; [split; reflexivity|reflexivity]. Qed.
Lemma cfg_same (h : list (lop Qc * ret Qc)) x u a r : cfg_run (h ++ [(LOptimize x u a, RResult r)]) = cfg_run h.
Proof. rewrite cfg_run_snoc. reflexivity. Qed.
(** a solved period (x = 2, command 2, plant at 5), then a failed one (same command, plant at 8) *)
Example C76_instance : exists s h x u pe1 pe2, control_run qj qej ex_d s h x u ([pe1] ++ [pe2]) /\ solved pe1 /\ failed pe2 /\
  vec (pe_x pe1) 0 = q 2 /\ vec (r_cmd (pe_res pe1)) 0 = q 2 /\ vec (pe_x pe2) 0 = q 5 /\ vec x 0 = q 8.
Proof.
  set (a := ASolution ex_z (fun _ => q 0) 1%Z (Fin (q 4))).
  pose proof (w_run ex_d ex_ops (qv [2]%Z) (qv [1]%Z) ltac:(repeat split) ltac:(repeat split) ltac:(all_sized) ltac:(all_proper) ltac:(reflexivity) ltac:(vm_compute; reflexivity)) as R0.
  assert (G : g_plant (cfg_run (wH ex_d ex_ops)) = Some (wp (wH ex_d ex_ops))) by (apply w_plant; vm_compute; reflexivity).
  destruct (ret_res_ok (l_step qj qej ex_d (wS ex_d ex_ops) (LOptimize (qv [2]%Z) (qv [1]%Z) a)) ltac:(vm_compute; reflexivity)) as (s1 & r1 & E1).
  assert (C1 : vec (r_cmd r1) 0 = q 2).
  { pose proof (step_res qj qej ex_d _ _ _ _ _ _ E1) as <-. assert (B : match l_step qj qej ex_d (wS ex_d ex_ops) (LOptimize (qv [2]%Z) (qv [1]%Z) a) with Ok (s', _) => sleb (vec (r_cmd (o_res (l_o s'))) 0) (q 2) && sleb (q 2) (vec (r_cmd (o_res (l_o s'))) 0) | UB => false end = true) by (vm_compute; reflexivity).
    rewrite E1 in B. apply qc_eq. exact B. }
  set (p := wp (wH ex_d ex_ops)) in *. set (c := cfg_run (wH ex_d ex_ops)) in *. set (x1 := after ex_d p c (qv [2]%Z) (r_cmd r1)).
  pose proof (next_period ex_d _ _ _ _ _ p c a s1 r1 R0 eq_refl G E1) as R1. fold x1 in R1.
  assert (B : match l_step qj qej ex_d (wS ex_d ex_ops) (LOptimize (qv [2]%Z) (qv [1]%Z) a) with
              | Ok (s', RResult r) => ret_res (l_step qj qej ex_d s' (LOptimize (after ex_d p c (qv [2]%Z) (r_cmd r)) (r_cmd r) ANoSolution)) | _ => false end = true) by (vm_compute; reflexivity).
  rewrite E1 in B. apply ret_res_ok in B. destruct B as (s2 & r2 & E2). fold x1 in E2. set (x2 := after ex_d p c x1 (r_cmd r2)).
  pose proof (next_period ex_d _ _ _ _ _ p c ANoSolution s2 r2 R1 (cfg_same _ _ _ _ _) G E2) as R2. fold x2 in R2.
  assert (P : 0 < d_ph ex_d) by (cbn; lia).
  assert (S0 : qp_feasible (l_call ex_d (wS ex_d ex_ops) (qv [2]%Z) (qv [1]%Z)) ex_z) by (apply feasible_b_ok; vm_compute; reflexivity).
  assert (X1 : vec x1 0 = q 5) by (unfold x1, after, vec at 1; cbn [ent]; unfold next_state; cbn [d_nu ex_d ssum]; rewrite C1; apply qc_eq; vm_compute; reflexivity).
  assert (C2 : vec (r_cmd r2) 0 = q 2).
  { rewrite <- C1. cbn [app] in R2. eapply (C76_failed_period qj qej ex_d _ _ _ _ [_] _ [] P R2); [reflexivity|cbn; lia]. }
  cbn [app] in R2 |- *. eexists _, _, _, _, _, _. refine (conj R2 (conj _ (conj _ (conj _ (conj _ (conj _ _)))))); cbn [pe_x pe_res].
  - exists ex_z, (fun _ => q 0), 1%Z, (Fin (q 4)). exact (conj eq_refl S0).
  - reflexivity.
  - reflexivity.
  - exact C1.
  - exact X1.
  - unfold x2, after, vec at 1. cbn [ent]. unfold next_state. cbn [d_nu d_nx ex_d ssum]. rewrite C2, X1. apply qc_eq; vm_compute; reflexivity.
Qed.

(** refuted: "every command is within the configured input bounds". Bounds 1 <= u <= 2 at every step; the solver finds nothing in the first period: the command is 0 *)
Local Notation one := (qm 1 1 [[1%Z]]).
Definition b12_ops : list (lop Qc) := [LSetModel one one one; LSetInputBoundsMat (qme 1 2 [[1; 1]]%Z) (qme 1 2 [[2; 2]]%Z)].
Theorem C76_commands_within_refuted :
  ~ (forall d s h (x u : mat Qc) ps pe, 0 < d_ph d -> control_run qj qej d s h x u ps -> In pe ps -> solved pe \/ failed pe -> uniform d (pe_cfg pe) ->
       (forall j, j < d_nu d -> within (g_ulo (pe_cfg pe) 0 j) (g_uhi (pe_cfg pe) 0 j) (vec (pe_u pe) j)) ->
       forall j, j < d_nu d -> within (g_ulo (pe_cfg pe) 0 j) (g_uhi (pe_cfg pe) 0 j) (vec (r_cmd (pe_res pe)) j)).
Proof.
  intros H. assert (P : 0 < d_ph ex_d) by (cbn; lia).
  pose proof (w_run ex_d b12_ops (qv [0]%Z) (qv [1]%Z) ltac:(repeat split) ltac:(repeat split) ltac:(all_sized) ltac:(all_proper) ltac:(reflexivity) ltac:(vm_compute; reflexivity)) as R0.
  assert (G : g_plant (cfg_run (wH ex_d b12_ops)) = Some (wp (wH ex_d b12_ops))) by (apply w_plant; vm_compute; reflexivity).
  destruct (ret_res_ok (l_step qj qej ex_d (wS ex_d b12_ops) (LOptimize (qv [0]%Z) (qv [1]%Z) ANoSolution)) ltac:(vm_compute; reflexivity)) as (s1 & r1 & E1).
  set (c := cfg_run (wH ex_d b12_ops)) in *. set (p := wp (wH ex_d b12_ops)) in *.
  pose proof (next_period ex_d _ _ _ _ _ p c ANoSolution s1 r1 R0 eq_refl G E1) as R1. cbn [app] in R1.
  specialize (H ex_d _ _ _ _ _ _ P R1 (or_introl eq_refl) (or_intror eq_refl)). cbn [pe_cfg pe_u pe_res] in H.
  pose proof (C76_failed_period qj qej ex_d _ _ _ _ [] _ [] P R1 eq_refl 0 ltac:(cbn; lia)) as Z. cbn [pe_res rev app] in Z.
  refine (within_dec_false (g_ulo c 0 0) (g_uhi c 0 0) (q 0) _ _); [vm_compute; reflexivity|].
  replace (q 0) with (vec (r_cmd r1) 0) by (rewrite Z; apply qc_eq; vm_compute; reflexivity). apply H; [| |cbn; lia].
  - intros k Hk. two_steps k Hk; refine (conj _ (conj _ (conj _ (conj _ (conj _ _))))); try reflexivity; intros j Hj; one_row j Hj; try split; reflexivity.
  - intros j Hj. one_row j Hj. apply within_b_ok. vm_compute. reflexivity.
Qed.

(** refuted: "once feasible, always feasible". Horizon 1, x+ = 2 x + u, |u| <= 1, |x| <= 10: from x = 5 the command 0 is feasible; at the state 10 it leads to there is none *)
Definition rf_d : dims := mkDims 1 1 1 1 1 1.
Definition rf_ops : list (lop Qc) := [LSetModel (qm 1 1 [[2%Z]]) one one; LSetStateBounds (qe [-10]%Z) (qe [10]%Z) slice_all; LSetInputBoundsMat (qme 1 1 [[-1]]%Z) (qme 1 1 [[1]]%Z)].
Definition rf_z : nat -> Qc := z_of rf_d (qf [0]%Z) (fun i _ => qf [5; 10]%Z i) (fun i _ => qf [0]%Z i).
Theorem C76_recursive_feasibility_refuted :
  ~ (forall d s h p (x0 u0 : mat Qc) z s' h' (x1 u1 : mat Qc),
       0 < d_ph d -> reached qj qej d s h -> reached qj qej d s' h' -> cfg_run h' = cfg_run h -> g_plant (cfg_run h) = Some p ->
       sized x0 (d_nx d) 1 -> sized u0 (d_nu d) 1 -> sized x1 (d_nx d) 1 -> sized u1 (d_nu d) 1 -> uniform d (cfg_run h) ->
       qp_feasible (l_call d s x0 u0) z -> (forall j, j < d_nu d -> vec u1 j = z_cmd d z 0 j) ->
       (forall j, j < d_nx d -> vec x1 j = next_state d p (cfg_run h) 0 (vec x0) (vec u1) j) ->
       exists z', qp_feasible (l_call d s' x1 u1) z').
Proof.
  intros H. assert (P : 0 < d_ph rf_d) by (cbn; lia).
  assert (R0 : reached qj qej rf_d (wS rf_d rf_ops) (wH rf_d rf_ops)) by w_reach.
  assert (G : g_plant (cfg_run (wH rf_d rf_ops)) = Some (wp (wH rf_d rf_ops))) by (apply w_plant; vm_compute; reflexivity).
  destruct (H rf_d _ _ _ (qv [5]%Z) (qv [0]%Z) rf_z _ _ (qv [10]%Z) (qv [0]%Z) P R0 R0 eq_refl G ltac:(repeat split) ltac:(repeat split) ltac:(repeat split) ltac:(repeat split)) as [z' Hz].
  - intros k Hk. destruct k as [|k]; [|cbn in Hk; lia]. auto 10.
  - apply feasible_b_ok. vm_compute. reflexivity.
  - intros j Hj. one_row j Hj. apply qc_eq. vm_compute. reflexivity.
  - intros j Hj. one_row j Hj. apply qc_eq. vm_compute. reflexivity.
  - destruct (proj1 (C01_feasible_iff_admissible qj qej rf_d _ _ _ (qv [10]%Z) (qv [0]%Z) z' P R0 G ltac:(repeat split) ltac:(repeat split)) Hz) as [((T0 & T1) & BX & _ & BU & _) _].
    pose proof (T1 0 0 P ltac:(cbn; lia)) as T. pose proof (T0 0 ltac:(cbn; lia)) as T'. destruct (BX 1 0 P ltac:(cbn; lia)) as [_ W]. destruct (BU 1 0 P ltac:(cbn; lia)) as [V _].
    assert (V' : (q (-1) <= z_cmd rf_d z' 0 0)%S) by exact V. assert (W' : (z_state rf_d z' 1 0 <= q 10)%S) by exact W. clear V W BX BU.
    cbn [d_nx d_nu d_ndu rf_d ssum] in T. rewrite T' in T. revert T V' W'. generalize (z_cmd rf_d z' 0 0), (z_state rf_d z' 1 0). intros w x1 T V' W'.
    assert (TE : x1 = (q 20 + w)%S).
    { rewrite T. replace (pl_A (wp (wH rf_d rf_ops)) 0 0) with (q 2) by (apply qc_eq; vm_compute; reflexivity). replace (pl_B (wp (wH rf_d rf_ops)) 0 0) with (s1 : Qc) by (apply qc_eq; vm_compute; reflexivity).
      replace (vec (qv [10%Z]) 0) with (q 10) by (apply qc_eq; vm_compute; reflexivity).
      replace (g_Bd (cfg_run (wH rf_d rf_ops)) 0 0) with (s0 : Qc) by (apply qc_eq; vm_compute; reflexivity). rewrite rf_sum. replace (q 2 * q 10 : Qc)%S with (q 20) by (apply qc_eq; vm_compute; reflexivity). reflexivity. }
    rewrite TE in W'. pose proof (sle_trans _ _ _ (sle_add _ _ _ _ (s_le_refl (q 20)) V') W') as K. revert K. vm_compute. discriminate.
Qed.
(** the hypotheses of recursive feasibility are met: same plant and bounds, state 2, command -1, plant at 3, one step later at 5 *)
Example C76_feasibility_instance : let c := cfg_run (wH rf_d rf_ops) in let p := wp (wH rf_d rf_ops) in
  let z := z_of rf_d (qf [0]%Z) (fun i _ => qf [2; 3]%Z i) (fun i _ => qf [-1]%Z i) in
  reached qj qej rf_d (wS rf_d rf_ops) (wH rf_d rf_ops) /\ g_plant c = Some p /\ uniform rf_d c /\
  qp_feasible (l_call rf_d (wS rf_d rf_ops) (qv [2]%Z) (qv [0]%Z)) z /\
  state_allowed rf_d p c 0 (next_state rf_d p c 0 (z_state rf_d z 1) (z_cmd rf_d z 0)) (z_cmd rf_d z 0) /\
  vec (qv [-1]%Z) 0 = z_cmd rf_d z 0 0 /\ vec (qv [3]%Z) 0 = next_state rf_d p c 0 (vec (qv [2]%Z)) (vec (qv [-1]%Z)) 0.
Proof.
  refine (conj _ (conj _ (conj _ (conj _ (conj _ (conj _ _)))))).
  - w_reach.
  - apply w_plant; vm_compute; reflexivity.
  - intros k Hk. destruct k as [|k]; [|cbn in Hk; lia]. auto 10.
  - apply feasible_b_ok. vm_compute. reflexivity.
  - refine (conj _ (conj _ _)); [intros j Hj; one_row j Hj|intros j Hj; one_row j Hj|]; apply within_b_ok; vm_compute; reflexivity.
  - apply qc_eq. vm_compute. reflexivity.
  - apply qc_eq. vm_compute. reflexivity.
Qed.
Example C76_input_bounds_instance : let c := cfg_run (wH ex_d b12_ops) in
  reached qj qej ex_d (wS ex_d b12_ops) (wH ex_d b12_ops) /\ g_plant c = Some (wp (wH ex_d b12_ops)) /\ only_input_bounds ex_d c /\
  (forall k j, k < 2 -> j < 1 -> within (g_ulo c k j) (g_uhi c k j) (vec (qv [1]%Z) j)).
Proof.
  refine (conj _ (conj _ (conj _ _))).
  - w_reach.
  - apply w_plant; vm_compute; reflexivity.
  - intros k Hk. two_steps k Hk; refine (conj _ (conj _ (conj _ _))); try reflexivity; intros j Hj; one_row j Hj; split; reflexivity.
  - intros k j Hk Hj. two_steps k Hk; one_row j Hj; apply within_b_ok; vm_compute; reflexivity.
Qed.
