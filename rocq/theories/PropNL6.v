(** Property C53: the non-linear controller returns the optimum of the user's problem whenever the solver returns an optimum of the problem
    it observes (vocabulary: SpecNLO.v). *)
From Coq Require Import Bool Arith ZArith List Lia QArith Qcanon Ring Field.
From Verif Require Import Scalar Sums Mat Slice Builder BuilderEnt LMPC SpecLMPC NLMap NLTraj NLFun SpecNL NLLoop NLGrad NLEval NLSlope NLSlope2 NLMPC SpecNLC SpecNLP SpecNLO NLRef NLRun NLCall NLObs PropNL1 Wit WitNL.
Import ListNotations.
Local Open Scope nat_scope.

Section Stmts.
  Context {F : Type} {SO : ScalarOps F} {SL : ScalarLaws F}.
  Add Field SFpn6 : (@s_field F SO SL).
  Variables (junk : nat -> nat -> F) (d : dims) (ni ne : nat) (dyn_eq : bool).
  Notation nx := (d_nx d). Notation nu := (d_nu d). Notation ny := (d_ny d).
  Notation ph := (d_ph d). Notation ch := (d_ch d).
  Notation reached := (nreached junk d ni ne dyn_eq). Notation cf := (ncfg_run d ni ne).
  Notation step := (n_step junk d ni ne dyn_eq). Notation call := (n_call junk d ni ne).
  Implicit Types (s : nmpc F) (h : list (nop F * ret F)).
  Hypothesis C0 : 0 < ch.
  Hypothesis C : ch <= ph.

  Lemma div_abs (a s t : F) : s <> s0 -> (sabs (a / s) <= t)%S <-> (sabs a <= sabs s * t)%S.
  Proof.
    intros N. assert (P : (s0 < sabs s)%S).
    { apply slt_iff. split; [apply sabs_nonneg|]. intros E. apply N. destruct (sabs_self s) as [A B]. rewrite <- E in A, B.
      replace (- s0)%S with (s0 : F) in A by ring. now apply sle_antisym. }
    assert (E : sabs a = (sabs s * sabs (a / s))%S) by (rewrite <- sabs_mul; f_equal; field; exact N).
    rewrite E. split; intros H; [apply smul_le_l; [apply sabs_nonneg|exact H]|now apply smul_le_cancel with (sabs s)].
  Qed.
  Lemma dyn_res_off f ts sx (X U : nat -> nat -> F) i l t : sx l <> s0 ->
    (sabs (dyn_res d f ts sx X U i l) <= t)%S <-> (sabs (X (S i) l - predicted d f ts X U i l) <= sabs (sx l) * t)%S.
  Proof.
    intros N. unfold dyn_res, predicted. destruct ts as [ts|]; rewrite (div_abs _ _ _ N); [|tauto].
    match goal with |- (sabs ?a <= _)%S <-> (sabs ?b <= _)%S => replace b with (- a)%S by ring end. rewrite sabs_opp. tauto.
  Qed.

  (** trajectories that agree on the horizon are interchangeable *)
  Lemma adm_ext (c : ncfg F) x0 t (X U X' U' : nat -> nat -> F) :
    (forall i j, i < ph + 1 -> j < nx -> X i j = X' i j) -> (forall i j, i < ph + 1 -> j < nu -> U i j = U' i j) ->
    nl_admissible d ni ne c x0 t X U -> nl_admissible d ni ne c x0 t X' U'.
  Proof.
    intros EX EU (A1 & A2 & A3 & A4 & A5 & A6 & A7).
    assert (RX : forall i, i < ph + 1 -> traj_row nx X i = traj_row nx X' i) by (intros i Hi; unfold traj_row; apply map_seq_ext; intros j Hj; apply EX; [exact Hi|lia]).
    assert (RU : forall i, i < ph + 1 -> traj_row nu U i = traj_row nu U' i) by (intros i Hi; unfold traj_row; apply map_seq_ext; intros j Hj; apply EU; [exact Hi|lia]).
    refine (conj _ (conj _ (conj _ (conj _ (conj _ (conj _ _)))))).
    - intros j Hj. rewrite <- EX by lia. auto.
    - intros i j Hi Hj. assert (held d i < ph + 1) by (unfold held; lia). rewrite <- !EU by lia. auto.
    - intros k j Hk Hj. rewrite <- EX by lia. auto.
    - intros k j Hk Hj. rewrite <- EU by lia. auto.
    - intros f Hf i l Hi Hl. specialize (A5 f Hf i l Hi Hl). unfold predicted in *.
      rewrite !RX, RU, !EX in A5 by lia. exact A5.
    - intros f Hf k Hk. rewrite <- (ieq_at_ext d f (k_out c) k X U X' U' s0 EX EU). auto.
    - intros f Hf k Hk. rewrite <- (eqc_at_ext d f k X U X' U' EX EU). auto.
  Qed.

  (** decision vector of a trajectory *)
  Definition dec_of (c : ncfg F) (X U : nat -> nat -> F) : list F :=
    map (fun r => if r <? ph * nx then (X (r / nx + 1)%nat (r mod nx) / k_sx c (r mod nx))%S
                  else if r <? ph * nx + nu * ch then (U ((r - ph * nx) / nu)%nat ((r - ph * nx) mod nu) / k_su c ((r - ph * nx) mod nu))%S
                  else s0) (seq 0 (n_dec d)).
  Lemma dec_len c X U : length (dec_of c X U) = n_dec d.
  Proof. unfold dec_of. now rewrite map_length, seq_length. Qed.
  Lemma dec_at c X U r : r < n_dec d -> dvar (dec_of c X U) r = if r <? ph * nx then (X (r / nx + 1)%nat (r mod nx) / k_sx c (r mod nx))%S
                  else if r <? ph * nx + nu * ch then (U ((r - ph * nx) / nu)%nat ((r - ph * nx) mod nu) / k_su c ((r - ph * nx) mod nu))%S
                  else s0.
  Proof. intros Hr. unfold dvar, dec_of. set (g := fun r => _). rewrite (nth_indep _ s0 (g 0)) by (rewrite map_length, seq_length; exact Hr). rewrite map_nth, seq_nth by exact Hr. reflexivity. Qed.
  Lemma dec_slack c X U : dvar (dec_of c X U) (v_slack d) = s0.
  Proof.
    rewrite dec_at by (unfold v_slack, n_dec; lia). unfold v_slack. destruct (Nat.ltb_spec (ph * nx + nu * ch) (ph * nx)); [lia|].
    destruct (Nat.ltb_spec (ph * nx + nu * ch) (ph * nx + nu * ch)); [lia|reflexivity].
  Qed.
  Lemma dec_x c x0 t X U i j : scaled d c -> nl_admissible d ni ne c x0 t X U -> i < ph + 1 -> j < nx -> x_traj d c x0 (dvar (dec_of c X U)) i j = X i j.
  Proof.
    intros Sc (A1 & _) Hi Hj. unfold x_traj, st_traj. destruct (Nat.eqb_spec i 0) as [->|N]; [symmetry; auto|].
    unfold v_state. pose proof (blk_lt (i - 1) ph nx j ltac:(lia) Hj) as L. rewrite dec_at by (unfold n_dec; lia).
    destruct (Nat.ltb_spec ((i - 1) * nx + j) (ph * nx)); [|lia]. destruct (divmod_unique (i - 1) j nx Hj) as [-> ->].
    replace (i - 1 + 1) with i by lia. specialize (Sc j Hj). field. exact Sc.
  Qed.
  Lemma dec_u c x0 t X U i j : (forall j, j < nu -> k_su c j <> s0) -> nl_admissible d ni ne c x0 t X U -> i < ph + 1 -> j < nu -> u_traj d c (dvar (dec_of c X U)) i j = U i j.
  Proof.
    intros Su (_ & A2 & _) Hi Hj. unfold u_traj, in_traj. assert (Hh : held d i < ch) by (unfold held; lia).
    unfold v_input. pose proof (blk_lt (held d i) ch nu j Hh Hj) as L. rewrite dec_at by (unfold n_dec; lia).
    destruct (Nat.ltb_spec (ph * nx + (held d i * nu + j)) (ph * nx)); [lia|].
    destruct (Nat.ltb_spec (ph * nx + (held d i * nu + j)) (ph * nx + nu * ch)); [|lia].
    replace (ph * nx + (held d i * nu + j) - ph * nx) with (held d i * nu + j) by lia. destruct (divmod_unique (held d i) j nu Hj) as [-> ->].
    rewrite <- A2 by lia. specialize (Su j Hj). field. exact Su.
  Qed.

  (** what the solver calls feasible is what the user calls admissible (with the slack at zero) *)
  Theorem C53_feasible_iff s h x0 u0 t z :
    reached s h -> gm x0 nx 1 -> scaled d (cf h) -> (forall j, j < nu -> k_su (cf h) j <> s0) -> all_accepted (cf h) ->
    nlp_feasible d t (call s x0 u0) z <->
    length z = n_dec d /\ dvar z (v_slack d) = s0 /\
    nl_admissible d ni ne (cf h) x0 t (x_traj d (cf h) x0 (dvar z)) (u_traj d (cf h) (dvar z)).
  Proof using C0 C SL.
    intros Hr G Sc Su (AD & AI & AE & _). pose proof (nreached_NR junk d ni ne dyn_eq C0 C s h Hr) as H.
    pose proof (cfg_inv_run d ni ne h) as (_ & ID & II & IE).
    assert (IN : forall k tol, In (k, tol) (k_cons (cf h)) -> In (k, tol, eval_con junk d ni ne s x0 k) (nc_cons (call s x0 u0))).
    { intros k tol I. cbn [nc_cons n_call]. rewrite (nr_cons d s _ H). apply in_map_iff. exists (k, tol). split; [reflexivity|exact I]. }
    split.
    - intros (L & B & K). pose proof B as B'. apply (C23_box junk d ni ne dyn_eq s h x0 u0 z C0 C Hr) in B' as (B1 & B2 & B3).
      refine (conj L (conj B3 _)). pose proof (C23_bounds_in_scaled_units junk d ni ne dyn_eq s h x0 u0 z C0 C Hr Sc Su B) as [BX BU].
      refine (conj _ (conj _ (conj BX (conj _ (conj _ (conj _ _)))))).
      + intros j Hj. reflexivity.
      + intros i j Hi Hj. unfold u_traj, in_traj. now replace (held d (held d i)) with (held d i) by (unfold held; lia).
      + intros k j Hk Hj. specialize (BU k j ltac:(lia) Hj). assert (E : held d k = k) by (unfold held; lia). rewrite E in BU. exact BU.
      + intros f Hf i l Hi Hl. destruct (AD ltac:(congruence)) as [tol I]. destruct (ID tol I) as [_ Lt].
        destruct (K KDyn tol _ (IN _ _ I)) as (v & g & E & V).
        destruct (C21_constraints_see_the_trajectories junk d ni ne dyn_eq s h x0 u0 z KDyn tol _ C0 C Hr G Sc L (IN _ _ I)) as (v' & g' & E' & Lv & _ & V').
        rewrite E in E'. injection E' as <- <-. rewrite Lt in *. pose proof (blk_lt i ph nx l Hi Hl) as Hb.
        destruct (V' _ Hb) as (f' & Hf' & Er). destruct (divmod_unique i l nx Hl) as [Ed Em]. rewrite Ed, Em in Er.
        rewrite Hf in Hf'. injection Hf' as <-. apply (dyn_res_off f (k_ts (cf h)) (k_sx (cf h)) _ _ i l (t_dyn t) (Sc l Hl)). rewrite <- Er. apply (V (i * nx + l)). lia.
      + intros f Hf k Hk. destruct (AI ltac:(congruence)) as [tol I]. destruct (II tol I) as [_ Lt].
        destruct (K KIneq tol _ (IN _ _ I)) as (v & g & E & V).
        destruct (C21_constraints_see_the_trajectories junk d ni ne dyn_eq s h x0 u0 z KIneq tol _ C0 C Hr G Sc L (IN _ _ I)) as (v' & g' & E' & Lv & _ & V').
        rewrite E in E'. injection E' as <- <-. rewrite Lt in *. destruct (V' _ Hk) as (f' & Hf' & Er). rewrite Hf in Hf'. injection Hf' as <-.
        unfold ieq_of in Er. rewrite B3 in Er. rewrite <- Er. apply (V k). lia.
      + intros f Hf k Hk. destruct (AE ltac:(congruence)) as [tol I]. destruct (IE tol I) as [_ Lt].
        destruct (K KEq tol _ (IN _ _ I)) as (v & g & E & V).
        destruct (C21_constraints_see_the_trajectories junk d ni ne dyn_eq s h x0 u0 z KEq tol _ C0 C Hr G Sc L (IN _ _ I)) as (v' & g' & E' & Lv & _ & V').
        rewrite E in E'. injection E' as <- <-. rewrite Lt in *. destruct (V' _ Hk) as (f' & Hf' & Er). rewrite Hf in Hf'. injection Hf' as <-.
        unfold eqc_of in Er. rewrite <- Er. apply (V k). lia.
    - intros (L & B3 & (A1 & A2 & A3 & A4 & A5 & A6 & A7)). refine (conj L (conj _ _)).
      + apply (C23_box junk d ni ne dyn_eq s h x0 u0 z C0 C Hr). refine (conj _ (conj _ B3)).
        * intros k j Hk Hj. specialize (A3 k j Hk Hj). unfold x_traj, st_traj in A3. destruct (Nat.eqb_spec (k + 1) 0); [lia|]. unfold v_state in A3. replace (k + 1 - 1) with k in A3 by lia.
          replace (k_sx (cf h) j * dvar z (k * nx + j)%nat / k_sx (cf h) j)%S with (dvar z (k * nx + j)) in A3 by (field; auto). exact A3.
        * intros k j Hk Hj. specialize (A4 k j Hk Hj). unfold u_traj, in_traj, v_input in A4. assert (E : held d k = k) by (unfold held; lia). rewrite E in A4.
          replace (k_su (cf h) j * dvar z (ph * nx + (k * nu + j))%nat / k_su (cf h) j)%S with (dvar z (ph * nx + (k * nu + j))) in A4 by (field; auto). exact A4.
      + intros k tol ev I. destruct (C21_constraints_see_the_trajectories junk d ni ne dyn_eq s h x0 u0 z k tol ev C0 C Hr G Sc L I) as (v & g & E & Lv & _ & V).
        exists v, g. refine (conj E _). intros r Hr'. rewrite Lv in Hr'. specialize (V r Hr').
        destruct (call_con junk d ni ne s _ x0 H u0 k tol ev I) as [I' _]. destruct k; destruct V as (f & Hf & ->).
        * destruct (ID tol I') as [_ Lt]. rewrite Lt in Hr'. destruct (blk_split r ph nx Hr') as (i & l & Hi & Hl & ->). destruct (divmod_unique i l nx Hl) as [-> ->].
          apply dyn_res_off; [auto|]. auto.
        * destruct (II tol I') as [_ Lt]. rewrite Lt in Hr'. unfold ieq_of. rewrite B3. auto.
        * destruct (IE tol I') as [_ Lt]. rewrite Lt in Hr'. apply (A7 f Hf r Hr').
  Qed.

  (** an optimum of what the solver sees describes an optimum of what the user asked for *)
  Lemma C53_trajectory_optimal s h x0 u0 t z f :
    reached s h -> gm x0 nx 1 -> scaled d (cf h) -> (forall j, j < nu -> k_su (cf h) j <> s0) -> all_accepted (cf h) ->
    k_obj (cf h) = Some f -> nlp_optimal d t (call s x0 u0) z ->
    let X := x_traj d (cf h) x0 (dvar z) in let U := u_traj d (cf h) (dvar z) in
    nl_admissible d ni ne (cf h) x0 t X U /\
    (forall X' U', nl_admissible d ni ne (cf h) x0 t X' U' -> (nl_cost d (cf h) f X U <= nl_cost d (cf h) f X' U')%S).
  Proof using C0 C SL.
    intros Hr G Sc Su A Hf (Fz & ev & v & g & Ho & Ev & Opt) X U.
    pose proof Fz as Fz'. apply (C53_feasible_iff s h x0 u0 t z Hr G Sc Su A) in Fz' as (Lz & Sl & Az).
    refine (conj Az _). intros X' U' A'. set (z' := dec_of (cf h) X' U').
    assert (EX' : forall i j, i < ph + 1 -> j < nx -> X' i j = x_traj d (cf h) x0 (dvar z') i j) by (intros; symmetry; eapply dec_x; eassumption).
    assert (EU' : forall i j, i < ph + 1 -> j < nu -> U' i j = u_traj d (cf h) (dvar z') i j) by (intros; symmetry; eapply dec_u; eassumption).
    assert (Fz' : nlp_feasible d t (call s x0 u0) z').
    { apply (C53_feasible_iff s h x0 u0 t z' Hr G Sc Su A). refine (conj (dec_len _ _ _) (conj (dec_slack _ _ _) _)). exact (adm_ext _ _ _ _ _ _ _ EX' EU' A'). }
    destruct (Opt z' Fz') as (v' & g' & Ev' & Le).
    destruct (C21_cost_sees_the_trajectories junk d ni ne dyn_eq s h x0 u0 z ev C0 C Hr G Sc Lz Ho) as (f1 & g1 & Hf1 & _ & E1).
    destruct (C21_cost_sees_the_trajectories junk d ni ne dyn_eq s h x0 u0 z' ev C0 C Hr G Sc (dec_len _ _ _) Ho) as (f2 & g2 & Hf2 & _ & E2).
    rewrite Hf in Hf1, Hf2. injection Hf1 as <-. injection Hf2 as <-. rewrite Ev in E1. rewrite Ev' in E2. injection E1 as -> _. injection E2 as -> _.
    rewrite Sl in Le. rewrite (dec_slack (cf h) X' U' : dvar z' (v_slack d) = s0) in Le. unfold nl_cost.
    rewrite (obj_at_ext d f (k_out (cf h)) X' U' _ _ s0 EX' EU'). exact Le.
  Qed.
  (** and is returned as such *)
  Theorem C53_optimality_transfer s h x0 u0 t z f code cost s' r :
    reached s h -> gm x0 nx 1 -> scaled d (cf h) -> (forall j, j < nu -> k_su (cf h) j <> s0) -> all_accepted (cf h) ->
    k_obj (cf h) = Some f -> nlp_optimal d t (call s x0 u0) z ->
    step s (NOptimize x0 u0 (NSolved (dvar z) code cost)) = Ok (s', r) ->
    let X := ent (q_state (n_seq s')) in let U := ent (q_input (n_seq s')) in
    nl_admissible d ni ne (cf h) x0 t X U /\
    (forall X' U', nl_admissible d ni ne (cf h) x0 t X' U' -> (nl_cost d (cf h) f X U <= nl_cost d (cf h) f X' U')%S) /\
    exists res, r = RResult res /\ forall j, j < nu -> ent (r_cmd res) j 0 = U 0 j.
  Proof using C0 C SL.
    intros Hr G Sc Su A Hf O E X U. destruct (C53_trajectory_optimal s h x0 u0 t z f Hr G Sc Su A Hf O) as [Az Op].
    pose proof (nreached_NR junk d ni ne dyn_eq C0 C s h Hr) as H.
    destruct (solved_obs junk d ni ne dyn_eq C0 C s _ x0 u0 (dvar z) code cost s' r H G Sc E) as (res & -> & _ & [_ Ex] & _ & [_ Eu] & _ & Ec & _).
    assert (EX : forall i j, i < ph + 1 -> j < nx -> x_traj d (cf h) x0 (dvar z) i j = X i j) by (intros; symmetry; now apply Ex).
    assert (EU : forall i j, i < ph + 1 -> j < nu -> u_traj d (cf h) (dvar z) i j = U i j) by (intros; symmetry; now apply Eu).
    refine (conj (adm_ext _ _ _ _ _ _ _ EX EU Az) (conj _ _)).
    - intros X' U' A'. specialize (Op X' U' A'). unfold nl_cost in *. rewrite <- (obj_at_ext d f (k_out (cf h)) _ _ X U s0 EX EU). exact Op.
    - exists res. refine (conj eq_refl _). intros j Hj. rewrite Ec by exact Hj. apply EU; [lia|exact Hj].
  Qed.
  (** and no optimum is lost *)
  Theorem C53_converse s h x0 u0 t X U f :
    reached s h -> gm x0 nx 1 -> scaled d (cf h) -> (forall j, j < nu -> k_su (cf h) j <> s0) -> all_accepted (cf h) -> k_obj (cf h) = Some f ->
    nl_admissible d ni ne (cf h) x0 t X U ->
    (forall X' U', nl_admissible d ni ne (cf h) x0 t X' U' -> (nl_cost d (cf h) f X U <= nl_cost d (cf h) f X' U')%S) ->
    exists z, nlp_optimal d t (call s x0 u0) z /\
      (forall i j, i <= ph -> j < nx -> x_traj d (cf h) x0 (dvar z) i j = X i j) /\ (forall i j, i <= ph -> j < nu -> u_traj d (cf h) (dvar z) i j = U i j).
  Proof using C0 C SL.
    intros Hr G Sc Su A Hf Ad Opt. pose proof (nreached_NR junk d ni ne dyn_eq C0 C s h Hr) as H. set (z := dec_of (cf h) X U).
    assert (EX : forall i j, i < ph + 1 -> j < nx -> X i j = x_traj d (cf h) x0 (dvar z) i j) by (intros; symmetry; eapply dec_x; eassumption).
    assert (EU : forall i j, i < ph + 1 -> j < nu -> U i j = u_traj d (cf h) (dvar z) i j) by (intros; symmetry; eapply dec_u; eassumption).
    exists z. refine (conj (conj _ _) (conj _ _)).
    - apply (C53_feasible_iff s h x0 u0 t z Hr G Sc Su A). refine (conj (dec_len _ _ _) (conj (dec_slack _ _ _) _)). exact (adm_ext _ _ _ _ _ _ _ EX EU Ad).
    - destruct A as (AD & AI & AE & AO). pose proof (AO ltac:(congruence)) as B. 
      assert (Ho : nc_obj (call s x0 u0) = Some (eval_obj junk d s x0)) by (cbn; rewrite (nr_bobj d s _ H), B; reflexivity).
      destruct (C21_cost_sees_the_trajectories junk d ni ne dyn_eq s h x0 u0 z _ C0 C Hr G Sc (dec_len _ _ _) Ho) as (f1 & g1 & Hf1 & _ & E1).
      rewrite Hf in Hf1. injection Hf1 as <-. eexists _, _, _. refine (conj Ho (conj E1 _)). intros z' Fz'.
      apply (C53_feasible_iff s h x0 u0 t z' Hr G Sc Su (conj AD (conj AI (conj AE AO)))) in Fz' as (L' & S' & A').
      destruct (C21_cost_sees_the_trajectories junk d ni ne dyn_eq s h x0 u0 z' _ C0 C Hr G Sc L' Ho) as (f2 & g2 & Hf2 & _ & E2).
      rewrite Hf in Hf2. injection Hf2 as <-. eexists _, _. refine (conj E2 _). specialize (Opt _ _ A'). unfold nl_cost in Opt.
      rewrite S'. rewrite (dec_slack (cf h) X U : dvar z (v_slack d) = s0). rewrite (obj_at_ext d f (k_out (cf h)) X U _ _ s0 EX EU) in Opt. exact Opt.
    - intros; symmetry; apply EX; lia.
    - intros; symmetry; apply EU; lia.
  Qed.
End Stmts.

(** with unit scales and no tolerance this reads: the measured state first, bounds and dynamics in the user's units *)
Section Unit.
  Context {F : Type} {SO : ScalarOps F} {SL : ScalarLaws F}.
  Add Field SFpn6u : (@s_field F SO SL).
  Corollary C53_unit_scales (d : dims) (ni ne : nat) (c : ncfg F) x0 (X U : nat -> nat -> F) :
    (forall j, j < d_nx d -> k_sx c j = s1) -> (forall j, j < d_nu d -> k_su c j = s1) ->
    nl_admissible d ni ne c x0 exactly X U <->
    (forall j, j < d_nx d -> X 0 j = vec x0 j) /\
    (forall i j, i <= d_ph d -> j < d_nu d -> U i j = U (held d i) j) /\
    (forall k j, k < d_ph d -> j < d_nx d -> within (k_xlo c k j) (k_xhi c k j) (X (k + 1) j)) /\
    (forall k j, k < d_ch d -> j < d_nu d -> within (k_ulo c k j) (k_uhi c k j) (U k j)) /\
    (forall f, k_dyn c = Some f -> forall i l, i < d_ph d -> l < d_nx d -> X (S i) l = predicted d f (k_ts c) X U i l) /\
    (forall f, k_ieq c = Some f -> forall k, k < ni -> (ieq_at d f (k_out c) k X U s0 <= s0)%S) /\
    (forall f, k_eqc c = Some f -> forall k, k < ne -> eqc_at d f k X U = s0).
  Proof.
    intros Sx Su. assert (N1 : (s1 : F) <> s0) by apply (F_1_neq_0 s_field).
    assert (D1 : forall a : F, (a / s1)%S = a) by (intros; field; exact N1). assert (M1 : forall a : F, (s1 * a)%S = a) by (intros; ring).
    assert (A0 : forall a : F, (sabs a <= s0)%S <-> a = s0).
    { intros a. rewrite sabs_le. replace (- s0)%S with (s0 : F) by ring. split; [intros [H1 H2]; now apply sle_antisym|intros ->; split; apply sle_refl]. }
    assert (A1 : forall a b t : F, t = s1 -> (sabs (a - b) <= sabs t * s0)%S <-> a = b).
    { intros a b t _. replace (sabs t * s0)%S with (s0 : F) by ring. rewrite A0. split; [intros H; replace a with (a - b + b)%S by ring; rewrite H; ring|intros ->; ring]. }
    unfold nl_admissible, exactly; cbn [t_ieq t_eqc t_dyn]. split; intros (H1 & H2 & H3 & H4 & H5 & H6 & H7); refine (conj _ (conj H2 (conj _ (conj _ (conj _ (conj H6 _)))))).
    - intros j Hj. rewrite H1, Sx, M1 by exact Hj. reflexivity.
    - intros k j Hk Hj. specialize (H3 k j Hk Hj). rewrite Sx, D1 in H3 by exact Hj. exact H3.
    - intros k j Hk Hj. specialize (H4 k j Hk Hj). rewrite Su, D1 in H4 by exact Hj. exact H4.
    - intros f Hf i l Hi Hl. apply (A1 _ _ (k_sx c l) (Sx l Hl)). auto.
    - intros f Hf k Hk. apply A0. auto.
    - intros j Hj. rewrite H1, Sx, M1 by exact Hj. reflexivity.
    - intros k j Hk Hj. rewrite Sx, D1 by exact Hj. auto.
    - intros k j Hk Hj. rewrite Su, D1 by exact Hj. auto.
    - intros f Hf i l Hi Hl. apply (A1 _ _ (k_sx c l) (Sx l Hl)). auto.
    - intros f Hf k Hk. apply A0. auto.
  Qed.
End Unit.

(** *** Instance: a scaled, constrained problem whose optimum is known *)
Definition o_J : obj_t Qc := fun X Y U e => (at2 U 0 0 * at2 U 0 0 + q 3 + e)%S.
Definition o_ci : ieq_t Qc := fun X Y U e k => (at2 U 1 0 - q 7 + q (Z.of_nat k) - e)%S.
Definition o_ce : eqc_t Qc := fun X U k => (at2 X 2 1 - q 10)%S.
Definition o_ops : list (nop Qc) := n_scales ++
  [NSetObjective o_J true; NSetDynamics n_f (q 0) true; NSetOutput n_g; NSetIneq o_ci (q 1) true; NSetEq o_ce (q 2) true;
   NSetStateBounds (qe [-20; -20]%Z) (qe [20; 20]%Z) (mkSlice (-1) (-1)); NSetInputBounds (qe [-3]%Z) (qe [3]%Z) (mkSlice 0 1)].
Definition o_h := nH nd 2 1 o_ops.
Definition o_c : ncfg Qc := ncfg_run nd 2 1 o_h.
Lemma o_reached : nreached qj nd 2 1 false (nS nd 2 1 o_ops) o_h. Proof. n_reach. Qed.
Definition o_X (i j : nat) : Qc := if j =? 0 then q (2 + 10 * Z.of_nat i) else q 10.
Definition o_U (i j : nat) : Qc := q 0.
Lemma o_scaled : scaled nd o_c.
Proof. intros j Hj. destruct j as [|[|j]]; [| |cbn in Hj; lia]; intros E; apply (f_equal (fun x => sleb x s0)) in E; vm_compute in E; discriminate. Qed.
Lemma o_su : forall j, j < d_nu nd -> k_su o_c j <> s0.
Proof. intros j Hj. destruct j as [|j]; [|cbn in Hj; lia]; intros E; apply (f_equal (fun x => sleb x s0)) in E; vm_compute in E; discriminate. Qed.
Definition con_in (c : ncfg Qc) (k : ckind) : bool := existsb (fun kt => kind_eqb (fst kt) k) (k_cons c).
Lemma con_in_ok c k : con_in c k = true -> exists tol, In (k, tol) (k_cons c).
Proof. intros H. apply existsb_exists in H as ([k' t] & I & E). assert (k' = k) as -> by (destruct k', k; cbn in E; congruence). eauto. Qed.
Lemma o_acc : all_accepted o_c.
Proof. refine (conj _ (conj _ (conj _ _))); intros _; [apply con_in_ok|apply con_in_ok|apply con_in_ok|]; vm_compute; reflexivity. Qed.
Lemma o_funs : k_obj o_c = Some o_J /\ k_dyn o_c = Some n_f /\ k_ieq o_c = Some o_ci /\ k_eqc o_c = Some o_ce /\ k_ts o_c = None /\ k_out o_c = Some n_g.
Proof. repeat split. Qed.
Lemma within_dec_true (lo hi : ext Qc) (v : Qc) :
  (match lo with Fin a => sleb a v | MInf => true | PInf => false end && match hi with Fin b => sleb v b | PInf => true | MInf => false end)%bool = true -> within lo hi v.
Proof. intros H. apply andb_true_iff in H as [H1 H2]. split; destruct lo, hi; cbn in *; try exact I; try discriminate; assumption. Qed.
Lemma o_adm : nl_admissible nd 2 1 o_c n_x0 exactly o_X o_U.
Proof.
  assert (Qle : forall a b : Qc, sleb a b = true -> (a <= b)%S) by auto.
  assert (Qeq : forall a b : Qc, sleb a b && sleb b a = true -> a = b).
  { intros a b H. apply andb_true_iff in H as [H1 H2]. now apply s_le_antisym. }
  refine (conj _ (conj _ (conj _ (conj _ (conj _ (conj _ _)))))).
  - intros j Hj. destruct j as [|[|j]]; [| |cbn in Hj; lia]; apply Qeq; vm_compute; reflexivity.
  - reflexivity.
  - intros k j Hk Hj. destruct k as [|[|[|k]]]; [| | |cbn in Hk; lia]; (destruct j as [|[|j]]; [| |cbn in Hj; lia]); apply within_dec_true; vm_compute; reflexivity.
  - intros k j Hk Hj. destruct k as [|[|k]]; [| |cbn in Hk; lia]; (destruct j as [|j]; [|cbn in Hj; lia]); apply within_dec_true; vm_compute; reflexivity.
  - intros f Hf i l Hi Hl. rewrite (proj1 (proj2 o_funs)) in Hf. injection Hf as <-.
    destruct i as [|[|[|i]]]; [| | |cbn in Hi; lia]; (destruct l as [|[|l]]; [| |cbn in Hl; lia]); apply Qle; vm_compute; reflexivity.
  - intros f Hf k Hk. rewrite (proj1 (proj2 (proj2 o_funs))) in Hf. injection Hf as <-. destruct k as [|[|k]]; [| |cbn in Hk; lia]; apply Qle; vm_compute; reflexivity.
  - intros f Hf k Hk. rewrite (proj1 (proj2 (proj2 (proj2 o_funs)))) in Hf. injection Hf as <-. destruct k as [|k]; [|cbn in Hk; lia]; apply Qle; vm_compute; reflexivity.
Qed.
Lemma o_cost X U : nl_cost nd o_c o_J X U = (U 0%nat 0%nat * U 0%nat 0%nat + q 3 + q 0)%S.
Proof. reflexivity. Qed.
Example C53_instance : nreached qj nd 2 1 false (nS nd 2 1 o_ops) o_h /\ scaled nd o_c /\ (forall j, j < d_nu nd -> k_su o_c j <> s0) /\ all_accepted o_c /\
  exists z, nlp_optimal nd exactly (n_call qj nd 2 1 (nS nd 2 1 o_ops) n_x0 n_u0) z /\
  exists s' r, n_step qj nd 2 1 false (nS nd 2 1 o_ops) (NOptimize n_x0 n_u0 (NSolved (dvar z) 4 (Fin (q 3)))) = Ok (s', r).
Proof.
  refine (conj o_reached (conj o_scaled (conj o_su (conj o_acc _)))).
  destruct (C53_converse qj nd 2 1 false nd_ch nd_ph (nS nd 2 1 o_ops) o_h n_x0 n_u0 exactly o_X o_U o_J o_reached ltac:(repeat split) o_scaled o_su o_acc (proj1 o_funs) o_adm) as (z & O & _).
  { intros X' U' _. rewrite !o_cost. apply sle_add_r, sle_add_r. replace (o_U 0 0 * o_U 0 0)%S with (s0 : Qc) by (vm_compute; reflexivity). apply ssq_nonneg. }
  exists z. refine (conj O _).
  pose proof (nreached_NR qj nd 2 1 false nd_ch nd_ph _ _ o_reached) as H.
  eexists _, _. cbn [n_step]. rewrite (run_solved qj nd 2 1 nd_ch nd_ph _ _ n_x0 n_u0 (dvar z) 4 (Fin (q 3)) H ltac:(repeat split) ltac:(intros; lia)). reflexivity.
Qed.
