(** Properties C48, C50, C51: registration of functions, start outside the bounds, memory safety of the non-linear controller. *)
From Coq Require Import Bool Arith ZArith List Lia QArith Qcanon Ring Field.
From Verif Require Import Scalar Sums Mat Slice Builder BuilderEnt LMPC SpecLMPC NLMap NLTraj NLFun SpecNL NLLoop NLGrad NLEval NLDyn NLMPC SpecNLC SpecNLP NLRef NLRun NLCall NLObs NLShape Wit WitNL PropNL1 PropNL3.
Import ListNotations.
Local Open Scope nat_scope.

(** *** Specification *)
Section Spec.
  Context {F : Type} {SO : ScalarOps F}.
  Variables (d : dims) (ni ne : nat).
  (** the constraints the solver accepted, in the order of the calls *)
  Definition accepted_by (e : nop F * ret F) : list (ckind * list F) :=
    match fst e with
    | NSetDynamics _ tol true => [(KDyn, repeat tol (d_ph d * d_nx d))]
    | NSetIneq _ tol true => [(KIneq, repeat tol ni)]
    | NSetEq _ tol true => [(KEq, repeat tol ne)]
    | _ => [] end.
  (** the last function passed to each setter, whether or not the solver accepted it *)
  Definition last_of {A} (pick : nop F -> option A) (h : list (nop F * ret F)) : option A :=
    fold_left (fun o e => match pick (fst e) with Some a => Some a | None => o end) h None.
  Definition pick_obj (op : nop F) := match op with NSetObjective f _ => Some f | _ => None end.
  Definition pick_dyn (op : nop F) := match op with NSetDynamics f _ _ => Some f | _ => None end.
  Definition pick_ieq (op : nop F) := match op with NSetIneq f _ _ => Some f | _ => None end.
  Definition pick_eqc (op : nop F) := match op with NSetEq f _ _ => Some f | _ => None end.
  Definition pick_out (op : nop F) := match op with NSetOutput f => Some f | _ => None end.
End Spec.

(** *** Construction *)
Section Ctor.
  Context {F : Type} {SO : ScalarOps F}.
  Variable d : dims.
  Notation nu := (d_nu d). Notation ph := (d_ph d). Notation ch := (d_ch d).
  Lemma inner_jx (S : mat F) ix n : forall jx M, fst (map_inner d S ix n (jx, M)) = jx + n * nu.
  Proof.
    unfold map_inner. induction n as [|n IH]; intros jx M; cbn [loop]; [cbn; lia|]. specialize (IH jx M). destruct (loop n _ _) as [j' M']. cbn [fst] in *. lia.
  Qed.
  Lemma map_prefix (S Si : mat F) A B k : k <= ch - 1 -> exists z2u u2z, loop k (map_body d S Si) (0, 0, A, B) = (k * nu, k * nu, z2u, u2z) /\ mrows u2z = mrows B /\ mcols u2z = mcols B.
  Proof.
    induction k as [|k IH]; intros Hk; cbn [loop]; [exists A, B; auto|].
    destruct IH as (z2u & u2z & -> & R & K); [lia|]. unfold map_body. unfold map_m. destruct (Nat.eqb_spec k (ch - 1)); [lia|].
    pose proof (inner_jx S (k * nu) 1 (k * nu) z2u) as J. destruct (map_inner _ _ _ _ _) as [jx' z']. cbn [fst] in J. subst jx'.
    exists z', (set_block u2z (k * nu) (k * nu) nu nu Si). split; [f_equal; f_equal; f_equal; lia|]. cbn. auto.
  Qed.
  Lemma map_bad (S Si : mat F) st k : mok (snd (loop k (map_body d S Si) st)) = false -> forall n, mok (snd (loop (n + k) (map_body d S Si) st)) = false.
  Proof.
    intros Hb n. induction n as [|n IH]; cbn [Nat.add loop]; [exact Hb|]. destruct (loop (n + k) _ _) as [[[ix jx] z2u] u2z]. cbn [snd] in IH.
    unfold map_body. destruct (map_inner _ _ _ _ _) as [jx' z']. cbn [snd set_block mok]. now rewrite IH.
  Qed.
  (** a control horizon longer than the prediction horizon is undefined behaviour already at construction *)
  Theorem C51_long_control_horizon_undefined junk ni ne dyn_eq ops : 0 < nu -> ph < ch -> n_life junk d ni ne dyn_eq ops = (UB : outcome (nmpc F * list (nop F * ret F))).
  Proof.
    intros Hn Hc. unfold n_life, n_new.
    assert (K : m_ok (n_map (n_init d : nmpc F)) = false).
    { unfold n_init, set_params, update_bounds, with_par, with_bounds. cbn [np_default np_hard np_tlim n_map]. unfold m_ok, map_init, compute_mapping.
      set (A := mzero (ph * nu) (nu * ch) : mat F). destruct (map_prefix (map_S d (mones nu)) (map_Si d (mones nu)) A (mtrans A) ph ltac:(lia)) as (z2u & u2z & E & R & C).
      assert (B : mok (snd (loop (S ph) (map_body d (map_S d (mones nu)) (map_Si d (mones nu))) (0, 0, A, mtrans A))) = false).
      { cbn [loop]. rewrite E. unfold map_body. destruct (map_inner _ _ _ _ _) as [jx' z']. cbn [snd set_block mok]. rewrite C. cbn [mtrans mcols A mzero mconst mrows].
        assert (ph * nu + nu <=? ph * nu = false) as -> by (apply Nat.leb_gt; lia). now rewrite !andb_false_r. }
      pose proof (map_bad _ _ _ _ B (ch - S ph)) as B'. replace (ch - S ph + S ph) with ch in B' by lia.
      destruct (loop ch _ _) as [[[ix jx] zz] uu]. cbn [snd] in B'. cbn [mp_st mp_inv mp_z2u mp_u2z]. rewrite B'. apply andb_false_r. }
    now rewrite K.
  Qed.
End Ctor.

Section Stmts.
  Context {F : Type} {SO : ScalarOps F} {SM : ScalarMild F} {SL : ScalarLaws F}.
  Add Field SFpn4 : (@s_field F SO SL).
  Variables (junk : nat -> nat -> F) (d : dims) (ni ne : nat) (dyn_eq : bool).
  Notation nx := (d_nx d). Notation nu := (d_nu d). Notation ny := (d_ny d).
  Notation ph := (d_ph d). Notation ch := (d_ch d).
  Notation reached := (nreached junk d ni ne dyn_eq). Notation cf := (ncfg_run d ni ne).
  Notation step := (n_step junk d ni ne dyn_eq). Notation call := (n_call junk d ni ne).
  Implicit Types (s : nmpc F) (h : list (nop F * ret F)).

  (** *** C48 *)
  (** return values: only setStateSpaceFunction reports the verdict of the solver *)
  Theorem C48_return_values s op s' r : step s op = Ok (s', r) ->
    match op with
    | NSetObjective _ _ | NSetIneq _ _ _ | NSetEq _ _ _ | NSetOutput _ => r = RBool true
    | NSetDynamics _ _ acc => r = RBool acc
    | _ => True end.
  Proof.
    intros E. destruct op; try exact I; cbn [n_step] in E; try (inversion E; reflexivity). destruct dyn_eq; [discriminate E|]. inversion E; reflexivity.
  Qed.
  Lemma cons_run l : forall c : ncfg F, k_cons (fold_left (ncfg_step d ni ne) l c) = k_cons c ++ flat_map (accepted_by d ni ne) l.
  Proof.
    induction l as [|[op r] l IH]; intros c; cbn [fold_left flat_map]; [now rewrite app_nil_r|]. rewrite IH, app_assoc. f_equal.
    destruct op; try (cbn; now rewrite app_nil_r); try (destruct acc; cbn; now rewrite ?app_nil_r); try (destruct r as [[]| | |]; cbn; now rewrite app_nil_r);
      try (destruct a; cbn; now rewrite app_nil_r). destruct p; cbn; now rewrite app_nil_r.
  Qed.
  Lemma handles_run l : forall c : ncfg F,
    k_obj (fold_left (ncfg_step d ni ne) l c) = fold_left (fun o e => match pick_obj (fst e) with Some a => Some a | None => o end) l (k_obj c) /\
    k_dyn (fold_left (ncfg_step d ni ne) l c) = fold_left (fun o e => match pick_dyn (fst e) with Some a => Some a | None => o end) l (k_dyn c) /\
    k_ieq (fold_left (ncfg_step d ni ne) l c) = fold_left (fun o e => match pick_ieq (fst e) with Some a => Some a | None => o end) l (k_ieq c) /\
    k_eqc (fold_left (ncfg_step d ni ne) l c) = fold_left (fun o e => match pick_eqc (fst e) with Some a => Some a | None => o end) l (k_eqc c) /\
    k_out (fold_left (ncfg_step d ni ne) l c) = fold_left (fun o e => match pick_out (fst e) with Some a => Some a | None => o end) l (k_out c).
  Proof.
    induction l as [|[op r] l IH]; intros c; cbn [fold_left]; [auto|]. destruct (IH (ncfg_step d ni ne c (op, r))) as (-> & -> & -> & -> & ->). clear IH. cbn [fst].
    destruct op; try (cbn; auto; fail); try (destruct acc; cbn; auto; fail); try (destruct r as [[]| | |]; cbn; auto; fail); try (destruct a; cbn; auto; fail). destruct p; cbn; auto.
  Qed.
  (** every accepted call of a constraint setter leaves one more constraint with the solver, in order, with the tolerance of that call; all
      constraints of a kind evaluate the function passed last, accepted or not *)
  Theorem C48_registered_constraints s h x0 u0 :
    0 < ch -> ch <= ph -> reached s h ->
    map (fun '(k, tol, _) => (k, tol)) (nc_cons (call s x0 u0)) = flat_map (accepted_by d ni ne) h.
  Proof.
    intros C0 C Hr. pose proof (nreached_NR junk d ni ne dyn_eq C0 C s h Hr) as H. cbn [nc_cons n_call]. rewrite (nr_cons d s _ H). unfold ncfg_run. rewrite cons_run. cbn [ncfg0 k_cons app].
    rewrite map_map. rewrite <- (map_id (flat_map (accepted_by d ni ne) h)) at 2. apply map_ext. now intros [k t].
  Qed.
  Theorem C48_newest_function h :
    k_obj (cf h) = last_of pick_obj h /\ k_dyn (cf h) = last_of pick_dyn h /\ k_ieq (cf h) = last_of pick_ieq h /\ k_eqc (cf h) = last_of pick_eqc h /\ k_out (cf h) = last_of pick_out h.
  Proof. exact (handles_run h ncfg0). Qed.
  (** the function of a refused inequality constraint is not handed to the solver, but decides the feasibility flag *)
  Theorem C48_refused_constraint_still_judges s h f tol s' r x0 u0 z code cost s'' r' :
    0 < ch -> ch <= ph -> reached s h -> gm x0 nx 1 -> scaled d (cf h) ->
    step s (NSetIneq f tol false) = Ok (s', r) -> step s' (NOptimize x0 u0 (NSolved z code cost)) = Ok (s'', r') ->
    r = RBool true /\ map (fun '(k, t, _) => (k, t)) (nc_cons (call s' x0 u0)) = map (fun '(k, t, _) => (k, t)) (nc_cons (call s x0 u0)) /\
    exists res, r' = RResult res /\ (r_feasible res = true -> forall k, k < ni -> (ieq_of d (cf h) x0 f k z <= tol)%S).
  Proof.
    intros C0 C Hr G Sc E E'. pose proof (nreached_NR junk d ni ne dyn_eq C0 C s h Hr) as H.
    pose proof (NR_step junk d ni ne dyn_eq C0 C s (cf h) (NSetIneq f tol false) s' r H I E) as H'.
    destruct (solved_obs junk d ni ne dyn_eq C0 C s' _ x0 u0 z code cost s'' r' H' G Sc E') as (res & -> & _ & _ & _ & _ & _ & _ & _ & _ & _ & Hf).
    cbn [n_step] in E. inversion E; subst s' r. refine (conj eq_refl (conj _ _)).
    - cbn [nc_cons n_call]. rewrite !map_map. cbn. apply map_ext. now intros [k t].
    - exists res. split; [reflexivity|]. intros K. apply Hf in K as [K _]. exact (K f eq_refl).
  Qed.

  (** *** C50 *)
  (** a cold start outside the box (a state bound the measured state violates, or an input bound the last command violates): NLopt refuses
      such starting points ([contract]), and the controller fails although feasible trajectories may exist *)
  Theorem C50_start_outside_bounds s h x0 u0 a s' r :
    0 < ch -> ch <= ph -> reached s h -> gm x0 nx 1 -> gm u0 nu 1 -> (forall j, j < nu -> k_su (cf h) j <> s0) ->
    existsb solved_event h = false \/ k_warm (cf h) = false ->
    (exists k j, k < ph /\ j < nx /\ ~ within (k_xlo (cf h) k j) (k_xhi (cf h) k j) (ent x0 j 0)) \/
    (exists k j, k < ch /\ j < nu /\ ~ within (k_ulo (cf h) k j) (k_uhi (cf h) k j) (ent u0 j 0)) ->
    forall contract : (~ in_box d (call s x0 u0) (nc_guess (call s x0 u0)) -> a = NThrow),
    step s (NOptimize x0 u0 a) = Ok (s', r) ->
    exists res, r = RResult res /\ r_status res = ERROR /\ r_cmd res = last_cmd nu h.
  Proof.
    intros C0 C Hr G Gu Su Hc Hv contract E. destruct (C30_cold_start junk d ni ne dyn_eq s h x0 u0 C0 C Hr Su Hc) as (_ & A1 & A2 & _).
    assert (Ha : a = NThrow).
    { apply contract. intros B. apply (C23_box junk d ni ne dyn_eq s h x0 u0 _ C0 C Hr) in B as (B1 & B2 & _).
      destruct Hv as [(k & j & Hk & Hj & K)|(k & j & Hk & Hj & K)]; apply K.
      - rewrite <- (A1 k j Hk Hj). now apply B1.
      - rewrite <- (A2 k j Hk Hj). now apply B2. }
    subst a. destruct (C31_solver_failure junk d ni ne dyn_eq s h x0 u0 C0 C Hr (conj G Gu)) as (s1 & res & E1 & K1 & _ & K2 & _). rewrite E1 in E. inversion E; subst. eauto.
  Qed.

  (** *** C51 *)
  Lemma slice_undef H sl : (Z.of_nat H < 1073741824)%Z -> slice_int sl ->
    (slice_unset sl = false /\ slice_check (Z.of_nat H) sl = UB) \/ ((slice_unset sl = true \/ slice_check (Z.of_nat H) sl = Ok true) /\ nl_steps H sl = None) <->
    (sl_start sl < sl_end sl /\ (sl_end sl < -1 \/ (sl_end sl = -1 /\ sl_start sl = int_min)))%Z.
  Proof.
    intros HB [I1 I2]. unfold is_int in I1, I2. apply andb_true_iff in I1, I2. rewrite !Z.leb_le in I1, I2. unfold slice_unset, slice_check, nl_steps, slice_steps.
    cbn [sl_start sl_end]. set (a := sl_start sl) in *. set (b := sl_end sl) in *. clearbody a b. rewrite Z.geb_leb, !Z.gtb_ltb. unfold is_int, int_min, int_max in *.
    destruct (Z.leb_spec b a) as [L|L].
    { split; [|lia]. intros [[_ K]|[[K|K] K']]; try discriminate K. apply andb_true_iff in K. rewrite !Z.eqb_eq in K. destruct K as [-> ->]. cbn in K'. destruct (Z.ltb_spec (Z.of_nat H) 0); [lia|discriminate K']. }
    assert (U : ((a =? -1)%Z && (b =? -1)%Z) = false) by (apply andb_false_iff; rewrite !Z.eqb_neq; lia). rewrite U.
    destruct (Z.ltb_spec (Z.of_nat H) a); [split; [|lia]; intros [[_ K]|[[K|K] K']]; discriminate K|].
    destruct (Z.ltb_spec (Z.of_nat H) b); [split; [|lia]; intros [[_ K]|[[K|K] K']]; discriminate K|].
    destruct (Z.leb_spec (-2147483648) (a + b)) as [M|M]; cbn [andb].
    2:{ split; [lia|]. intros _. left. auto. }
    destruct (Z.leb_spec (a + b) 2147483647); [|lia]. destruct (Z.ltb_spec (Z.of_nat H) (a + b)); cbn [negb].
    { split; [|lia]. intros [[_ K]|[[K|K] K']]; discriminate K. }
    destruct (Z.eqb_spec a (-1)) as [->|Na].
    - cbn. split; [|lia]. intros [[_ K]|[_ K']]; [discriminate K|discriminate K'].
    - destruct (Z.eqb_spec b (-1)) as [->|Nb].
      + destruct (Z.ltb_spec a 0); [|lia]. destruct (Z.ltb_spec (Z.of_nat H) 0); [lia|]. split; [|lia]. intros [[_ K]|[_ K']]; [discriminate K|discriminate K'].
      + destruct (Z.ltb_spec a 0); [destruct (Z.ltb_spec b 0)|].
        * split; [lia|]. intros _. right. auto.
        * split; [|lia]. intros [[_ K]|[_ K']]; [discriminate K|discriminate K'].
        * split; [|lia]. intros [[_ K]|[_ K']]; [discriminate K|discriminate K'].
  Qed.
  Lemma n_slice_undef off w H lo hi sl s : (forall l, nl_steps H sl = Some l -> (sl_end sl <= Z.of_nat H)%Z -> exists s', n_bounds off w H lo hi sl s = Ok s') ->
    n_slice off w H lo hi sl s = UB <-> (slice_unset sl = false /\ slice_check (Z.of_nat H) sl = UB) \/ ((slice_unset sl = true \/ slice_check (Z.of_nat H) sl = Ok true) /\ nl_steps H sl = None).
  Proof.
    intros Hok. unfold n_slice, bool_of.
    assert (KB : slice_unset sl = true \/ slice_check (Z.of_nat H) sl = Ok true -> (n_bounds off w H lo hi sl s = UB <-> nl_steps H sl = None)).
    { intros Hv. pose proof (slice_valid_end H sl Hv) as Hend. destruct (nl_steps H sl) as [l|] eqn:El.
      - destruct (Hok l eq_refl Hend) as (s' & ->). split; intros K; discriminate K.
      - unfold n_bounds. rewrite El. split; reflexivity. }
    destruct (slice_unset sl) eqn:U.
    - specialize (KB (or_introl eq_refl)). destruct (n_bounds _ _ _ _ _ _ _) as [s1|]; split; intros K; try discriminate K; try reflexivity.
      + destruct K as [[K _]|[_ K]]; [discriminate K|]. apply KB in K. discriminate K.
      + right. split; [left; reflexivity|]. now apply KB.
    - destruct (slice_check _ _) as [[|]|] eqn:Ck.
      + specialize (KB (or_intror eq_refl)). destruct (n_bounds _ _ _ _ _ _ _) as [s1|]; split; intros K; try discriminate K; try reflexivity.
        * destruct K as [[_ K]|[_ K]]; [discriminate K|]. apply KB in K. discriminate K.
        * right. split; [right; reflexivity|]. now apply KB.
      + split; intros K; [discriminate K|]. destruct K as [[_ K]|[[K|K] _]]; discriminate K.
      + split; intros K; [left; auto|reflexivity].
  Qed.
  (** exactly which slices are undefined behaviour *)
  Theorem C51_slices_undefined_iff s h lo hi sl :
    0 < ch -> ch <= ph -> (Z.of_nat ph < 1073741824)%Z -> reached s h -> slice_int sl ->
    let bad := (sl_start sl < sl_end sl /\ (sl_end sl < -1 \/ (sl_end sl = -1 /\ sl_start sl = int_min)))%Z in
    (gm lo nx 1 -> gm hi nx 1 -> (step s (NSetStateBounds lo hi sl) = UB <-> bad)) /\
    (gm lo nu 1 -> gm hi nu 1 -> (step s (NSetInputBounds lo hi sl) = UB <-> bad)).
  Proof.
    intros C0 C small Hr Hi bad. pose proof (nreached_NR junk d ni ne dyn_eq C0 C s h Hr) as H. cbn [n_step]. split; intros G1 G2.
    - rewrite n_slice_undef. { apply slice_undef; assumption. } intros l El He. exact (n_bounds_x_ok d C0 C s _ lo hi sl l H G1 G2 El He).
    - rewrite n_slice_undef. { apply slice_undef; [lia|assumption]. } intros l El He. exact (n_bounds_u_ok d C0 C s _ lo hi sl l H G1 G2 El He).
  Qed.
  (** other undefined calls *)
  Theorem C51_linear_parameters_undefined s : step s (NSetParams NPLinear) = UB.
  Proof. reflexivity. Qed.
  Theorem C51_dynamic_equality_undefined s f tol acc : dyn_eq = true -> step s (NSetEq f tol acc) = UB.
  Proof. intros E. cbn. now rewrite E. Qed.
  Theorem C51_empty_equality_undefined s h x0 u0 z code cost : 0 < ch -> ch <= ph -> reached s h -> last_of pick_eqc h <> None -> ne = 0 ->
    step s (NOptimize x0 u0 (NSolved z code cost)) = UB.
  Proof.
    intros C0 C Hr He E0. pose proof (nreached_NR junk d ni ne dyn_eq C0 C s h Hr) as H. cbn. unfold n_run. destruct (guess_gm junk d C0 C s _ x0 u0 H) as (_ & _ & Og). rewrite Og. cbn [negb].
    destruct (C48_newest_function h) as (_ & _ & _ & K & _). rewrite <- K in He. unfold has_eq. rewrite (nr_eqc d s _ H). destruct (k_eqc (cf h)); [|congruence]. now rewrite E0.
  Qed.

  Lemma step_safe s c op : 0 < ch -> ch <= ph -> (Z.of_nat ph < 1073741824)%Z -> NR d s c -> (k_eqc c <> None -> 0 < ne) -> nop_safe d ne dyn_eq op ->
    exists s' r, step s op = Ok (s', r) /\ NR d s' (ncfg_step d ni ne c (op, r)) /\ (k_eqc (ncfg_step d ni ne c (op, r)) <> None -> 0 < ne).
  Proof.
    intros C0 C small H He [Hz Hs].
    assert (Ex : exists s' r, step s op = Ok (s', r)).
    { destruct op; cbn [n_step nop_sized] in *; eauto.
      - destruct p; [eauto|destruct (Hs eq_refl)].
      - destruct (set_input_is d (n_map s) _ _ sc C0 C Hz (nr_map d s c H)) as [(_ & _ & A1) (_ & _ & A2) _ (_ & _ & A3) (_ & _ & A4) _ _ _ _ _].
        destruct Hz as (R & _ & O). unfold m_ok. rewrite A1, A2, A3, A4, O, R, Nat.leb_refl. cbn. eauto.
      - destruct (set_state_is d (n_map s) _ _ sc Hz (nr_map d s c H)) as [(_ & _ & A1) (_ & _ & A2) _ (_ & _ & A3) (_ & _ & A4) _ _ _ _ _].
        destruct Hz as (R & K & O). unfold m_ok. rewrite A1, A2, A3, A4, O, R, K, !Nat.eqb_refl. cbn. eauto.
      - destruct Hs as [-> _]. eauto.
      - destruct Hz as [Z1 Z2]. destruct (NR_mat_x d C0 C s c lo hi H Z1 Z2) as (s1 & -> & _). cbn. eauto.
      - destruct Hz as [Z1 Z2]. destruct (NR_mat_u d C0 C s c lo hi H Z1 Z2) as (s1 & -> & _). cbn. eauto.
      - destruct Hz as [Z1 Z2]. destruct (n_slice 0 nx ph lo hi sl s) as [[s' r]|] eqn:E; [eauto|]. exfalso.
        apply n_slice_undef in E; [|intros l El Hend; exact (n_bounds_x_ok d C0 C s _ lo hi sl l H Z1 Z2 El Hend)].
        destruct Hs as [Hi Hs]. apply (slice_undef ph sl small Hi) in E. destruct Hs as [U|[U|U]]; [|lia|lia].
        unfold slice_unset in U. apply andb_true_iff in U. rewrite !Z.eqb_eq in U. lia.
      - destruct Hz as [Z1 Z2]. destruct (n_slice (ph * nx) nu ch lo hi sl s) as [[s' r]|] eqn:E; [eauto|]. exfalso.
        apply n_slice_undef in E; [|intros l El Hend; exact (n_bounds_u_ok d C0 C s _ lo hi sl l H Z1 Z2 El Hend)].
        destruct Hs as [Hi Hs]. assert (small' : (Z.of_nat ch < 1073741824)%Z) by lia. apply (slice_undef ch sl small' Hi) in E. destruct Hs as [U|[U|U]]; [|lia|lia].
        unfold slice_unset in U. apply andb_true_iff in U. rewrite !Z.eqb_eq in U. lia.
      - destruct Hz as [Z1 Z2]. destruct a as [|z code cost].
        + rewrite (run_throw junk d ni ne C0 C s c x0 u0 H). eauto.
        + rewrite (run_solved junk d ni ne C0 C s c x0 u0 z code cost H Z1); [eauto|]. intros K. apply He. unfold has_eq in K. rewrite (nr_eqc d s c H) in K. destruct (k_eqc c); congruence. }
    destruct Ex as (s' & r & E). exists s', r. refine (conj E (conj (NR_step junk d ni ne dyn_eq C0 C s c op s' r H Hz E) _)).
    destruct op; cbn; try exact He; try (destruct acc; exact He); try (destruct r as [[]| | |]; exact He); try (destruct a; exact He).
    - destruct p; exact He.
    - intros _. apply Hs.
  Qed.
  (** no history of safe calls (SpecNLC.v: documented sizes, slices without negative ends, ...) is undefined, whatever the solver answers *)
  Theorem C51_safe_histories ops : 0 < ch -> ch <= ph -> (Z.of_nat ph < 1073741824)%Z -> Forall (nop_safe d ne dyn_eq) ops -> n_life junk d ni ne dyn_eq ops <> UB.
  Proof.
    intros C0 C small Hs. unfold n_life. rewrite (new_ok d C0 C). pose proof (NR_init d C0 C) as H. assert (He : k_eqc (ncfg0 : ncfg F) <> None -> 0 < ne) by (intros K; destruct (K eq_refl)).
    revert H He. generalize (n_init d : nmpc F) as s, (ncfg0 : ncfg F) as c. induction Hs as [|op ops Ho Hs IH]; intros s c H He; cbn [n_play]; [intros K; discriminate K|].
    destruct (step_safe s c op C0 C small H He Ho) as (s' & r & E & H' & He'). rewrite E. specialize (IH s' _ H' He'). destruct (n_play _ _ _ _ _ s' ops) as [[s2 h2]|]; [intros K; discriminate K|exact IH].
  Qed.
  (** the functions registered with the solver are defined at every decision vector of the right length *)
  Theorem C51_callbacks_defined s h x0 u0 z : 0 < ch -> ch <= ph -> reached s h -> gm x0 nx 1 -> length z = n_dec d ->
    (forall ev, nc_obj (call s x0 u0) = Some ev -> ev z <> UB) /\ (forall k tol ev, In (k, tol, ev) (nc_cons (call s x0 u0)) -> ev z <> UB).
  Proof.
    intros C0 C Hr G Lz. pose proof (nreached_NR junk d ni ne dyn_eq C0 C s h Hr) as H. pose proof (nr_map d s _ H) as HM. assert (P : 0 < ph) by lia.
    pose proof (vec_of_gm z (n_dec d) Lz) as GZ. destruct (cfg_inv_run d ni ne h) as (I1 & I2 & I3 & I4). split.
    - intros ev E. destruct (call_obj junk d ni ne s _ x0 H u0 ev E) as [B ->]. unfold eval_obj. rewrite (nr_obj d s _ H).
      destruct (k_obj (cf h)) as [f|] eqn:Hf; [|now specialize (I1 B)].
      pose proof (obj_evaluate_gm junk d (n_map s) _ _ HM P C0 C (vec_of z) x0 GZ G f (n_out s)) as (_ & _ & O).
      destruct (obj_evaluate _ _ _ _ _ _ _) as [v g]. cbn [snd] in O. rewrite O. intros K; discriminate K.
    - intros k tol ev I. destruct (call_con junk d ni ne s _ x0 H u0 k tol ev I) as [B ->]. unfold eval_con. destruct k.
      + rewrite (nr_dyn d s _ H). destruct (k_dyn (cf h)) as [f|]; [|destruct (I2 tol B) as [K _]; now contradiction K].
        destruct (seq_evaluate_gm junk d (n_map s) _ _ HM P C0 C (vec_of z) x0 GZ G f (n_ts s)) as ((_ & _ & O1) & (_ & _ & O2)).
        destruct (seq_evaluate _ _ _ _ _ _ _) as [v g]. cbn [fst snd] in O1, O2. rewrite O1, O2. intros K; discriminate K.
      + rewrite (nr_ieq d s _ H). destruct (k_ieq (cf h)) as [f|]; [|destruct (I3 tol B) as [K _]; now contradiction K].
        destruct (ieq_evaluate_gm junk d ni (n_map s) _ _ HM P C0 C (vec_of z) x0 GZ G f (n_out s)) as ((_ & _ & O1) & (_ & _ & O2)).
        destruct (ieq_evaluate _ _ _ _ _ _ _) as [v g]. cbn [fst snd] in O1, O2. rewrite O1, O2. intros K; discriminate K.
      + rewrite (nr_eqc d s _ H). destruct (k_eqc (cf h)) as [f|]; [|destruct (I4 tol B) as [K _]; now contradiction K].
        destruct (eqc_evaluate_gm junk d ne (n_map s) _ _ HM P C0 C (vec_of z) x0 GZ G f) as ((_ & _ & O1) & (_ & _ & O2)).
        destruct (eqc_evaluate _ _ _ _ _ _ _) as [v g]. cbn [fst snd] in O1, O2. rewrite O1, O2. intros K; discriminate K.
  Qed.
End Stmts.

(** *** Instances *)
Definition n_out_x0 : mat Qc := qv [100; 2]%Z.
Example C50_instance :
  existsb solved_event (nH nd 2 1 n_ops) = false /\ (forall j, j < d_nu nd -> k_su (ncfg_run nd 2 1 (nH nd 2 1 n_ops)) j <> s0) /\ gm n_out_x0 (d_nx nd) 1 /\
  (exists k j, k < d_ph nd /\ j < d_nx nd /\ ~ within (k_xlo (ncfg_run nd 2 1 (nH nd 2 1 n_ops)) k j) (k_xhi (ncfg_run nd 2 1 (nH nd 2 1 n_ops)) k j) (ent n_out_x0 j 0)).
Proof.
  destruct C30_instance as (_ & _ & _ & Su & Hs). refine (conj Hs (conj Su (conj _ _))); [repeat split|]. exists 0, 0. refine (conj _ (conj _ _)); [cbn; lia|cbn; lia|].
  apply within_dec_false. vm_compute. reflexivity.
Qed.
Example C51_instance : Forall (nop_safe nd 1 false) (n_warm_ops) /\ (Z.of_nat (d_ph nd) < 1073741824)%Z /\ 0 < d_nu (mkDims 2 1 0 1 2 3) /\ d_ph (mkDims 2 1 0 1 2 3) < d_ch (mkDims 2 1 0 1 2 3).
Proof.
  refine (conj _ (conj _ (conj _ _))); [|cbn; lia|cbn; lia|cbn; lia].
  repeat (apply Forall_cons; [split; [repeat split|]|]); try exact I; try apply Forall_nil; try (intros K; discriminate K); try (split; [reflexivity|lia]);
    (split; [split; reflexivity|]); [left; reflexivity|right; right; cbn; unfold int_min; lia].
Qed.
(** a history of two inequality constraints, the second refused by the solver *)
Definition n_two_ieq : list (nop Qc) := n_ops ++ [NSetIneq (fun _ _ _ _ k => q 5) (q 3) false].
Example C48_instance : nreached qj nd 2 1 false (nS nd 2 1 n_two_ieq) (nH nd 2 1 n_two_ieq) /\
  map fst (flat_map (accepted_by nd 2 1) (nH nd 2 1 n_two_ieq)) = [KDyn; KIneq; KEq] /\
  is_true_ret (n_step qj nd 2 1 false (nS nd 2 1 n_ops) (NSetIneq (fun _ _ _ _ k => q 5) (q 3) false)) = true.
Proof. refine (conj _ (conj _ _)); [n_reach|vm_compute; reflexivity|vm_compute; reflexivity]. Qed.
