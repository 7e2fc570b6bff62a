(** Properties C09 - C12, C43, C47: slices, rejected calls, frame properties, last writer wins.
    [reached], [cfg_run]: SpecLMPC.v.  [l_call d s x0 u0]: the data the code hands to the solver. *)
From Coq Require Import Bool Arith ZArith List Lia QArith Qcanon.
From Verif Require Import Scalar Sums Mat Slice Csc CscProof Builder LMPC SpecLMPC SpecQP LMPCRef LQP LRows LRows2 LDet Wit PropLMPC1.
Import ListNotations.
Local Open Scope nat_scope.

(** the horizon a slice setter refers to, as documented (LMPC.hpp:143-152, 192-204, 244-254, 345-354, 424-435,
    540-549, 604-615) and as checked by the code *)
Definition doc_horizon {F} (d : dims) (op : lop F) : Z :=
  match op with LSetInputBounds _ _ _ => Z.of_nat (d_ch d) | _ => Z.of_nat (d_ph d) end.
Definition used_horizon {F} (d : dims) (op : lop F) : Z :=
  match op with LSetInputBounds _ _ _ | LSetExo _ _ => Z.of_nat (d_ch d) | _ => Z.of_nat (d_ph d) end.

Section Slices.
  Context {F : Type} {SO : ScalarOps F}.
  Variable junk : nat -> nat -> F.
  Variable ejunk : nat -> nat -> ext F.
  Variable d : dims.

  Lemma slice_check_iff H sl b : slice_check H sl = Ok b ->
    b = true <-> (sl_start sl < sl_end sl /\ sl_end sl <= H /\ sl_start sl + sl_end sl <= H)%Z.
  Proof.
    unfold slice_check. rewrite Z.geb_leb, !Z.gtb_ltb.
    destruct (Z.leb_spec (sl_end sl) (sl_start sl)); [intros E; inversion E; subst; split; [discriminate|lia]|].
    destruct (Z.ltb_spec H (sl_start sl)); [intros E; inversion E; subst; split; [discriminate|lia]|].
    destruct (Z.ltb_spec H (sl_end sl)); [intros E; inversion E; subst; split; [discriminate|lia]|].
    destruct (is_int _); [|discriminate]. intros E; inversion E; subst.
    rewrite negb_true_iff, Z.ltb_ge. lia.
  Qed.
  Lemma on_slice_ret H sl whole one (s s' : lmpc F) r : on_slice H sl whole one s = Ok (s', r) ->
    let acc := slice_unset sl = true \/
      (sl_start sl < sl_end sl /\ sl_end sl <= Z.of_nat H /\ sl_start sl + sl_end sl <= Z.of_nat H)%Z in
    (r = RBool true /\ acc) \/ (r = RBool false /\ ~ acc /\ s' = s).
  Proof.
    unfold on_slice. destruct (slice_unset sl) eqn:EU.
    - intros E. apply finish_inv in E. destruct E as (_ & -> & _). left. split; [reflexivity|now left].
    - destruct (slice_check _ sl) as [b|] eqn:EC; [|discriminate].
      pose proof (slice_check_iff _ _ _ EC) as HB. destruct b.
      + destruct (slice_steps sl); [|discriminate]. intros E. apply finish_inv in E. destruct E as (_ & -> & _).
        left. split; [reflexivity|]. right. now apply HB.
      + intros E. inversion E; subst. right. split; [reflexivity|]. split; [|reflexivity].
        intros [C|C]; [discriminate|]. apply HB in C. discriminate.
  Qed.

  (** C09: the exact acceptance condition of every slice setter *)
  Theorem C09_slice_acceptance s op sl s' r :
    slice_of op = Some sl -> l_step junk ejunk d s op = Ok (s', r) ->
    (r = RBool true <-> slice_unset sl = true \/
       (sl_start sl < sl_end sl /\ sl_end sl <= used_horizon d op /\ sl_start sl + sl_end sl <= used_horizon d op)%Z) /\
    (r = RBool true \/ r = RBool false).
  Proof.
    intros Hs E. destruct op; cbn in Hs; try discriminate; inversion Hs; subst; cbn [l_step used_horizon] in *;
      apply on_slice_ret in E; cbn zeta in E; destruct E as [[-> A]|(-> & A & _)];
      (split; [|now auto]); split; intros; try tauto; discriminate.
  Qed.
  (** hence (half of the intended property): an accepted slice that starts at a non-negative step lies in the horizon *)
  Theorem C09_accepted_inside s op sl s' :
    slice_of op = Some sl -> slice_proper sl -> l_step junk ejunk d s op = Ok (s', RBool true) ->
    slice_unset sl = true \/ (0 <= sl_start sl < sl_end sl /\ sl_end sl <= used_horizon d op)%Z.
  Proof.
    intros Hs Hp E. destruct (proj1 (proj1 (C09_slice_acceptance s op sl s' _ Hs E)) eq_refl) as [U|A]; [now left|].
    destruct Hp as [U|P]; [now left|right; lia].
  Qed.
  (** the indexed form accepts exactly the steps of the prediction horizon *)
  Theorem C09_index_acceptance s i mn mx X U s' r :
    l_step junk ejunk d s (LSetScalarIdx i mn mx X U) = Ok (s', r) ->
    (r = RBool true <-> (i < N.of_nat (d_ph d))%N) /\ (r = RBool true \/ r = RBool false).
  Proof.
    cbn [l_step]. destruct (N.leb_spec (N.of_nat (d_ph d)) i) as [A|A]; intros E.
    - inversion E; subst. split; [|now auto]. split; [discriminate|lia].
    - apply finish_inv in E. destruct E as (_ & -> & _). split; [|now auto]. split; intros; [assumption|reflexivity].
  Qed.

  (** C10: a call that returns false or throws leaves the object exactly as it was *)
  Theorem C10_rejected_changes_nothing s op s' r :
    l_step junk ejunk d s op = Ok (s', r) -> r = RBool false \/ r = RThrow -> s' = s.
  Proof.
    intros E Hr. destruct op; cbn [l_step] in E;
      try (apply finish_inv in E; destruct E as (_ & -> & _); destruct Hr; discriminate);
      try (apply on_slice_ret in E; cbn zeta in E; destruct E as [[-> _]|(_ & _ & E)]; [destruct Hr; discriminate|exact E]).
    - destruct (_ <=? _)%N; [now inversion E|]. apply finish_inv in E. destruct E as (_ & -> & _). destruct Hr; discriminate.
    - destruct p; [|discriminate]. inversion E; subst. destruct Hr; discriminate.
    - inversion E; subst. destruct Hr; discriminate.
    - now inversion E.
    - now inversion E.
    - now inversion E.
    - destruct (l_run d s x0 u0 a) as [sn|]; [|discriminate]. destruct (l_ok sn); inversion E; subst. destruct Hr; discriminate.
  Qed.

  (** what each call answers: the calls the linear controller does not support throw (and only they do), a setter with a slice or an index says
      whether it was accepted, every other setter succeeds, optimize returns a result *)
  Theorem C10_return_values s op s' r : l_step junk ejunk d s op = Ok (s', r) ->
    match op with
    | LSetSampling | LSetInputScale | LSetStateScale => r = RThrow /\ s' = s
    | LSetStateBounds _ _ sl | LSetOutputBounds _ _ sl | LSetWeights _ _ _ sl | LSetScalar _ _ _ _ sl | LSetRefs _ _ _ sl =>
        (r = RBool true /\ slice_accepted (d_ph d) sl) \/ (r = RBool false /\ ~ slice_accepted (d_ph d) sl /\ s' = s)
    | LSetInputBounds _ _ sl | LSetExo _ sl =>
        (r = RBool true /\ slice_accepted (d_ch d) sl) \/ (r = RBool false /\ ~ slice_accepted (d_ch d) sl /\ s' = s)
    | LSetScalarIdx i _ _ _ _ => (r = RBool true /\ (i < N.of_nat (d_ph d))%N) \/ (r = RBool false /\ (N.of_nat (d_ph d) <= i)%N /\ s' = s)
    | LSetParams _ | LSetWarm _ _ => r = RVoid
    | LOptimize _ _ _ => exists res, r = RResult res
    | _ => r = RBool true
    end.
  Proof.
    intros E. destruct op; cbn [l_step] in E; try (apply finish_inv in E; destruct E as (_ & -> & _); reflexivity); try (exact (on_slice_ret _ _ _ _ _ _ _ E)).
    - destruct (N.leb_spec (N.of_nat (d_ph d)) index) as [A|A]; [right; inversion E; subst; auto|]. apply finish_inv in E. destruct E as (_ & -> & _). left. auto.
    - destruct p; [|discriminate E]. inversion E; subst. reflexivity.
    - inversion E; subst. reflexivity.
    - inversion E; subst. auto.
    - inversion E; subst. auto.
    - inversion E; subst. auto.
    - destruct (l_run d s x0 u0 a) as [sn|]; [|discriminate E]. destruct (l_ok sn); [|discriminate E]. inversion E; subst. eexists. reflexivity.
  Qed.
  (** and the unsupported calls are never undefined *)
  Theorem C10_unsupported_throw s op : op = LSetSampling \/ op = LSetInputScale \/ op = LSetStateScale -> l_step junk ejunk d s op = Ok (s, RThrow).
  Proof. intros [->|[->| ->]]; reflexivity. Qed.

  (** C43: the validity test overflows exactly for slices of two very negative ends *)
  Theorem C43_overflow_exactly H sl : (0 <= H <= 1073741823)%Z -> slice_int sl ->
    slice_check H sl = UB <-> (sl_start sl < sl_end sl /\ sl_end sl <= H /\ sl_start sl + sl_end sl < int_min)%Z.
  Proof.
    intros HH [H1 H2]. unfold is_int in H1, H2. rewrite andb_true_iff, !Z.leb_le in H1, H2.
    unfold slice_check. rewrite Z.geb_leb, !Z.gtb_ltb. unfold int_min, int_max in *.
    destruct (Z.leb_spec (sl_end sl) (sl_start sl)); [split; [discriminate|lia]|].
    destruct (Z.ltb_spec H (sl_start sl)); [split; [discriminate|lia]|].
    destruct (Z.ltb_spec H (sl_end sl)); [split; [discriminate|lia]|].
    destruct (is_int _) eqn:E; unfold is_int, int_min, int_max in E.
    - rewrite andb_true_iff, !Z.leb_le in E. split; [discriminate|lia].
    - rewrite andb_false_iff, !Z.leb_gt in E. split; [lia|reflexivity].
  Qed.
End Slices.

Section Frame.
  Context {F : Type} {SO : ScalarOps F} {SL : ScalarLaws F}.
  Variable junk : nat -> nat -> F.
  Variable ejunk : nat -> nat -> ext F.
  Variable d : dims.
  Notation nx := (d_nx d). Notation nu := (d_nu d). Notation ndu := (d_ndu d).
  Notation ny := (d_ny d). Notation ph := (d_ph d). Notation ch := (d_ch d).
  Notation w := (nu + nx).
  Notation N1 := ((ph + 1) * (nu + nx)).
  Notation reached := (SpecLMPC.reached junk ejunk d).
  Notation step := (l_step junk ejunk d).

  Lemma l_play_app ops ops' : forall s, l_play junk ejunk d s (ops ++ ops') =
    match l_play junk ejunk d s ops with
    | UB => UB
    | Ok (s', h) => match l_play junk ejunk d s' ops' with UB => UB | Ok (s'', h') => Ok (s'', h ++ h') end
    end.
  Proof.
    induction ops as [|op ops IH]; intros s; cbn [app l_play].
    - now destruct (l_play junk ejunk d s ops') as [[? ?]|].
    - destruct (step s op) as [[s1 r]|]; [|reflexivity]. rewrite IH.
      destruct (l_play junk ejunk d s1 ops) as [[s2 h]|]; [|reflexivity].
      now destruct (l_play junk ejunk d s2 ops') as [[? ?]|].
  Qed.
  Lemma reached_snoc s h op s' r : reached s h -> op_sized d op -> op_proper op -> step s op = Ok (s', r) ->
    reached s' (h ++ [(op, r)]).
  Proof.
    intros (ops & H1 & H2 & H3) S P E. exists (ops ++ [op]). refine (conj _ (conj _ _)).
    - apply Forall_app. split; [exact H1|]. constructor; [exact S|constructor].
    - apply Forall_app. split; [exact H2|]. constructor; [exact P|constructor].
    - rewrite l_play_app, H3. cbn [l_play]. now rewrite E.
  Qed.
  Lemma cfg_run_snoc (h : list (lop F * ret F)) e : cfg_run (h ++ [e]) = cfg_step (cfg_run h) e.
  Proof. unfold cfg_run. now rewrite fold_left_app. Qed.
  Lemma eqm_refl' {T} a b (f : nat -> nat -> T) : eqm a b f f. Proof. intros ? ? _ _. reflexivity. Qed.
  Lemma eqv_refl' {T} a (f : nat -> T) : eqv a f f. Proof. intros ? _. reflexivity. Qed.
  Lemma same_plant_refl' (a : option (plant F)) : same_plant d a a.
  Proof. destruct a; cbn; [|exact I]. refine (conj _ (conj _ _)); apply eqm_refl'. Qed.
  Lemma smr (c c' : cfg F) : g_plant c' = g_plant c -> g_Bd c' = g_Bd c -> g_Dd c' = g_Dd c -> same_model d c c'.
  Proof. intros A B C. unfold same_model. rewrite A, B, C. refine (conj (same_plant_refl' _) (conj _ _)); apply eqm_refl'. Qed.
  Lemma slice_put {T} a b (v : nat -> T) f k j : (0 <= a)%Z ->
    put (in_slice (mkSlice a b)) v f k j = if ((a <=? Z.of_nat k)%Z && (Z.of_nat k <? b)%Z) then v j else f k j.
  Proof. intros Ha. unfold put, in_slice, slice_unset. cbn [sl_start sl_end].
    destruct (Z.eqb_spec a (-1)); [lia|reflexivity]. Qed.
  Lemma slice_put1 {T} a b (v : T) f k : (0 <= a)%Z ->
    put1 (in_slice (mkSlice a b)) v f k = if ((a <=? Z.of_nat k)%Z && (Z.of_nat k <? b)%Z) then v else f k.
  Proof. intros Ha. unfold put1, in_slice, slice_unset. cbn [sl_start sl_end].
    destruct (Z.eqb_spec a (-1)); [lia|reflexivity]. Qed.
  Notation inside a b k := ((a <=? Z.of_nat k)%Z && (Z.of_nat k <? b)%Z).

  Ltac noch := first [apply eqm_refl'|apply eqv_refl'].

  (** C11, bounds: after an accepted setStateBounds(min, max, {a,b}), the rows of the states x(i) whose step (i-1, or
      0 for x(0)) is in [a,b) carry the new bounds, and no other row, no cost and no matrix entry changes *)
  Theorem C11_state_bounds s h mn mx a b s' x0 u0 :
    0 < ph -> reached s h -> sized mn nx 1 -> sized mx nx 1 -> (0 <= a)%Z ->
    step s (LSetStateBounds mn mx (mkSlice a b)) = Ok (s', RBool true) ->
    sized x0 nx 1 -> sized u0 nu 1 ->
    let cl := l_call d s x0 u0 in let cl' := l_call d s' x0 u0 in
    cl_n cl' = cl_n cl /\ cl_m cl' = cl_m cl /\ cl_P cl' = cl_P cl /\ cl_q cl' = cl_q cl /\ cl_A cl' = cl_A cl /\
    (forall i j, i <= ph -> j < nx -> let r := N1 + (i * w + j) in
       nth r (cl_l cl') PInf = (if inside a b (Nat.pred i) then vec mn j else nth r (cl_l cl) PInf) /\
       nth r (cl_u cl') MInf = (if inside a b (Nat.pred i) then vec mx j else nth r (cl_u cl) MInf)) /\
    (forall r, r < cl_m cl -> (forall i j, i <= ph -> j < nx -> r <> N1 + (i * w + j)) ->
       nth r (cl_l cl') PInf = nth r (cl_l cl) PInf /\ nth r (cl_u cl') MInf = nth r (cl_u cl) MInf).
  Proof.
    intros P H S1 S2 Ha E X U cl cl'.
    pose proof (reached_snoc s h (LSetStateBounds mn mx (mkSlice a b)) s' (RBool true) H (conj S1 S2) (or_intror Ha) E) as H'.
    pose proof (reached_R _ _ _ _ _ P H) as HR. pose proof (reached_R _ _ _ _ _ P H') as HR'.
    rewrite cfg_run_snoc in HR'. cbn [cfg_step fst snd cfg_apply] in HR'. set (c := cfg_run h) in *.
    set (c' := set_xb c _ _) in HR'.
    assert (SM : same_model d c c') by (apply smr; reflexivity).
    assert (SD : same_dist d c c') by (apply eqm_refl').
    destruct (l_call_sizes junk junk ejunk ejunk d s s' c c' x0 u0 x0 u0 HR HR') as [E1 E2].
    refine (conj (eq_sym E1) (conj (eq_sym E2) (conj _ (conj _ (conj _ (conj _ _)))))).
    - symmetry. eapply l_call_P; try eassumption. refine (conj _ (conj _ _)); noch.
    - symmetry. eapply l_call_q; try eassumption; refine (conj _ (conj _ _)); noch.
    - symmetry. eapply l_call_A; try eassumption. split; noch.
    - intros i j Hi Hj r. unfold r, cl, cl'.
      destruct (bound_x junk ejunk d P s c x0 u0 HR X U i j Hi Hj) as [-> ->].
      destruct (bound_x junk ejunk d P s' c' x0 u0 HR' X U i j Hi Hj) as [-> ->].
      unfold c'. cbn [set_xb g_xlo g_xhi]. rewrite !slice_put by assumption. split; reflexivity.
    - intros r Hr HN.
      destruct (rows_changed junk ejunk d P s s' c c' x0 u0 HR HR' X U (fun r => exists i j, i <= ph /\ j < nx /\ r = N1 + (i * w + j))) with (r := r)
        as [(i & j & Hi & Hj & ->)|[L1 L2]]; try assumption;
        try (left; split; noch); try (right; intros; eauto 6; fail).
      + pose proof (cl_dims junk ejunk d P s c x0 u0 HR X U) as [_ <-]. exact Hr.
      + exfalso. exact (HN i j Hi Hj eq_refl).
      + split; symmetry; assumption.
  Qed.
  (** the same for input bounds: the bounds of step k are carried by row block k (and the last also by row block ph) *)
  Theorem C11_input_bounds s h mn mx a b s' x0 u0 :
    0 < ph -> reached s h -> sized mn nu 1 -> sized mx nu 1 -> (0 <= a)%Z ->
    step s (LSetInputBounds mn mx (mkSlice a b)) = Ok (s', RBool true) ->
    sized x0 nx 1 -> sized u0 nu 1 ->
    let cl := l_call d s x0 u0 in let cl' := l_call d s' x0 u0 in
    cl_n cl' = cl_n cl /\ cl_m cl' = cl_m cl /\ cl_P cl' = cl_P cl /\ cl_q cl' = cl_q cl /\ cl_A cl' = cl_A cl /\
    (forall i j, i <= ph -> j < nu -> let r := N1 + (i * w + (nx + j)) in let k := Nat.min i (ph - 1) in
       nth r (cl_l cl') PInf = (if inside a b k then vec mn j else nth r (cl_l cl) PInf) /\
       nth r (cl_u cl') MInf = (if inside a b k then vec mx j else nth r (cl_u cl) MInf)) /\
    (forall r, r < cl_m cl -> (forall i j, i <= ph -> j < nu -> r <> N1 + (i * w + (nx + j))) ->
       nth r (cl_l cl') PInf = nth r (cl_l cl) PInf /\ nth r (cl_u cl') MInf = nth r (cl_u cl) MInf).
  Proof.
    intros P H S1 S2 Ha E X U cl cl'.
    pose proof (reached_snoc s h (LSetInputBounds mn mx (mkSlice a b)) s' (RBool true) H (conj S1 S2) (or_intror Ha) E) as H'.
    pose proof (reached_R _ _ _ _ _ P H) as HR. pose proof (reached_R _ _ _ _ _ P H') as HR'.
    rewrite cfg_run_snoc in HR'. cbn [cfg_step fst snd cfg_apply] in HR'. set (c := cfg_run h) in *.
    set (c' := set_ub c _ _) in HR'.
    assert (SM : same_model d c c') by (apply smr; reflexivity).
    assert (SD : same_dist d c c') by (apply eqm_refl').
    destruct (l_call_sizes junk junk ejunk ejunk d s s' c c' x0 u0 x0 u0 HR HR') as [E1 E2].
    refine (conj (eq_sym E1) (conj (eq_sym E2) (conj _ (conj _ (conj _ (conj _ _)))))).
    - symmetry. eapply l_call_P; try eassumption. refine (conj _ (conj _ _)); noch.
    - symmetry. eapply l_call_q; try eassumption; refine (conj _ (conj _ _)); noch.
    - symmetry. eapply l_call_A; try eassumption. split; noch.
    - intros i j Hi Hj r k. unfold r, cl, cl'.
      destruct (bound_u junk ejunk d P s c x0 u0 HR X U i j Hi Hj) as [-> ->].
      destruct (bound_u junk ejunk d P s' c' x0 u0 HR' X U i j Hi Hj) as [-> ->].
      unfold c'. cbn [set_ub g_ulo g_uhi]. rewrite !slice_put by assumption. split; reflexivity.
    - intros r Hr HN.
      destruct (rows_changed junk ejunk d P s s' c c' x0 u0 HR HR' X U (fun r => exists i j, i <= ph /\ j < nu /\ r = N1 + (i * w + (nx + j)))) with (r := r)
        as [(i & j & Hi & Hj & ->)|[L1 L2]]; try assumption;
        try (left; split; noch); try (right; intros; eauto 6; fail).
      + pose proof (cl_dims junk ejunk d P s c x0 u0 HR X U) as [_ <-]. exact Hr.
      + exfalso. exact (HN i j Hi Hj eq_refl).
      + split; symmetry; assumption.
  Qed.
  (** output bounds (the row carries the bound minus the contribution Dd d of the measured disturbance) *)
  Theorem C11_output_bounds s h mn mx a b s' x0 u0 :
    0 < ph -> reached s h -> sized mn ny 1 -> sized mx ny 1 -> (0 <= a)%Z ->
    step s (LSetOutputBounds mn mx (mkSlice a b)) = Ok (s', RBool true) ->
    sized x0 nx 1 -> sized u0 nu 1 ->
    let cl := l_call d s x0 u0 in let cl' := l_call d s' x0 u0 in
    cl_n cl' = cl_n cl /\ cl_m cl' = cl_m cl /\ cl_P cl' = cl_P cl /\ cl_q cl' = cl_q cl /\ cl_A cl' = cl_A cl /\
    (forall i j, i <= ph -> j < ny -> let r := N1 + (N1 + (i * ny + j)) in
       let off := sopp (ssum ndu (fun m => (g_Dd (cfg_run h) j m * g_d (cfg_run h) (Nat.pred i) m)%S)) in
       nth r (cl_l cl') PInf = (if inside a b (Nat.pred i) then eadd (vec mn j) off else nth r (cl_l cl) PInf) /\
       nth r (cl_u cl') MInf = (if inside a b (Nat.pred i) then eadd (vec mx j) off else nth r (cl_u cl) MInf)) /\
    (forall r, r < cl_m cl -> (forall i j, i <= ph -> j < ny -> r <> N1 + (N1 + (i * ny + j))) ->
       nth r (cl_l cl') PInf = nth r (cl_l cl) PInf /\ nth r (cl_u cl') MInf = nth r (cl_u cl) MInf).
  Proof.
    intros P H S1 S2 Ha E X U cl cl'.
    pose proof (reached_snoc s h (LSetOutputBounds mn mx (mkSlice a b)) s' (RBool true) H (conj S1 S2) (or_intror Ha) E) as H'.
    pose proof (reached_R _ _ _ _ _ P H) as HR. pose proof (reached_R _ _ _ _ _ P H') as HR'.
    rewrite cfg_run_snoc in HR'. cbn [cfg_step fst snd cfg_apply] in HR'. set (c := cfg_run h) in *.
    set (c' := set_yb c _ _) in HR'.
    assert (SM : same_model d c c') by (apply smr; reflexivity).
    assert (SD : same_dist d c c') by (apply eqm_refl').
    destruct (l_call_sizes junk junk ejunk ejunk d s s' c c' x0 u0 x0 u0 HR HR') as [E1 E2].
    refine (conj (eq_sym E1) (conj (eq_sym E2) (conj _ (conj _ (conj _ (conj _ _)))))).
    - symmetry. eapply l_call_P; try eassumption. refine (conj _ (conj _ _)); noch.
    - symmetry. eapply l_call_q; try eassumption; refine (conj _ (conj _ _)); noch.
    - symmetry. eapply l_call_A; try eassumption. split; noch.
    - intros i j Hi Hj r off. unfold r, cl, cl'.
      destruct (row_y junk ejunk d P s c x0 u0 HR X U i j Hi Hj) as [-> ->].
      destruct (row_y junk ejunk d P s' c' x0 u0 HR' X U i j Hi Hj) as [-> ->].
      unfold c'. cbn [set_yb g_ylo g_yhi g_Dd g_d]. rewrite !slice_put by assumption. unfold stp.
      split; destruct (inside a b (Nat.pred i)); reflexivity.
    - intros r Hr HN.
      destruct (rows_changed junk ejunk d P s s' c c' x0 u0 HR HR' X U (fun r => exists i j, i <= ph /\ j < ny /\ r = N1 + (N1 + (i * ny + j)))) with (r := r)
        as [(i & j & Hi & Hj & ->)|[L1 L2]]; try assumption;
        try (left; split; noch); try (right; intros; eauto 6; fail).
      + pose proof (cl_dims junk ejunk d P s c x0 u0 HR X U) as [_ <-]. exact Hr.
      + exfalso. exact (HN i j Hi Hj eq_refl).
      + split; symmetry; assumption.
  Qed.
  (** scalar constraint bounds (its multipliers are NOT local to the slice: see C08) *)
  Theorem C11_scalar_bounds s h mn mx sX sU a b s' x0 u0 :
    0 < ph -> reached s h -> sized sX nx 1 -> sized sU nu 1 -> (0 <= a)%Z ->
    step s (LSetScalar mn mx sX sU (mkSlice a b)) = Ok (s', RBool true) ->
    sized x0 nx 1 -> sized u0 nu 1 ->
    let cl := l_call d s x0 u0 in let cl' := l_call d s' x0 u0 in
    cl_n cl' = cl_n cl /\ cl_m cl' = cl_m cl /\ cl_P cl' = cl_P cl /\ cl_q cl' = cl_q cl /\
    (forall i, i <= ph -> let r := N1 + (N1 + (ph + 1) * ny + ph * nu + i) in
       nth r (cl_l cl') PInf = (if inside a b (Nat.pred i) then mn else nth r (cl_l cl) PInf) /\
       nth r (cl_u cl') MInf = (if inside a b (Nat.pred i) then mx else nth r (cl_u cl) MInf)) /\
    (forall r, r < cl_m cl -> (forall i, i <= ph -> r <> N1 + (N1 + (ph + 1) * ny + ph * nu + i)) ->
       nth r (cl_l cl') PInf = nth r (cl_l cl) PInf /\ nth r (cl_u cl') MInf = nth r (cl_u cl) MInf).
  Proof.
    intros P H S1 S2 Ha E X U cl cl'.
    pose proof (reached_snoc s h (LSetScalar mn mx sX sU (mkSlice a b)) s' (RBool true) H (conj S1 S2) (or_intror Ha) E) as H'.
    pose proof (reached_R _ _ _ _ _ P H) as HR. pose proof (reached_R _ _ _ _ _ P H') as HR'.
    rewrite cfg_run_snoc in HR'. cbn [cfg_step fst snd cfg_apply] in HR'. set (c := cfg_run h) in *.
    set (c' := set_sc c _ _ _ _) in HR'.
    assert (SM : same_model d c c') by (apply smr; reflexivity).
    assert (SD : same_dist d c c') by (apply eqm_refl').
    destruct (l_call_sizes junk junk ejunk ejunk d s s' c c' x0 u0 x0 u0 HR HR') as [E1 E2].
    refine (conj (eq_sym E1) (conj (eq_sym E2) (conj _ (conj _ (conj _ _))))).
    - symmetry. eapply l_call_P; try eassumption. refine (conj _ (conj _ _)); noch.
    - symmetry. eapply l_call_q; try eassumption; refine (conj _ (conj _ _)); noch.
    - intros i Hi r. unfold r, cl, cl'.
      destruct (bound_s junk ejunk d P s c x0 u0 HR X U i Hi) as [-> ->].
      destruct (bound_s junk ejunk d P s' c' x0 u0 HR' X U i Hi) as [-> ->].
      unfold c'. cbn [set_sc g_slo g_shi]. rewrite !slice_put1 by assumption. unfold stp. split; reflexivity.
    - intros r Hr HN.
      destruct (rows_changed junk ejunk d P s s' c c' x0 u0 HR HR' X U (fun r => exists i, i <= ph /\ r = N1 + (N1 + (ph + 1) * ny + ph * nu + i))) with (r := r)
        as [(i & Hi & ->)|[L1 L2]]; try assumption;
        try (left; split; noch); try (right; intros; eauto 6; fail).
      + pose proof (cl_dims junk ejunk d P s c x0 u0 HR X U) as [_ <-]. exact Hr.
      + exfalso. exact (HN i Hi eq_refl).
      + split; symmetry; assumption.
  Qed.

  (** C11, all setters: a slice call (including 'all') has the effect of the whole-horizon call whose column k is
      the new value on the slice and the currently configured value elsewhere *)
  Definition mat_form (c : cfg F) (op opm : lop F) : Prop :=
    let upd {T} (n : nat) (M : mat T) (sl : slice) (v : mat T) (old : nat -> nat -> T) :=
      forall k j, k < ph -> j < n -> ent M j k = if in_slice sl k then vec v j else old k j in
    match op, opm with
    | LSetStateBounds mn mx sl, LSetStateBoundsMat Mn Mx => upd nx Mn sl mn (g_xlo c) /\ upd nx Mx sl mx (g_xhi c)
    | LSetInputBounds mn mx sl, LSetInputBoundsMat Mn Mx => upd nu Mn sl mn (g_ulo c) /\ upd nu Mx sl mx (g_uhi c)
    | LSetOutputBounds mn mx sl, LSetOutputBoundsMat Mn Mx => upd ny Mn sl mn (g_ylo c) /\ upd ny Mx sl mx (g_yhi c)
    | LSetWeights a b e sl, LSetWeightsMat A B E =>
        upd ny A sl a (g_wy c) /\ upd nu B sl b (g_wu c) /\ upd nu E sl e (g_wdu c)
    | LSetExo v sl, LSetExoMat M => upd ndu M sl v (g_d c)
    | LSetRefs y u du sl, LSetRefsMat Y U DU =>
        upd ny Y sl y (g_yr c) /\ upd nu U sl u (g_ur c) /\ upd nu DU sl du (g_dur c)
    | _, _ => False end.
  Theorem C11_slice_is_patched_matrix s h op opm s1 s2 x0 u0 :
    0 < ph -> reached s h -> op_sized d op -> op_proper op -> op_sized d opm ->
    step s op = Ok (s1, RBool true) -> mat_form (cfg_run h) op opm -> step s opm = Ok (s2, RBool true) ->
    sized x0 nx 1 -> sized u0 nu 1 ->
    same_problem (l_call d s1 x0 u0) (l_call d s2 x0 u0).
  Proof.
    intros P H S1 P1 S2 E1 HM E2 X U.
    assert (P2 : op_proper opm) by (destruct op, opm; cbn in HM; try contradiction; exact I).
    pose proof (reached_R _ _ _ _ _ P (reached_snoc _ _ _ _ _ H S1 P1 E1)) as R1.
    pose proof (reached_R _ _ _ _ _ P (reached_snoc _ _ _ _ _ H S2 P2 E2)) as R2.
    rewrite cfg_run_snoc in R1, R2. cbn [cfg_step fst snd] in R1, R2.
    eapply l_call_det; [eassumption|eassumption|eassumption| |split; [assumption|split; [assumption|reflexivity]]..].
    destruct op, opm; cbn in HM; try contradiction; split; cbn [cfg_apply set_xb set_ub set_yb set_weights set_dist set_refs];
      try (apply smr; reflexivity); try reflexivity;
      try (split; noch); try (refine (conj _ (conj _ _)); noch); try noch;
      try (destruct HM as [M1 M2]; split; intros k j Hk Hj; cbn; unfold cols, put; symmetry; auto; fail);
      try (destruct HM as (M1 & M2 & M3); refine (conj _ (conj _ _)); intros k j Hk Hj; cbn; unfold cols, put; symmetry; auto; fail).
    intros k j Hk Hj. cbn. unfold cols, put. symmetry. now apply HM.
  Qed.

  (** C12: two histories with the same configuration give the same problem, whatever the uninitialised storage
      contained ([junk], [ejunk]) *)
  Theorem C12_same_configuration_same_problem junk' ejunk' s s' h h' x0 u0 x0' u0' :
    0 < ph -> reached s h -> SpecLMPC.reached junk' ejunk' d s' h' -> ceq d (cfg_run h) (cfg_run h') ->
    sized x0 nx 1 -> sized u0 nu 1 -> sized x0' nx 1 -> sized u0' nu 1 ->
    eqv nx (vec x0) (vec x0') -> eqv nu (vec u0) (vec u0') ->
    same_problem (l_call d s x0 u0) (l_call d s' x0' u0').
  Proof.
    intros P H H' E X U X' U' EX EU.
    assert (C1 : forall a b (M N : mat F), sized M a 1 -> sized N a 1 -> b = 1 -> eqv a (vec M) (vec N) -> meq M N a b).
    { intros a b M N SM SN -> EV. split; [exact SM|split; [exact SN|]]. intros i j Hi Hj. assert (j = 0) as -> by lia. now apply EV. }
    eapply l_call_det; [eassumption|exact (reached_R _ _ _ _ _ P H)|exact (reached_R _ _ _ _ _ P H')|exact E|now apply C1|now apply C1].
  Qed.

  (** the ten groups of settings *)
  Inductive group := GModel | GDist | GWeights | GState | GOutput | GInput | GScalar | GRefs | GExo | GParams.
  Definition op_group (op : lop F) : option group :=
    match op with
    | LSetModel _ _ _ => Some GModel
    | LSetDisturbances _ _ => Some GDist
    | LSetStateBoundsMat _ _ | LSetStateBounds _ _ _ => Some GState
    | LSetInputBoundsMat _ _ | LSetInputBounds _ _ _ => Some GInput
    | LSetOutputBoundsMat _ _ | LSetOutputBounds _ _ _ => Some GOutput
    | LSetWeightsMat _ _ _ | LSetWeights _ _ _ _ => Some GWeights
    | LSetScalar _ _ _ _ _ | LSetScalarIdx _ _ _ _ _ => Some GScalar
    | LSetExoMat _ | LSetExo _ _ => Some GExo
    | LSetRefsMat _ _ _ | LSetRefs _ _ _ _ => Some GRefs
    | LSetParams _ => Some GParams
    | LSetWarm _ _ | LSetSampling | LSetInputScale | LSetStateScale | LOptimize _ _ _ => None
    end.
  Definition group_eqb (a b : group) : bool :=
    match a, b with
    | GModel, GModel | GDist, GDist | GWeights, GWeights | GState, GState | GOutput, GOutput | GInput, GInput
    | GScalar, GScalar | GRefs, GRefs | GExo, GExo | GParams, GParams => true
    | _, _ => false end.
  (** the calls of one group that were not rejected, in order *)
  Definition calls_of (g : group) (h : list (lop F * ret F)) : list (lop F * ret F) :=
    filter (fun e => match snd e with RBool false | RThrow => false | _ => true end &&
                     match op_group (fst e) with Some g' => group_eqb g g' | None => false end) h.
  Definition same_group (g : group) (a b : cfg F) : Prop :=
    match g with
    | GModel => g_plant a = g_plant b
    | GDist => g_Bd a = g_Bd b /\ g_Dd a = g_Dd b
    | GWeights => g_wy a = g_wy b /\ g_wu a = g_wu b /\ g_wdu a = g_wdu b
    | GState => g_xlo a = g_xlo b /\ g_xhi a = g_xhi b
    | GOutput => g_ylo a = g_ylo b /\ g_yhi a = g_yhi b
    | GInput => g_ulo a = g_ulo b /\ g_uhi a = g_uhi b
    | GScalar => g_slo a = g_slo b /\ g_shi a = g_shi b /\ g_sX a = g_sX b /\ g_sU a = g_sU b
    | GRefs => g_yr a = g_yr b /\ g_ur a = g_ur b /\ g_dur a = g_dur b
    | GExo => g_d a = g_d b
    | GParams => g_par a = g_par b end.
  Lemma cfg_step_group g e a b : same_group g a b -> same_group g (cfg_step a e) (cfg_step b e).
  Proof.
    intros H. destruct e as [op r]. unfold cfg_step. cbn [fst snd].
    assert (G : same_group g (cfg_apply op a) (cfg_apply op b)).
    { destruct op as [ | | | | | | | | | | | | | | | |[]| | | | | ], g; cbn in *; intuition congruence. }
    destruct r as [[|]| | |]; assumption.
  Qed.
  Lemma cfg_step_other g e a :
    match snd e with RBool false | RThrow => false | _ => true end &&
    match op_group (fst e) with Some g' => group_eqb g g' | None => false end = false ->
    same_group g (cfg_step a e) a.
  Proof.
    destruct e as [op r]. unfold cfg_step. cbn [fst snd]. intros H.
    assert (RF : same_group g a a) by (destruct g; cbn; repeat split; reflexivity).
    assert (G : match op_group op with Some g' => group_eqb g g' | None => false end = false -> same_group g (cfg_apply op a) a).
    { clear H. destruct op as [ | | | | | | | | | | | | | | | |[]| | | | | ], g; cbn; intros E; try discriminate; repeat split; reflexivity. }
    destruct r as [[|]| | |]; try exact RF; apply G; exact H.
  Qed.
  Lemma same_group_trans g a b c : same_group g a b -> same_group g b c -> same_group g a c.
  Proof. destruct g; cbn; intuition congruence. Qed.
  Lemma same_group_sym g a b : same_group g a b -> same_group g b a.
  Proof. destruct g; cbn; intuition congruence. Qed.
  Lemma cfg_run_group g h : forall a b, same_group g a b ->
    same_group g (fold_left cfg_step h a) (fold_left cfg_step (calls_of g h) b).
  Proof.
    induction h as [|e h IH]; intros a b H; [exact H|]. cbn [fold_left calls_of filter].
    destruct (_ && _) eqn:E.
    - cbn [fold_left]. apply IH. now apply cfg_step_group.
    - apply IH. eapply same_group_trans; [now apply cfg_step_other|exact H].
  Qed.
  (** C12: only the sequence of accepted calls inside each group matters: rejected calls, optimize calls,
      warm-start calls and the interleaving of different groups are irrelevant *)
  Theorem C12_interleaving_irrelevant junk' ejunk' s s' h h' x0 u0 :
    0 < ph -> reached s h -> SpecLMPC.reached junk' ejunk' d s' h' ->
    (forall g, calls_of g h = calls_of g h') ->
    sized x0 nx 1 -> sized u0 nu 1 ->
    same_problem (l_call d s x0 u0) (l_call d s' x0 u0).
  Proof.
    intros P H H' E X U.
    assert (G : forall g, same_group g (cfg_run h) (cfg_run h')).
    { intros g. unfold cfg_run. assert (RF : same_group g (@cfg0 F SO) cfg0) by (destruct g; cbn; repeat split; reflexivity).
      eapply same_group_trans; [apply cfg_run_group; exact RF|]. rewrite (E g).
      apply same_group_sym. apply cfg_run_group. exact RF. }
    eapply C12_same_configuration_same_problem; try eassumption; try apply eqv_refl'.
    pose proof (G GModel) as G1. pose proof (G GDist) as (G2 & G3). pose proof (G GWeights) as (G4 & G5 & G6).
    pose proof (G GState) as (G7 & G8). pose proof (G GOutput) as (G9 & G10). pose proof (G GInput) as (G11 & G12).
    pose proof (G GScalar) as (G13 & G14 & G15 & G16). pose proof (G GRefs) as (G17 & G18 & G19).
    pose proof (G GExo) as G20. pose proof (G GParams) as G21. cbn in G1, G20, G21.
    split.
    - apply smr; congruence.
    - unfold same_weights. rewrite G4, G5, G6. refine (conj _ (conj _ _)); noch.
    - unfold same_xb. rewrite G7, G8. split; noch.
    - unfold same_yb. rewrite G9, G10. split; noch.
    - unfold same_ub. rewrite G11, G12. split; noch.
    - unfold same_sb. rewrite G13, G14. split; noch.
    - unfold same_mult. rewrite G15, G16. split; noch.
    - unfold same_refs. rewrite G17, G18, G19. refine (conj _ (conj _ _)); noch.
    - unfold same_dist. rewrite G20. noch.
    - exact G21.
  Qed.

  (** C47: which settings each part of the problem depends on *)
  Theorem C47_dependencies junk' ejunk' s s' h h' x0 u0 x0' u0' :
    0 < ph -> reached s h -> SpecLMPC.reached junk' ejunk' d s' h' ->
    sized x0 nx 1 -> sized u0 nu 1 -> sized x0' nx 1 -> sized u0' nu 1 ->
    let cl := l_call d s x0 u0 in let cl' := l_call d s' x0' u0' in
    let c := cfg_run h in let c' := cfg_run h' in
    (* the cost matrix: model and weights, not the measured state, references or bounds *)
    (same_model d c c' -> same_weights d c c' -> cl_P cl = cl_P cl') /\
    (* the constraint matrix: model and scalar-constraint multipliers *)
    (same_model d c c' -> same_mult d c c' -> cl_A cl = cl_A cl') /\
    (* the linear cost: model, weights, references, measured disturbances *)
    (same_model d c c' -> same_weights d c c' -> same_refs d c c' -> same_dist d c c' -> cl_q cl = cl_q cl') /\
    (* the row bounds: model, disturbances, bounds and the current state and command *)
    (same_model d c c' -> same_dist d c c' -> same_xb d c c' -> same_yb d c c' -> same_ub d c c' -> same_sb d c c' ->
     eqv nx (vec x0) (vec x0') -> eqv nu (vec u0) (vec u0') -> cl_l cl = cl_l cl' /\ cl_u cl = cl_u cl') /\
    (* the sizes: only the dimensions *)
    cl_n cl = cl_n cl' /\ cl_m cl = cl_m cl'.
  Proof.
    intros P H H' X U X' U' cl cl' c c'.
    pose proof (reached_R _ _ _ _ _ P H) as HR. pose proof (reached_R _ _ _ _ _ P H') as HR'.
    assert (C1 : forall a b (M N : mat F), sized M a 1 -> sized N a 1 -> b = 1 -> eqv a (vec M) (vec N) -> meq M N a b).
    { intros a b M N SM SN -> EV. split; [exact SM|split; [exact SN|]]. intros i j Hi Hj. assert (j = 0) as -> by lia. now apply EV. }
    refine (conj _ (conj _ (conj _ (conj _ _)))).
    - intros. eapply l_call_P; eassumption.
    - intros. eapply l_call_A; eassumption.
    - intros. eapply l_call_q; eassumption.
    - intros. eapply l_call_lu; try eassumption; apply C1; auto.
    - eapply l_call_sizes; eassumption.
  Qed.
End Frame.

(** ** Concrete instances *)
Local Notation one := (qm 1 1 [[1%Z]]).
Definition ret_true (o : outcome (lmpc Qc * ret Qc)) : bool := match o with Ok (_, RBool true) => true | _ => false end.
Lemma ret_true_ok o : ret_true o = true -> exists s', o = Ok (s', RBool true).
Proof. destruct o as [[s' [[|]| | |]]|]; try discriminate. eauto. Qed.
(** C09 refuted: horizon 2, slice [1,2) lies inside the horizon and is rejected ... *)
Theorem C09_intended_refuted :
  ~ (forall d s h op sl s' r, 0 < d_ph d -> reached qj qej d s h -> op_sized d op -> op_proper op -> slice_of op = Some sl ->
       l_step qj qej d s op = Ok (s', r) ->
       (r = RBool true <-> slice_unset sl = true \/ (0 <= sl_start sl < sl_end sl /\ sl_end sl <= doc_horizon d op)%Z)).
Proof.
  intros H. set (op := LSetStateBounds (qe [0]%Z) (qe [1]%Z) (mkSlice 1 2)).
  pose proof ex_reached as HX. set (sx := wS ex_d ex_ops) in HX. set (hx := wH ex_d ex_ops) in HX. clearbody sx hx.
  assert (E := H ex_d sx hx op (mkSlice 1 2) sx (RBool false)).
  specialize (E ltac:(cbn; lia) HX ltac:(repeat split) ltac:(right; cbn; lia) eq_refl eq_refl).
  destruct E as [_ E]. specialize (E ltac:(right; cbn; lia)). discriminate.
Qed.
(** ... and slices with a negative start are accepted although they designate no step *)
Theorem C09_negative_start_accepted :
  exists d s h op sl s', 0 < d_ph d /\ reached qj qej d s h /\ op_sized d op /\ slice_of op = Some sl /\ slice_unset sl = false /\
    (sl_start sl < 0)%Z /\ l_step qj qej d s op = Ok (s', RBool true) /\
    same_problem (l_call d s (qv [2]%Z) (qv [1]%Z)) (l_call d s' (qv [2]%Z) (qv [1]%Z)).
Proof.
  pose proof ex_reached as HX. set (op := LSetStateBounds (qe [0]%Z) (qe [1]%Z) (mkSlice (-3) 2)).
  destruct (ret_true_ok (l_step qj qej ex_d (wS ex_d ex_ops) op) ltac:(vm_compute; reflexivity)) as (s' & E).
  set (sx := wS ex_d ex_ops) in HX, E. set (hx := wH ex_d ex_ops) in HX. clearbody sx hx.
  exists ex_d, sx, hx, op, (mkSlice (-3) 2), s'.
  refine (conj _ (conj HX (conj _ (conj eq_refl (conj eq_refl (conj _ (conj E _))))))).
  - cbn; lia.
  - repeat split.
  - cbn; lia.
  - assert (D : s' = sx).
    { change (l_step qj qej ex_d sx op) with (if l_ok sx then Ok (sx, RBool true) else @UB (lmpc Qc * ret Qc)) in E.
      destruct (l_ok sx); inversion E; reflexivity. }
    rewrite D. repeat split; reflexivity.
Qed.
(** setExogenousInputs documents a slice of the prediction horizon but is limited to the control horizon *)
Theorem C09_exogenous_horizon_refuted :
  ~ (forall d s h v sl s' r, 0 < d_ph d -> reached qj qej d s h -> sized v (d_ndu d) 1 ->
       (0 <= sl_start sl < sl_end sl /\ sl_start sl + sl_end sl <= Z.of_nat (d_ph d))%Z ->
       l_step qj qej d s (LSetExo v sl) = Ok (s', r) -> r = RBool true).
Proof.
  intros H. assert (HX : reached qj qej r07_d (wS r07_d r07_ops) (wH r07_d r07_ops)) by w_reach.
  set (sx := wS r07_d r07_ops) in HX. set (hx := wH r07_d r07_ops) in HX. clearbody sx hx.
  assert (E := H r07_d sx hx (qv [1]%Z) (mkSlice 0 3) sx (RBool false)).
  specialize (E ltac:(cbn; lia) HX ltac:(repeat split) ltac:(cbn; lia) eq_refl). discriminate.
Qed.
(** C43 refuted: the public setter hits the overflow *)
Theorem C43_intended_refuted :
  ~ (forall d s h op sl, 0 < d_ph d -> reached qj qej d s h -> op_sized d op -> slice_of op = Some sl -> slice_int sl ->
       slice_check (used_horizon d op) sl <> UB /\ l_step qj qej d s op <> UB).
Proof.
  intros H. assert (E := H ex_d (wS ex_d ex_ops) (wH ex_d ex_ops) (LSetStateBounds (qe [0]%Z) (qe [1]%Z) (mkSlice int_min (-5))) (mkSlice int_min (-5))).
  specialize (E ltac:(cbn; lia) ex_reached ltac:(repeat split) eq_refl ltac:(split; reflexivity)).
  destruct E as [E _]. apply E. reflexivity.
Qed.
(** hypotheses of C11 / C12 / C10 are met *)
Definition x11_ops : list (lop Qc) :=
  [LSetModel one one one; LSetStateBounds (qe [-9]%Z) (qe [9]%Z) slice_all; LSetWeights (qv [1]%Z) (qv [1]%Z) (qv [1]%Z) slice_all].
Definition x11_w := (LSetWeightsMat (qm 1 3 [[1; 2; 1]]%Z) (qm 1 3 [[1; 3; 1]]%Z) (qm 1 3 [[1; 4; 1]]%Z)).
Definition x11_sl := (LSetWeights (qv [2]%Z) (qv [3]%Z) (qv [4]%Z) (mkSlice 1 2)).
Example C11_instance : 0 < d_ph r07_d /\ reached qj qej r07_d (wS r07_d x11_ops) (wH r07_d x11_ops) /\
  (exists s', l_step qj qej r07_d (wS r07_d x11_ops) (LSetStateBounds (qe [-4]%Z) (qe [4]%Z) (mkSlice 1 2)) = Ok (s', RBool true)) /\
  (exists s', l_step qj qej r07_d (wS r07_d x11_ops) (LSetInputBounds (qe [-4]%Z) (qe [4]%Z) (mkSlice 0 1)) = Ok (s', RBool true)) /\
  (exists s', l_step qj qej r07_d (wS r07_d x11_ops) (LSetOutputBounds (qe [-4]%Z) (qe [4]%Z) (mkSlice 1 2)) = Ok (s', RBool true)) /\
  (exists s', l_step qj qej r07_d (wS r07_d x11_ops) (LSetScalar (Fin (q 1)) (Fin (q 2)) (qv [1]%Z) (qv [3]%Z) (mkSlice 1 2)) = Ok (s', RBool true)) /\
  (exists s1, l_step qj qej r07_d (wS r07_d x11_ops) x11_sl = Ok (s1, RBool true)) /\
  (exists s1, l_step qj qej r07_d (wS r07_d x11_ops) x11_w = Ok (s1, RBool true)) /\
  mat_form r07_d (cfg_run (wH r07_d x11_ops)) x11_sl x11_w.
Proof.
  refine (conj _ (conj _ (conj _ (conj _ (conj _ (conj _ (conj _ (conj _ _)))))))); [cbn; lia|w_reach| | | | | | |];
    try (apply ret_true_ok; vm_compute; reflexivity).
  refine (conj _ (conj _ _)); intros k j Hk Hj; cbn in Hk, Hj; destruct j; try lia; destruct k as [|[|[|k]]]; try lia; vm_compute; reflexivity.
Qed.
(** two histories with different interleavings, a rejected call and an optimize call in between *)
Definition x12_a : list (lop Qc) :=
  [LSetModel one one one; LSetWeights (qv [1]%Z) (qv [1]%Z) (qv [1]%Z) slice_all; LSetStateBounds (qe [-9]%Z) (qe [9]%Z) (mkSlice 0 1)].
Definition x12_b : list (lop Qc) :=
  [LSetStateBounds (qe [-9]%Z) (qe [9]%Z) (mkSlice 0 1); LSetStateBounds (qe [-1]%Z) (qe [1]%Z) (mkSlice 2 1);
   LSetModel one one one; LOptimize (qv [2]%Z) (qv [1]%Z) ANoSolution;
   LSetWeights (qv [1]%Z) (qv [1]%Z) (qv [1]%Z) slice_all].
Definition ret_code (r : ret Qc) : nat := match r with RBool true => 0 | RBool false => 1 | RVoid => 2 | RThrow => 3 | RResult _ => 4 end.
Lemma l_play_fst {F} {SO : ScalarOps F} junk ejunk d ops : forall (s s' : lmpc F) h,
  l_play junk ejunk d s ops = Ok (s', h) -> map fst h = ops.
Proof.
  induction ops as [|op ops IH]; intros s s' h; cbn [l_play].
  - intros E; inversion E; reflexivity.
  - destruct (l_step _ _ _ s op) as [[s1 r]|]; [|discriminate].
    destruct (l_play _ _ _ s1 ops) as [[s2 h2]|] eqn:E2; [|discriminate].
    intros E; inversion E; subst. cbn. f_equal. eapply IH. exact E2.
Qed.
Lemma w_fst d ops : is_ok (l_play qj qej d (l_init qj qej d) ops) = true -> map fst (wH d ops) = ops.
Proof. unfold wH. destruct (l_play qj qej d (l_init qj qej d) ops) as [[s h]|] eqn:E; [|discriminate]. intros _. eapply l_play_fst. exact E. Qed.
Example C12_instance : reached qj qej ex_d (wS ex_d x12_a) (wH ex_d x12_a) /\ reached qj qej ex_d (wS ex_d x12_b) (wH ex_d x12_b) /\
  (forall g, calls_of g (wH ex_d x12_a) = calls_of g (wH ex_d x12_b)) /\ wH ex_d x12_a <> wH ex_d x12_b.
Proof.
  refine (conj _ (conj _ _)); [w_reach|w_reach|].
  assert (A1 := w_fst ex_d x12_a ltac:(vm_compute; reflexivity)). assert (B1 := w_fst ex_d x12_b ltac:(vm_compute; reflexivity)).
  assert (A2 : map (fun e => ret_code (snd e)) (wH ex_d x12_a) = [0; 0; 0]) by (vm_compute; reflexivity).
  assert (B2 : map (fun e => ret_code (snd e)) (wH ex_d x12_b) = [0; 1; 0; 4; 0]) by (vm_compute; reflexivity).
  set (ha := wH ex_d x12_a) in *. set (hb := wH ex_d x12_b) in *. clearbody ha hb.
  assert (C0 : forall r, ret_code r = 0 -> r = RBool true) by (intros [[|]| | |]; cbn; congruence).
  assert (C1 : forall r, ret_code r = 1 -> r = RBool false) by (intros [[|]| | |]; cbn; congruence).
  unfold x12_a in A1. unfold x12_b in B1.
  destruct ha as [|[o1 r1] [|[o2 r2] [|[o3 r3] [|? ?]]]]; try discriminate.
  destruct hb as [|[o4 r4] [|[o5 r5] [|[o6 r6] [|[o7 r7] [|[o8 r8] [|? ?]]]]]]; try discriminate.
  cbn [map fst snd] in A1, A2, B1, B2. injection A2 as Q1 Q2 Q3. injection B2 as Q4 Q5 Q6 Q7 Q8.
  apply C0 in Q1, Q2, Q3, Q4, Q6, Q8. apply C1 in Q5.
  injection A1 as -> -> ->. injection B1 as -> -> -> -> ->. subst. split; [|discriminate].
  intros g. unfold calls_of. cbn [filter fst snd op_group]. rewrite !andb_false_r. destruct g; reflexivity.
Qed.

Print Assumptions C09_slice_acceptance. Print Assumptions C10_rejected_changes_nothing. Print Assumptions C11_state_bounds.
Print Assumptions C11_input_bounds. Print Assumptions C11_output_bounds. Print Assumptions C11_scalar_bounds.
Print Assumptions C11_slice_is_patched_matrix. Print Assumptions C12_same_configuration_same_problem.
Print Assumptions C12_interleaving_irrelevant. Print Assumptions C47_dependencies. Print Assumptions C43_overflow_exactly.
Print Assumptions C09_intended_refuted. Print Assumptions C43_intended_refuted.
