(** Property C62: what the controllers write through the logger they share. *)
From Coq Require Import Bool Arith ZArith Lia String Reals List.
From Verif Require Import Scalar Mat Slice Builder LMPC NLFun NLMPC Logger Profiler World SpecWorld PropWorld PropWorld2.
Import ListNotations.
Local Open Scope nat_scope.

Definition adm (l : log_level) (m : msg) : bool := level_int l <=? type_int (fst m).
Definition head_out (os : nat) (p : string) : output :=
  [(os, "[MPC++"%string)] ++ (if negb (String.eqb p "") then [(os, " "%string); (os, p); (os, "] "%string)] else [(os, "] "%string)]).
Definition out_of (os : nat) (p : string) (l : log_level) (ms : list msg) : output := concat (map (fun m => if adm l m then head_out os p ++ [(os, snd m)] else []) ms).
Lemma said ms : forall g g' o, g_play g (say ms) = Ok (g', o) -> g_os g' = g_os g /\ g_prefix g' = g_prefix g /\ g_level g' = g_level g /\ o = out_of (g_os g) (g_prefix g) (g_level g) ms.
Proof.
  induction ms as [|[t x] ms IH]; intros g g' o E; [injection E as <- <-; auto|].
  change (say ((t, x) :: ms)) with ([GLog t; GWrite x] ++ say ms) in E. rewrite play_app in E. cbn [g_play g_step g_type g_level g_os g_prefix] in E.
  match type of E with match g_play ?h (say ms) with _ => _ end = _ => destruct (g_play h (say ms)) as [[g2 o2]|] eqn:E2; [|discriminate E] end. injection E as <- <-.
  destruct (IH _ _ _ E2) as (A & B & C & D). cbn [g_os g_prefix g_level] in *. refine (conj A (conj B (conj C _))). rewrite D. unfold out_of. cbn [map concat]. f_equal. unfold adm, head_out. cbn [fst snd].
  destruct (level_int (g_level g) <=? type_int t); [|reflexivity]. now rewrite app_nil_r.
Qed.
Lemma head_text os p : text os (head_out os p) = header p.
Proof. unfold head_out, header. rewrite text_app. cbn [text]. rewrite Nat.eqb_refl. destruct (String.eqb p ""); cbn [negb text]; rewrite Nat.eqb_refl; cbn; now rewrite ?str_nil. Qed.
Lemma head_other os p s : s <> os -> text s (head_out os p) = ""%string.
Proof. intros N. apply Nat.eqb_neq in N. rewrite Nat.eqb_sym in N. unfold head_out. rewrite text_app. cbn [text]. rewrite N. destruct (negb _); cbn [text]; rewrite ?N; reflexivity. Qed.
Lemma out_text os p l ms : text os (out_of os p l ms) = lines p (map snd (filter (adm l) ms)).
Proof.
  induction ms as [|m ms IH]; [reflexivity|]. unfold out_of. cbn [map concat filter]. rewrite text_app. fold (out_of os p l ms). rewrite IH. destruct (adm l m); [|reflexivity]. rewrite text_app, head_text. cbn [text map lines]. rewrite Nat.eqb_refl, str_nil, str_assoc. reflexivity.
Qed.
Lemma out_other os p l ms s : s <> os -> text s (out_of os p l ms) = ""%string.
Proof.
  intros N. induction ms as [|m ms IH]; [reflexivity|]. unfold out_of. cbn [map concat]. rewrite text_app. fold (out_of os p l ms). rewrite IH, str_nil. destruct (adm l m); [|reflexivity]. rewrite text_app, head_other by exact N. cbn [text].
  apply Nat.eqb_neq in N. rewrite Nat.eqb_sym in N. now rewrite N.
Qed.
Lemma out_none os p l ms : filter (adm l) ms = [] -> out_of os p l ms = [].
Proof. induction ms as [|m ms IH]; [reflexivity|]. unfold out_of. cbn [filter map concat]. fold (out_of os p l ms). destruct (adm l m); [discriminate|]. exact IH. Qed.
Lemma filter_app' l a b : filter (adm l) (a ++ b) = filter (adm l) a ++ filter (adm l) b.
Proof. induction a as [|m a IH]; [reflexivity|]. cbn [app filter]. rewrite IH. destruct (adm l m); reflexivity. Qed.
(** messages of severity DETAIL only *)
Definition dets (ms : list msg) : Prop := Forall (fun m => fst m = T_DETAIL) ms.
Lemma dets_filter l ms : l <> L_DEEP -> dets ms -> filter (adm l) ms = [].
Proof. intros N H. induction H as [|m ms Hm _ IH]; [reflexivity|]. cbn [filter]. unfold adm at 1. rewrite Hm, IH. destruct l; try reflexivity. contradiction. Qed.
Lemma dets_app a b : dets a -> dets b -> dets (a ++ b). Proof. intros A B. apply Forall_app. auto. Qed.
Lemma dets_repeat ms n : dets ms -> dets (concat (repeat ms n)). Proof. intros A. induction n; [constructor|]. cbn. now apply dets_app. Qed.
Lemma dets_map {A} (ms : list msg) (l : list A) : dets ms -> dets (concat (map (fun _ => ms) l)). Proof. intros H. induction l; [constructor|]. cbn. now apply dets_app. Qed.

Section W.
  Context {F : Type} {SO : ScalarOps F}.
  Variables big low : R.
  Notation step := (w_step big low). Notation run := (w_run big low).
  Notation world := (world F). Notation wop := (wop F).

  (** *** the settings in force *)
  Definition settled (ops : list wop) (w : world) : Prop := g_os (w_log w) = stream_of ops /\ g_prefix (w_log w) = prefix_of ops /\ g_level (w_log w) = level_of ops.
  Lemma calls_snoc ops op : logger_calls (F:=F) (ops ++ [op]) = logger_calls ops ++ logger_calls [op].
  Proof. unfold logger_calls. rewrite map_app, concat_app. reflexivity. Qed.
  Lemma settled_quiet ops (w w1 : world) op : settled ops w -> logger_calls [op] = [] -> g_os (w_log w1) = g_os (w_log w) -> g_prefix (w_log w1) = g_prefix (w_log w) -> g_level (w_log w1) = g_level (w_log w) -> settled (ops ++ [op]) w1.
  Proof. intros (A & B & C) L X Y Z. unfold settled, stream_of, prefix_of, level_of. rewrite calls_snoc, L, app_nil_r. unfold stream_of, prefix_of, level_of in *. repeat split; congruence. Qed.
  Lemma settled_call ops (w w1 : world) op o : settled ops w -> logger_calls [op] = [o] -> (exists x, g_step (w_log w) o = Ok (w_log w1, x)) -> settled (ops ++ [op]) w1.
  Proof.
    intros (A & B & C) L (x & E). unfold settled, stream_of, prefix_of, level_of in *. rewrite calls_snoc, L. unfold stream_after, prefix_after, level_after in *. rewrite !sel_snoc.
    destruct o; cbn [g_step] in E; try (injection E as <- _; cbn; auto; fail). destruct (g_type (w_log w)); [|discriminate E]. injection E as <- _. auto.
  Qed.
  Lemma speak_log ms (w : world) v w1 v1 : speak ms w v = WOk w1 v1 ->
    g_os (w_log w1) = g_os (w_log w) /\ g_prefix (w_log w1) = g_prefix (w_log w) /\ g_level (w_log w1) = g_level (w_log w) /\ w_out w1 = w_out w ++ out_of (g_os (w_log w)) (g_prefix (w_log w)) (g_level (w_log w)) ms.
  Proof.
    unfold speak. destruct (g_play (w_log w) (say ms)) as [[g o]|] eqn:E; [|discriminate]. intros X. injection X as <- _. destruct (said _ _ _ _ E) as (A & B & C & ->). auto.
  Qed.
  (** the messages of a call *)
  Definition messages (w : world) (op : wop) : list msg :=
    match op with
    | WNewN d ni ne dyn junk => params_msgs ++ [info "Mapping assignment done"]
    | WL i o e => match ctl w i with Some (_, mkCell (CL d _ _ s) _) => l_msgs d s o e | _ => [] end
    | WN i o e => match ctl w i with Some (_, mkCell (CN d ni ne _ _ s) _) => n_msgs d ni ne s o e | _ => [] end
    | _ => [] end.
  Lemma step_out (w : world) op w1 v : step w op = WOk w1 v -> (forall o, op <> WLogger o) -> w_out w1 = w_out w ++ out_of (g_os (w_log w)) (g_prefix (w_log w)) (g_level (w_log w)) (messages w op).
  Proof.
    intros E N. destruct op; cbn [w_step messages] in *; try (exfalso; now apply (N o)); unfold out_of; cbn [map concat]; rewrite ?app_nil_r.
    - destruct (_ || _); [discriminate E|]. injection E as <- <-. reflexivity.
    - destruct (_ || _); [discriminate E|]. destruct (n_new d); [|discriminate E]. apply speak_log in E. tauto.
    - destruct (ctl w i) as [[k [[|] b]]|]; try discriminate E. injection E as <- <-. reflexivity.
    - destruct (ctl w i) as [[k [[|] b]]|]; try discriminate E. destruct (ctl w j) as [[k' [[|] b']]|]; try discriminate E. injection E as <- <-. reflexivity.
    - destruct (ctl w i) as [[k [[|] b]]|]; try discriminate E; [|destruct b; [|discriminate E]]; injection E as <- <-; reflexivity.
    - destruct (ctl w i) as [[k [[|] b]]|]; try discriminate E. destruct (l_step _ _ _ _ _) as [[s' r]|]; [|discriminate E]. apply speak_log in E. tauto.
    - destruct (ctl w i) as [[k [[|] b]]|]; try discriminate E. destruct (_ && _); [discriminate E|]. destruct (n_step _ _ _ _ _ _ _) as [[s' r]|]; [|discriminate E]. apply speak_log in E. tauto.
    - destruct (ctl w i) as [[k c]|]; [|discriminate E]. destruct (c_alive c); [|discriminate E]. injection E as <- <-. reflexivity.
    - destruct (ctl w i) as [[k c]|]; [|discriminate E]. destruct (c_alive c); [|discriminate E]. injection E as <- <-. reflexivity.
    - destruct (ctl w i) as [[k c]|]; [|discriminate E]. injection E as <- <-. reflexivity.
    - destruct (ctl w i) as [[k c]|]; [|discriminate E]. injection E as <- <-. reflexivity.
    - destruct (ctl w i) as [[k c]|]; [|discriminate E]. cbn [g_step] in E. injection E as <- <-. cbn. now rewrite app_nil_r.
    - destruct (ctl w i) as [[k c]|]; [|discriminate E]. cbn [g_step] in E. injection E as <- <-. cbn. now rewrite app_nil_r.
  Qed.
  Lemma settled_step ops (w : world) op w1 v : settled ops w -> step w op = WOk w1 v -> settled (ops ++ [op]) w1.
  Proof.
    intros S E. destruct op; cbn [w_step] in E.
    - destruct (_ || _); [discriminate E|]. injection E as <- <-. now apply (settled_quiet ops w).
    - destruct (_ || _); [discriminate E|]. destruct (n_new d); [|discriminate E]. apply speak_log in E. destruct E as (A & B & C & _). now apply (settled_quiet ops w).
    - destruct (ctl w i) as [[k [[|] b]]|]; try discriminate E. injection E as <- <-. now apply (settled_quiet ops w).
    - destruct (ctl w i) as [[k [[|] b]]|]; try discriminate E. destruct (ctl w j) as [[k' [[|] b']]|]; try discriminate E. injection E as <- <-. now apply (settled_quiet ops w).
    - destruct (ctl w i) as [[k [[|] b]]|]; try discriminate E; [|destruct b; [|discriminate E]]; injection E as <- <-; now apply (settled_quiet ops w).
    - destruct (ctl w i) as [[k [[|] b]]|]; try discriminate E. destruct (l_step _ _ _ _ _) as [[s' r]|]; [|discriminate E]. apply speak_log in E. destruct E as (A & B & C & _). now apply (settled_quiet ops w).
    - destruct (ctl w i) as [[k [[|] b]]|]; try discriminate E. destruct (_ && _); [discriminate E|]. destruct (n_step _ _ _ _ _ _ _) as [[s' r]|]; [|discriminate E]. apply speak_log in E. destruct E as (A & B & C & _). now apply (settled_quiet ops w).
    - destruct (ctl w i) as [[k c]|]; [|discriminate E]. destruct (c_alive c); [|discriminate E]. injection E as <- <-. now apply (settled_quiet ops w).
    - destruct (ctl w i) as [[k c]|]; [|discriminate E]. destruct (c_alive c); [|discriminate E]. injection E as <- <-. now apply (settled_quiet ops w).
    - destruct (ctl w i) as [[k c]|]; [|discriminate E]. injection E as <- <-. now apply (settled_quiet ops w).
    - destruct (ctl w i) as [[k c]|]; [|discriminate E]. injection E as <- <-. now apply (settled_quiet ops w).
    - destruct (ctl w i) as [[k c]|]; [|discriminate E]. cbn [g_step] in E. injection E as <- <-. apply (settled_call ops w _ _ (GLevel l)); [exact S|reflexivity|]. exists []. reflexivity.
    - destruct (ctl w i) as [[k c]|]; [|discriminate E]. cbn [g_step] in E. injection E as <- <-. apply (settled_call ops w _ _ (GPrefix p)); [exact S|reflexivity|]. exists []. reflexivity.
    - destruct (g_step (w_log w) o) as [[g x]|] eqn:Eg; [|discriminate E]. injection E as <- <-. apply (settled_call ops w _ _ o); [exact S|reflexivity|]. exists x. exact Eg.
  Qed.
  Lemma settled_run ops : forall w vs, run w_init ops = FOk w vs -> settled ops w.
  Proof.
    induction ops as [|op ops IH] using rev_ind; intros w vs E; [injection E as <- <-; repeat split|]. rewrite run_snoc in E. destruct (run w_init ops) as [| |w1 vs1] eqn:E1; try discriminate E.
    destruct (step w1 op) as [| |w2 v] eqn:E2; try discriminate E. injection E as <- <-. exact (settled_step _ _ _ _ _ (IH _ _ eq_refl) E2).
  Qed.
  Lemma step_written ops (w : world) vs op w1 v : run w_init ops = FOk w vs -> step w op = WOk w1 v -> (forall o, op <> WLogger o) ->
    written ops w w1 (map snd (filter (adm (level_of ops)) (messages w op))) /\ (filter (adm (level_of ops)) (messages w op) = [] -> w_out w1 = w_out w).
  Proof.
    intros E E1 N. destruct (settled_run ops w vs E) as (A & B & C). pose proof (step_out w op w1 v E1 N) as O. rewrite A, B, C in O. split.
    - eexists. split; [exact O|]. split; [apply out_text|]. intros s Ns. now apply out_other.
    - intros Z. rewrite O, out_none by exact Z. apply app_nil_r.
  Qed.

  (** whatever a controller writes goes to the stream in force, message by message, each with the prefix in force and admitted by the level in force - those last
      set, on whichever controller *)
  Theorem C62_shared_settings ops (w : world) vs op w1 v : run w_init ops = FOk w vs -> step w op = WOk w1 v -> (forall o, op <> WLogger o) ->
    exists ms : list msg, Forall (fun m => admits (level_of ops) (fst m)) ms /\ written ops w w1 (map snd ms).
  Proof.
    intros E E1 N. exists (filter (adm (level_of ops)) (messages w op)). split; [|exact (proj1 (step_written ops w vs op w1 v E E1 N))].
    apply Forall_forall. intros m Hm. apply filter_In in Hm. destruct Hm as [_ Hm]. now apply level_type_iff.
  Qed.
  Theorem C62_silent_at_none ops (w : world) vs op w1 v : run w_init ops = FOk w vs -> step w op = WOk w1 v -> (forall o, op <> WLogger o) -> level_of ops = L_NONE -> w_out w1 = w_out w.
  Proof.
    intros E E1 N L. apply (step_written ops w vs op w1 v E E1 N). rewrite L. generalize (messages w op). induction l as [|[[] x] l IH]; [reflexivity| | |]; cbn [filter adm fst]; exact IH.
  Qed.

  (** *** LMPC *)
  Lemma slice_dets H sl bad whole one : slice_check (Z.of_nat H) sl <> Ok false \/ slice_unset sl = true -> dets whole -> dets one -> dets (slice_msgs H sl bad whole one).
  Proof.
    intros N A B. unfold slice_msgs. destruct (slice_unset sl) eqn:U; [exact A|]. destruct (slice_check (Z.of_nat H) sl) as [[|]|]; [|destruct N; congruence|constructor]. destruct (slice_steps sl); [now apply dets_map|constructor].
  Qed.
  Lemma on_slice_says H sl whole one (s s' : lmpc F) r bad wm om : on_slice H sl whole one s = Ok (s', r) -> dets wm -> dets om ->
    (r = RBool false /\ s' = s /\ slice_msgs H sl bad wm om = [error bad]) \/ (r = RBool true /\ dets (slice_msgs H sl bad wm om)).
  Proof.
    intros E A B. unfold on_slice, finish in E. destruct (slice_unset sl) eqn:U.
    - destruct (l_ok (whole s)); [|discriminate E]. injection E as <- <-. right. split; [reflexivity|]. apply slice_dets; auto.
    - destruct (slice_check (Z.of_nat H) sl) as [[|]|] eqn:Ec; try discriminate E.
      + destruct (slice_steps sl) as [l|]; [|discriminate E]. destruct (l_ok _); [|discriminate E]. injection E as <- <-. right. split; [reflexivity|]. apply slice_dets; auto. left. congruence.
      + injection E as <- <-. left. split; [reflexivity|]. split; [reflexivity|]. unfold slice_msgs. now rewrite U, Ec.
  Qed.
  Definition l_errors : list string := [bad_ph; bad_ch; "Horizon index out of bounds"%string].
  Ltac d1 := repeat (constructor; [reflexivity|]); constructor.
  Lemma l_says junk ejunk d (s s' : lmpc F) o e r : l_step junk ejunk d s o = Ok (s', r) -> (forall x0 u0 a, o <> LOptimize x0 u0 a) ->
    (r = RBool false /\ s' = s /\ exists x, In x l_errors /\ l_msgs d s o e = [error x]) \/ (r <> RBool false /\ dets (l_msgs d s o e)).
  Proof.
    intros E N. assert (In1 : In bad_ph l_errors) by (left; reflexivity). assert (In2 : In bad_ch l_errors) by (right; left; reflexivity). destruct o; cbn [l_step l_msgs] in *;
      try (unfold finish in E; match type of E with (if ?b then _ else _) = _ => destruct b end; [|discriminate E]; injection E as <- <-; right; split; [discriminate|d1]);
      try (match goal with |- context [slice_msgs ?H ?sl ?bad ?wm ?om] => destruct (on_slice_says _ _ _ _ _ _ _ bad wm om E ltac:(d1) ltac:(d1)) as [(-> & -> & ->)|(-> & D)] end;
           [left; split; [reflexivity|]; split; [reflexivity|]; eexists; split; [|reflexivity]; assumption|right; split; [discriminate|exact D]]);
      try (injection E as <- <-; right; split; [discriminate|d1]).
    - destruct (N.of_nat (d_ph d) <=? index)%N.
      + injection E as <- <-. left. split; [reflexivity|]. split; [reflexivity|]. eexists. split; [|reflexivity]. right. right. left. reflexivity.
      + unfold finish in E. match type of E with (if ?b then _ else _) = _ => destruct b end; [|discriminate E]. injection E as <- <-. right. split; [discriminate|d1].
    - destruct p; [|discriminate E]. injection E as <- <-. right. split; [discriminate|d1].
    - exfalso. now apply (N x0 u0 a).
  Qed.
  Lemma upd_id {A} (l : list A) i x : nth_error l i = Some x -> upd l i x = l.
  Proof. revert i. induction l as [|y l IH]; intros [|i] E; try discriminate E; cbn in *; [congruence|]. now rewrite IH. Qed.
  Lemma error_filter l x : l <> L_NONE -> filter (adm l) [error x] = [error x]. Proof. intros N. destruct l; try reflexivity. contradiction. Qed.

  (** a refused call of LMPC changes nothing and writes one error; no other configuration call writes anything unless everything is asked for *)
  Theorem C62_linear_setters ops (w : world) vs i o e w1 r : run w_init ops = FOk w vs -> step w (WL i o e) = WOk w1 (VRet r) -> (forall x0 u0 a, o <> LOptimize x0 u0 a) ->
    (r = RBool false -> w_cells w1 = w_cells w /\ w_ctrls w1 = w_ctrls w /\ (level_of ops <> L_NONE -> exists x, In x l_errors /\ written ops w w1 [x])) /\
    (r <> RBool false -> level_of ops <> L_DEEP -> w_out w1 = w_out w).
  Proof.
    intros E E1 N. destruct (step_written ops w vs (WL i o e) w1 _ E E1 ltac:(discriminate)) as [Wr Q]. cbn [messages] in Wr, Q. cbn [w_step] in E1. destruct (ctl w i) as [[k [[d junk ejunk s|] b]]|] eqn:Ek; try discriminate E1.
    destruct (l_step junk ejunk d s o) as [[s' r']|] eqn:Es; [|discriminate E1]. pose proof (speak_inv _ _ _ _ _ E1) as (C1 & C2 & X). injection X as <-.
    destruct (l_says junk ejunk d s s' o e r Es N) as [(-> & -> & x & Hx & M)|(Nr & D)].
    - split; [|congruence]. intros _. rewrite C1, C2. cbn [set_ctrl set_core_as w_cells w_ctrls profiled]. apply ctl_nth in Ek. destruct Ek as [Ek1 Ek2]. rewrite !upd_id by assumption. refine (conj eq_refl (conj eq_refl _)).
      intros L. exists x. split; [exact Hx|]. rewrite M, error_filter in Wr by exact L. exact Wr.
    - split; [congruence|]. intros _ L. apply Q. now apply dets_filter.
  Qed.
  (** optimize of LMPC: at level ALERT one error per failure the solver reports (a refused warm start, a failed solve), nothing otherwise; at level NORMAL a
      summary is added *)
  Theorem C62_linear_optimize ops (w : world) vs i x0 u0 a e w1 v : run w_init ops = FOk w vs -> step w (WL i (LOptimize x0 u0 a) e) = WOk w1 v ->
    exists warm_failed : bool, (warm_failed = true -> le_warm e = true) /\
    let errs := (if warm_failed then ["Unable to warm start "%string] else []) ++ (if le_solve e then ["Unable to solve "%string] else []) in
    (level_of ops = L_ALERT -> written ops w w1 errs /\ (errs = [] -> w_out w1 = w_out w)) /\
    (level_of ops = L_NORMAL -> written ops w w1 (errs ++ ["Optimization step completed"%string])).
  Proof.
    intros E E1. destruct (step_written ops w vs _ w1 v E E1 ltac:(discriminate)) as [Wr Q]. cbn [messages] in Wr, Q. cbn [w_step] in E1. destruct (ctl w i) as [[k [[d junk ejunk s|] b]]|] eqn:Ek; try discriminate E1.
    exists (match l_warm (l_o s) with Some _ => le_warm e | None => false end). split; [destruct (l_warm (l_o s)); [auto|discriminate]|]. intros errs.
    assert (Na : a <> ASetupFailed) by (intros ->; assert (X : l_step junk ejunk d s (LOptimize x0 u0 ASetupFailed) = UB) by (cbn [l_step]; unfold l_run; destruct (negb _); reflexivity); rewrite X in E1; discriminate E1).
    assert (M : forall l, l <> L_DEEP -> l <> L_NONE -> filter (adm l) (l_msgs d s (LOptimize x0 u0 a) e) = map error errs ++ (if adm l step_done then [step_done] else [])).
    { intros l N1 N2. unfold l_msgs. rewrite !filter_app'. rewrite (dets_filter l l_problem_msgs N1) by d1. cbn [app].
      replace (match a with ASetupFailed => [error "Unable to setup "] | _ => [] end) with (@nil msg) by (destruct a; congruence). cbn [filter app].
      replace (filter (adm l) match a with ASolution _ _ _ _ => detail "Optimal vector: " :: repeat (detail "") (cl_n (l_call d s x0 u0)) | _ => [] end) with (@nil msg).
      2: { symmetry. destruct a; try reflexivity. apply dets_filter; [exact N1|]. constructor; [reflexivity|]. induction (cl_n (l_call d s x0 u0)); cbn [repeat]; constructor; auto. }
      cbn [app]. unfold errs. rewrite map_app, <- app_assoc. f_equal; [destruct (l_warm (l_o s)); [destruct (le_warm e); [now apply error_filter|reflexivity]|reflexivity]|]. f_equal. destruct (le_solve e); [now apply error_filter|reflexivity]. }
    assert (Es : forall xs, map snd (map error xs) = xs) by (intros xs; induction xs as [|y xs IH]; cbn; congruence).
    split; intros L; rewrite L, M in Wr by discriminate; rewrite map_app, Es in Wr.
    - cbn [adm step_done info fst level_int type_int Nat.leb map] in Wr. rewrite app_nil_r in Wr. split; [exact Wr|]. intros Z. apply Q. rewrite L, M by discriminate. rewrite Z. reflexivity.
    - exact Wr.
  Qed.

  (** *** NLMPC *)
  Definition n_errors : list string := [bad_ph; bad_ch].
  Lemma bounds_dets : dets bounds_msgs. Proof. d1. Qed.
  Lemma n_slice_says off wd H lo hi sl (s s' : nmpc F) r bad : n_slice off wd H lo hi sl s = Ok (s', r) ->
    let ms := if slice_unset sl then bounds_msgs else match slice_check (Z.of_nat H) sl with Ok true => bounds_msgs | Ok false => [error bad] | UB => [] end in
    (r = RBool false /\ s' = s /\ ms = [error bad]) \/ (r = RBool true /\ dets ms).
  Proof.
    intros E. unfold n_slice in E. destruct (slice_unset sl).
    - right. split; [|exact bounds_dets]. unfold bool_of in E. destruct (n_bounds _ _ _ _ _ _ _); [|discriminate E]. now injection E as _ <-.
    - destruct (slice_check (Z.of_nat H) sl) as [[|]|]; try discriminate E.
      + right. split; [|exact bounds_dets]. unfold bool_of in E. destruct (n_bounds _ _ _ _ _ _ _); [|discriminate E]. now injection E as _ <-.
      + left. injection E as <- <-. auto.
  Qed.
  Lemma bool_true (o : outcome (nmpc F)) s' r : bool_of o = Ok (s', r) -> r = RBool true.
  Proof. unfold bool_of. destruct o; [|discriminate]. intros E. now injection E as _ <-. Qed.
  Lemma n_says junk d ni ne dyn (s s' : nmpc F) o e r : n_step junk d ni ne dyn s o = Ok (s', r) -> (forall x0 u0 a, o <> NOptimize x0 u0 a) ->
    (r = RBool false /\ s' = s /\ exists x, In x n_errors /\ n_msgs d ni ne s o e = [error x]) \/
    (r = RBool false /\ refused_dynamics o /\ dets (n_msgs d ni ne s o e)) \/
    (r = RThrow /\ s' = s /\ n_msgs d ni ne s o e = [no_output]) \/
    (r <> RBool false /\ r <> RThrow /\ dets (n_msgs d ni ne s o e)).
  Proof.
    intros E N. assert (In1 : In bad_ph n_errors) by (left; reflexivity). assert (In2 : In bad_ch n_errors) by (right; left; reflexivity). destruct o; cbn [n_step n_msgs] in *.
    - injection E as <- <-. right. right. right. split; [discriminate|]. split; [discriminate|d1].
    - destruct p; [|discriminate E]. injection E as <- <-. right. right. right. split; [discriminate|]. split; [discriminate|d1].
    - match type of E with (if ?b then _ else _) = _ => destruct b end; [|discriminate E]. injection E as <- <-. right. right. right. split; [discriminate|]. split; [discriminate|d1].
    - match type of E with (if ?b then _ else _) = _ => destruct b end; [|discriminate E]. injection E as <- <-. right. right. right. split; [discriminate|]. split; [discriminate|d1].
    - injection E as <- <-. right. right. right. split; [discriminate|]. split; [discriminate|]. match goal with |- context [if ?b then _ else _] => destruct b end; d1.
    - injection E as <- <-. match goal with |- context [bind_msgs ?b _] => destruct b end.
      + right. right. right. split; [discriminate|]. split; [discriminate|d1].
      + right. left. split; [reflexivity|]. split; [unfold refused_dynamics; eauto|d1].
    - injection E as <- <-. right. right. right. split; [discriminate|]. split; [discriminate|d1].
    - injection E as <- <-. right. right. right. split; [discriminate|]. split; [discriminate|]. match goal with |- context [bind_msgs ?b _] => destruct b end; d1.
    - destruct dyn; [discriminate E|]. injection E as <- <-. right. right. right. split; [discriminate|]. split; [discriminate|]. match goal with |- context [bind_msgs ?b _] => destruct b end; d1.
    - apply bool_true in E. subst r. right. right. right. split; [discriminate|]. split; [discriminate|]. apply dets_repeat, bounds_dets.
    - apply bool_true in E. subst r. right. right. right. split; [discriminate|]. split; [discriminate|]. apply dets_repeat, bounds_dets.
    - injection E as <- <-. right. right. left. auto.
    - destruct (n_slice_says _ _ _ _ _ _ _ _ _ bad_ph E) as [(-> & -> & M)|(-> & D)].
      + left. split; [reflexivity|]. split; [reflexivity|]. eexists. split; [|exact M]. exact In1.
      + right. right. right. split; [discriminate|]. split; [discriminate|exact D].
    - destruct (n_slice_says _ _ _ _ _ _ _ _ _ bad_ch E) as [(-> & -> & M)|(-> & D)].
      + left. split; [reflexivity|]. split; [reflexivity|]. eexists. split; [|exact M]. exact In2.
      + right. right. right. split; [discriminate|]. split; [discriminate|exact D].
    - injection E as <- <-. right. right. left. auto.
    - exfalso. now apply (N x0 u0 a).
  Qed.
  (** configuration calls of NLMPC: refused slices and output bounds change nothing and write one error; a state space function the solver refused also answers
      false, but writes nothing unless everything is asked for; no other call writes either *)
  Theorem C62_nonlinear_setters ops (w : world) vs i o e w1 r : run w_init ops = FOk w vs -> step w (WN i o e) = WOk w1 (VRet r) -> (forall x0 u0 a, o <> NOptimize x0 u0 a) ->
    (r = RBool false -> ~ refused_dynamics o -> w_cells w1 = w_cells w /\ w_ctrls w1 = w_ctrls w /\ (level_of ops <> L_NONE -> exists x, In x n_errors /\ written ops w w1 [x])) /\
    (r = RThrow -> w_cells w1 = w_cells w /\ w_ctrls w1 = w_ctrls w /\ (level_of ops <> L_NONE -> written ops w w1 [snd no_output])) /\
    (refused_dynamics o -> r = RBool false /\ (level_of ops <> L_DEEP -> w_out w1 = w_out w)) /\
    (r <> RBool false -> r <> RThrow -> level_of ops <> L_DEEP -> w_out w1 = w_out w).
  Proof.
    intros E E1 N. destruct (step_written ops w vs (WN i o e) w1 _ E E1 ltac:(discriminate)) as [Wr Q]. cbn [messages] in Wr, Q. cbn [w_step] in E1. destruct (ctl w i) as [[k [[|d ni ne dyn junk s] b]]|] eqn:Ek; try discriminate E1.
    destruct (negb b && negb (optimizer_free d o)); [discriminate E1|].
    destruct (n_step junk d ni ne dyn s o) as [[s' r']|] eqn:Es; [|discriminate E1]. pose proof (speak_inv _ _ _ _ _ E1) as (C1 & C2 & X). injection X as <-. apply ctl_nth in Ek. destruct Ek as [Ek1 Ek2].
    assert (Ref : refused_dynamics o -> r = RBool false /\ dets (n_msgs d ni ne s o e)) by (intros (f & tol & ->); cbn [n_step] in Es; injection Es as _ <-; split; [reflexivity|d1]).
    assert (Ref2 : refused_dynamics o -> r = RBool false /\ (level_of ops <> L_DEEP -> w_out w1 = w_out w)) by (intros Hr; destruct (Ref Hr) as [R1 R2]; split; [exact R1|]; intros L; apply Q; now apply dets_filter).
    destruct (n_says junk d ni ne dyn s s' o e r Es N) as [(-> & -> & x & Hx & M)|[(-> & Hr & D)|[(-> & -> & M)|(Nr & Nt & D)]]].
    - refine (conj _ (conj _ (conj Ref2 _))); [|discriminate|congruence]. intros _ _. rewrite C1, C2. cbn [set_ctrl set_core_as w_cells w_ctrls profiled]. rewrite !upd_id by assumption. refine (conj eq_refl (conj eq_refl _)).
      intros L. exists x. split; [exact Hx|]. rewrite M, error_filter in Wr by exact L. exact Wr.
    - refine (conj _ (conj _ (conj Ref2 _))); [intros _ Nr; contradiction|discriminate|congruence].
    - refine (conj _ (conj _ (conj Ref2 _))); [discriminate| |congruence]. intros _. rewrite C1, C2. cbn [set_ctrl set_core_as w_cells w_ctrls profiled]. rewrite !upd_id by assumption. refine (conj eq_refl (conj eq_refl _)).
      intros L. rewrite M in Wr. unfold no_output in Wr. rewrite error_filter in Wr by exact L. exact Wr.
    - refine (conj _ (conj _ (conj Ref2 _))); [congruence|congruence|]. intros _ _ L. apply Q. now apply dets_filter.
  Qed.
  (** optimize of NLMPC writes the same whatever the solver does: nothing at level ALERT, the summary at level NORMAL *)
  Theorem C62_nonlinear_optimize ops (w : world) vs i x0 u0 a e w1 v : run w_init ops = FOk w vs -> step w (WN i (NOptimize x0 u0 a) e) = WOk w1 v ->
    (level_of ops = L_ALERT -> w_out w1 = w_out w) /\ (level_of ops = L_NORMAL -> written ops w w1 ["Optimization step completed"%string]).
  Proof.
    intros E E1. destruct (step_written ops w vs _ w1 v E E1 ltac:(discriminate)) as [Wr Q]. cbn [messages] in Wr, Q. cbn [w_step] in E1. destruct (ctl w i) as [[k [[|d ni ne dyn junk s] b]]|] eqn:Ek; try discriminate E1.
    assert (M : forall l, l <> L_DEEP -> filter (adm l) (n_msgs d ni ne s (NOptimize x0 u0 a) e) = if adm l step_done then [step_done] else []).
    { intros l Nl. unfold n_msgs. rewrite app_assoc, filter_app'. rewrite dets_filter; [reflexivity|exact Nl|]. apply dets_app.
      - induction (ne_evals e); cbn [map]; constructor; auto.
      - destruct a; [d1|]. apply dets_app; [|apply dets_app; [d1|d1]]. unfold feas_msgs. apply dets_app; [destruct (n_ieq s); d1|]. destruct (n_eqc s); [|d1]. match goal with |- context [if ?b then _ else _] => destruct b end; d1. }
    split; intros L; [apply Q|]; rewrite L in *; rewrite M in * by discriminate; [reflexivity|exact Wr].
  Qed.
End W.
