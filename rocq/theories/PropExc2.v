(** Property C68: instances and refutations of the intended behaviour. *)
From Coq Require Import Bool Arith ZArith List Lia QArith Qcanon.
From Verif Require Import Scalar Sums Mat Slice Builder BuilderEnt LMPC SpecLMPC NLMap NLTraj NLFun SpecNL NLLoop NLMPC SpecNLC SpecNLP NLRef NLRun NLObs Wit WitNL PropNL3 NLExc SpecExc PropExc.
Import ListNotations.
Local Open Scope nat_scope.

Definition xS (ops : list (xop Qc)) : xmpc Qc := match x_life qj nd 2 1 false ops with Ok (x, _) => x | UB => mkX (n_init nd) never [] end.
Definition xH (ops : list (xop Qc)) : list (xop Qc * ret Qc) := match x_life qj nd 2 1 false ops with Ok (_, h) => h | UB => [] end.
Lemma x_reached ops : Forall (fun op => nop_sized nd (fst op)) ops -> is_ok (x_life qj nd 2 1 false ops) = true -> xreached qj nd 2 1 false (xS ops) (xH ops).
Proof. intros H1 H2. exists ops. refine (conj H1 _). unfold xS, xH. destruct (x_life qj nd 2 1 false ops) as [[x h]|]; [reflexivity|discriminate]. Qed.

(** the output function throws a std::exception at the last step when the state there is not below 6 *)
Definition thr : throws Qc := mkThrows (fun x _ i => if (i =? 3) && negb (sltb (nth 0 x (q 0)) (q 6)) then Some EStd else None) (fun _ _ _ _ => None) (fun _ _ => None).
(** ... or something else *)
Definition thr_int : throws Qc := mkThrows (fun x _ i => if (i =? 3) && negb (sltb (nth 0 x (q 0)) (q 6)) then Some EOther else None) (fun _ _ _ _ => None) (fun _ _ => None).
Definition with_thr (t : throws Qc) (ops : list (nop Qc)) : list (xop Qc) := map (fun op => (op, t)) ops.
(** the controller of [WitNL] without the inequality constraints *)
Definition not_ineq (op : nop Qc) : bool := match op with NSetIneq _ _ _ => false | _ => true end.
Definition x_ops : list (xop Qc) := with_thr thr n_ops.
Definition x_ops_int : list (xop Qc) := with_thr thr_int n_ops.
Definition x_ops_free : list (xop Qc) := with_thr thr (filter not_ineq n_ops).
Definition x_opt (z : nat -> Qc) : xop Qc := (NOptimize n_x0 n_u0 (NSolved z 1 (Fin (q 3))), never).
(** a point at which nothing is thrown *)
Definition n_z2 (r : nat) : Qc := nth r (map q [1; 1; 2; 1; 2; 1; 2; 1; 0]%Z) (q 0).

Ltac xsized := repeat (apply Forall_cons; [cbn [fst nop_sized]; repeat split|]); apply Forall_nil.
Lemma x_ops_reached : xreached qj nd 2 1 false (xS x_ops) (xH x_ops).
Proof. apply x_reached; [xsized|vm_compute; reflexivity]. Qed.
Lemma x_ops_int_reached : xreached qj nd 2 1 false (xS x_ops_int) (xH x_ops_int).
Proof. apply x_reached; [xsized|vm_compute; reflexivity]. Qed.
Lemma x_ops_free_reached : xreached qj nd 2 1 false (xS x_ops_free) (xH x_ops_free).
Proof. apply x_reached; [xsized|vm_compute; reflexivity]. Qed.
(** a success, then a call that throws *)
Definition x_two : list (xop Qc) := x_ops_free ++ [x_opt n_z2].
Lemma x_two_reached : xreached qj nd 2 1 false (xS x_two) (xH x_two).
Proof. apply x_reached; [xsized|vm_compute; reflexivity]. Qed.
Definition x_three : list (xop Qc) := x_ops ++ [x_opt n_z2].
Lemma x_three_reached : xreached qj nd 2 1 false (xS x_three) (xH x_three).
Proof. apply x_reached; [xsized|vm_compute; reflexivity]. Qed.
Local Notation xc ops := (ncfg_run nd 2 1 (plain (xH ops))).
Ltac xscaled := intros j Hj; destruct j as [|[|j]]; [| |cbn in Hj; lia]; intros E; apply (f_equal (fun x => sleb x s0)) in E; vm_compute in E; discriminate E.
Lemma x_ops_scaled : scaled nd (xc x_ops). Proof. xscaled. Qed.
Lemma x_ops_int_scaled : scaled nd (xc x_ops_int). Proof. xscaled. Qed.
Lemma x_ops_free_scaled : scaled nd (xc x_ops_free). Proof. xscaled. Qed.
Lemma x_three_scaled : scaled nd (xc x_three). Proof. xscaled. Qed.
Lemma x_two_scaled : scaled nd (xc x_two). Proof. xscaled. Qed.

Lemma judge_prefix d ni (c : ncfg Qc) t x0 z l f : judge_calls d ni c t x0 z l -> k_ieq c = Some f -> exists l', l = output_calls d c t x0 z ++ l'.
Proof. intros [E1 E2|g E1 E2|g E1 E2|g g' E1 E2 M] E; try congruence; eauto. Qed.
Lemma judge_raises ops z e : xreached qj nd 2 1 false (xS ops) (xH ops) -> scaled nd (xc ops) -> k_ieq (xc ops) <> None ->
  fst_exc (output_calls nd (xc ops) (throws_in (xH ops)) n_x0 z) = Some e ->
  exists l, judge_calls nd 2 (xc ops) (throws_in (xH ops)) n_x0 z l /\ raises l e.
Proof.
  intros Hr Sc Hi E. destruct (C68_judging_defined qj nd 2 1 false nd_ch nd_ph (xS ops) (xH ops) n_x0 z Hr ltac:(repeat split) Sc) as [l J]. exists l. split; [exact J|].
  destruct (k_ieq (xc ops)) as [f|] eqn:Ef; [|congruence]. destruct (judge_prefix _ _ _ _ _ _ _ f J Ef) as [l' ->]. apply raises_fst. rewrite fst_exc_app, E. reflexivity.
Qed.
Definition set_b {A} (o : option A) : bool := match o with Some _ => true | None => false end.
Lemma set_b_true {A} (o : option A) : set_b o = true -> o <> None. Proof. destruct o; [intros _ K; discriminate K|intros K; discriminate K]. Qed.

(** the hypotheses of C68_exception_while_judging, C68_foreign_exception_while_judging *)
Example C68_judging_instance : 0 < d_ch nd /\ d_ch nd <= d_ph nd /\ xreached qj nd 2 1 false (xS x_ops) (xH x_ops) /\ gm n_x0 (d_nx nd) 1 /\ scaled nd (xc x_ops) /\
  (exists l, judge_calls nd 2 (xc x_ops) (throws_in (xH x_ops)) n_x0 n_zf l /\ raises l EStd).
Proof.
  refine (conj nd_ch (conj nd_ph (conj x_ops_reached (conj _ (conj x_ops_scaled _))))); [repeat split|].
  apply (judge_raises x_ops n_zf EStd x_ops_reached x_ops_scaled); [apply set_b_true; vm_compute; reflexivity|vm_compute; reflexivity].
Qed.
Example C68_foreign_instance : xreached qj nd 2 1 false (xS x_ops_int) (xH x_ops_int) /\ scaled nd (xc x_ops_int) /\
  (exists l, judge_calls nd 2 (xc x_ops_int) (throws_in (xH x_ops_int)) n_x0 n_zf l /\ raises l EOther).
Proof.
  refine (conj x_ops_int_reached (conj x_ops_int_scaled _)).
  apply (judge_raises x_ops_int n_zf EOther x_ops_int_reached x_ops_int_scaled); [apply set_b_true; vm_compute; reflexivity|vm_compute; reflexivity].
Qed.
(** the hypotheses of C68_exception_while_filling_sequences: the same output function without inequality constraints *)
Lemma free_judge ops z : xreached qj nd 2 1 false (xS ops) (xH ops) -> scaled nd (xc ops) -> set_b (k_ieq (xc ops)) = false ->
  fst_exc [eqc_call_exc nd (xc ops) (throws_in (xH ops)) n_x0 z] = None ->
  exists l, judge_calls nd 2 (xc ops) (throws_in (xH ops)) n_x0 z l /\ quiet l.
Proof.
  intros Hr Sc Hi E. destruct (C68_judging_defined qj nd 2 1 false nd_ch nd_ph (xS ops) (xH ops) n_x0 z Hr ltac:(repeat split) Sc) as [l J]. exists l. split; [exact J|].
  destruct J as [E1 E2|g E1 E2|g E1 E2|g g' E1 E2 M]; [constructor|now apply quiet_fst|rewrite E1 in Hi; discriminate Hi|rewrite E1 in Hi; discriminate Hi].
Qed.
Example C68_filling_instance : xreached qj nd 2 1 false (xS x_two) (xH x_two) /\ scaled nd (xc x_two) /\
  (exists l, judge_calls nd 2 (xc x_two) (throws_in (xH x_two)) n_x0 n_zf l /\ quiet l) /\ raises (output_calls nd (xc x_two) (throws_in (xH x_two)) n_x0 n_zf) EStd.
Proof.
  refine (conj x_two_reached (conj x_two_scaled (conj _ _))).
  - apply (free_judge x_two n_zf x_two_reached x_two_scaled); vm_compute; reflexivity.
  - apply raises_fst. vm_compute. reflexivity.
Qed.
(** the hypotheses of C68_no_exception *)
Example C68_quiet_instance : xreached qj nd 2 1 false (xS x_ops_free) (xH x_ops_free) /\ scaled nd (xc x_ops_free) /\
  (exists l, judge_calls nd 2 (xc x_ops_free) (throws_in (xH x_ops_free)) n_x0 n_z2 l /\ quiet l) /\ quiet (output_calls nd (xc x_ops_free) (throws_in (xH x_ops_free)) n_x0 n_z2).
Proof.
  refine (conj x_ops_free_reached (conj x_ops_free_scaled (conj _ _))).
  - apply (free_judge x_ops_free n_z2 x_ops_free_reached x_ops_free_scaled); vm_compute; reflexivity.
  - apply quiet_fst. vm_compute. reflexivity.
Qed.

(** *** the intended behaviour *)
Definition throws_std (t : throws Qc) : Prop :=
  (forall x u i, t_out t x u i <> Some EOther) /\ (forall X Y U e, t_ieq t X Y U e <> Some EOther) /\ (forall X U, t_eqc t X U <> Some EOther).
Lemma x_two_std : throws_std (throws_in (xH x_two)).
Proof.
  assert (E : throws_in (xH x_two) = thr).
  { destruct x_two_reached as (ops & _ & _). destruct (inv_reached qj nd 2 1 false nd_ch nd_ph _ _ x_two_reached) as (_ & K & _). rewrite <- K. vm_compute. reflexivity. }
  rewrite E. unfold throws_std, thr. cbn [t_out t_ieq t_eqc]. refine (conj _ (conj _ _)); [|intros; discriminate|intros; discriminate].
  intros x u i. destruct (_ && _); discriminate.
Qed.
Local Notation fail_step := (x_step qj nd 2 1 false (xS x_two) (x_opt n_zf)).
Lemma eq_pos ops : k_eqc (xc ops) <> None -> 0 < 1. Proof. lia. Qed.
(** intended: when user functions only throw std::exceptions, optimize reports an error and lets none out *)
Theorem C68_reported_refuted :
  ~ (forall d ni ne x h x0 u0 z code cost t x' r, 0 < d_ch d -> d_ch d <= d_ph d -> xreached qj d ni ne false x h -> gm x0 (d_nx d) 1 -> scaled d (ncfg_run d ni ne (plain h)) ->
       throws_std (throws_in h) -> x_step qj d ni ne false x (NOptimize x0 u0 (NSolved z code cost), t) = Ok (x', r) -> r <> RThrow).
Proof.
  intros K. destruct C68_filling_instance as (Hr & Sc & (l & J & Q) & R).
  destruct (C68_exception_while_filling_sequences qj nd 2 1 false nd_ch nd_ph _ _ n_x0 n_u0 n_zf 1%Z (Fin (q 3)) never l EStd Hr ltac:(repeat split) Sc (eq_pos x_two) J Q R) as (x' & E & _).
  exact (K nd 2 1 _ _ n_x0 n_u0 n_zf 1%Z (Fin (q 3)) never x' RThrow nd_ch nd_ph Hr ltac:(repeat split) Sc x_two_std E eq_refl).
Qed.
(** intended: a call that throws leaves what can be read back as it was *)
Theorem C68_readback_unchanged_refuted :
  ~ (forall d ni ne x h x0 u0 z code cost t x', 0 < d_ch d -> d_ch d <= d_ph d -> xreached qj d ni ne false x h -> gm x0 (d_nx d) 1 -> scaled d (ncfg_run d ni ne (plain h)) ->
       throws_std (throws_in h) -> x_step qj d ni ne false x (NOptimize x0 u0 (NSolved z code cost), t) = Ok (x', RThrow) -> n_seq (x_n x') = n_seq (x_n x)).
Proof.
  intros K. destruct C68_filling_instance as (Hr & Sc & (l & J & Q) & R).
  destruct (C68_exception_while_filling_sequences qj nd 2 1 false nd_ch nd_ph _ _ n_x0 n_u0 n_zf 1%Z (Fin (q 3)) never l EStd Hr ltac:(repeat split) Sc (eq_pos x_two) J Q R) as (x' & E & _ & _ & RX & _).
  pose proof (K nd 2 1 _ _ n_x0 n_u0 n_zf 1%Z (Fin (q 3)) never x' nd_ch nd_ph Hr ltac:(repeat split) Sc x_two_std E) as S.
  apply (f_equal (fun s => sleb (ent (q_state s) 1 1) (q 6))) in S. destruct RX as [_ RX]. rewrite (RX 1 1) in S by (cbn; lia).
  vm_compute in S. discriminate S.
Qed.
(** intended: a call that fails does not change where the next warm start begins *)
Theorem C68_warm_start_kept_refuted :
  ~ (forall d ni ne x h x0 u0 z code cost t x' res x1 u1, 0 < d_ch d -> d_ch d <= d_ph d -> xreached qj d ni ne false x h -> gm x0 (d_nx d) 1 -> scaled d (ncfg_run d ni ne (plain h)) ->
       k_warm (ncfg_run d ni ne (plain h)) = true -> existsb (@solved_event Qc) (plain h) = true ->
       x_step qj d ni ne false x (NOptimize x0 u0 (NSolved z code cost), t) = Ok (x', RResult res) -> r_status res = ERROR -> code = 1%Z ->
       nc_guess (n_call qj d ni ne (x_n x') x1 u1) = nc_guess (n_call qj d ni ne (x_n x) x1 u1)).
Proof.
  intros K.
  destruct (judge_raises x_three n_zf EStd x_three_reached x_three_scaled ltac:(apply set_b_true; vm_compute; reflexivity) ltac:(vm_compute; reflexivity)) as (l & J & R).
  destruct (C68_exception_while_judging qj nd 2 1 false nd_ch nd_ph _ _ n_x0 n_u0 n_zf 1%Z (Fin (q 3)) never l x_three_reached ltac:(repeat split) x_three_scaled (eq_pos x_three) J R) as (x' & res & E & Er & _).
  assert (W : k_warm (xc x_three) = true) by (vm_compute; reflexivity). assert (SE : existsb (@solved_event Qc) (plain (xH x_three)) = true) by (vm_compute; reflexivity).
  assert (Es : r_status res = ERROR) by (rewrite Er; reflexivity).
  pose proof (K nd 2 1 _ _ n_x0 n_u0 n_zf 1%Z (Fin (q 3)) never x' res n_x0 n_u0 nd_ch nd_ph x_three_reached ltac:(repeat split) x_three_scaled W SE E Es eq_refl) as S.
  assert (Su : forall j, j < d_nu nd -> k_su (xc x_three) j <> s0). { intros j Hj E0. destruct j; [|cbn in Hj; lia]. apply (f_equal (fun x => sleb x s0)) in E0. vm_compute in E0. discriminate E0. }
  destruct (C68_failed_point_is_retained qj nd 2 1 false nd_ch nd_ph _ _ n_x0 n_u0 n_zf 1%Z (Fin (q 3)) never x' _ x_three_reached ltac:(repeat split) E Su W n_x0 n_u0) as [A _].
  specialize (A 0 0 ltac:(cbn; lia) ltac:(cbn; lia)). apply (f_equal (fun g => sleb (dvar g (0 * d_nx nd + 0)) (q 2))) in S. rewrite A in S. vm_compute in S. discriminate S.
Qed.
(** the hypotheses of C68_problem_kept and C68_forgotten_after_success: one history with a call that threw, one without *)
Definition x_with : list (xop Qc) := x_ops_free ++ [x_opt n_zf].
Example C68_forget_instance : exists x1 h1 x2 h2, x_life qj nd 2 1 false x_with = Ok (x1, h1) /\ x_life qj nd 2 1 false x_ops_free = Ok (x2, h2) /\
  filter is_setter x_with = filter is_setter x_ops_free /\ h1 <> h2 /\ Forall (fun op => nop_sized nd (fst op)) x_with /\ Forall (fun op => nop_sized nd (fst op)) x_ops_free.
Proof.
  destruct (x_life qj nd 2 1 false x_with) as [[x1 h1]|] eqn:E1; [|assert (K : is_ok (x_life qj nd 2 1 false x_with) = true) by (vm_compute; reflexivity); rewrite E1 in K; discriminate K].
  destruct (x_life qj nd 2 1 false x_ops_free) as [[x2 h2]|] eqn:E2; [|assert (K : is_ok (x_life qj nd 2 1 false x_ops_free) = true) by (vm_compute; reflexivity); rewrite E2 in K; discriminate K].
  exists x1, h1, x2, h2. refine (conj eq_refl (conj eq_refl (conj eq_refl (conj _ (conj _ _))))); [|xsized|xsized].
  intros K. assert (L : (length (xH x_with) =? length (xH x_ops_free)) = false) by (vm_compute; reflexivity). unfold xH in L. rewrite E1, E2, K, Nat.eqb_refl in L. discriminate L.
Qed.
(** the same faulty output function: reported as an error with inequality constraints, let out of optimize without *)
Theorem C68_depends_on_inequalities : exists x' x'' res, 
  x_step qj nd 2 1 false (xS x_three) (x_opt n_zf) = Ok (x', RResult res) /\ r_status res = ERROR /\
  x_step qj nd 2 1 false (xS x_two) (x_opt n_zf) = Ok (x'', RThrow) /\ x_two = filter (fun op => not_ineq (fst op)) x_three.
Proof.
  destruct (judge_raises x_three n_zf EStd x_three_reached x_three_scaled ltac:(apply set_b_true; vm_compute; reflexivity) ltac:(vm_compute; reflexivity)) as (l & J & R).
  destruct (C68_exception_while_judging qj nd 2 1 false nd_ch nd_ph _ _ n_x0 n_u0 n_zf 1%Z (Fin (q 3)) never l x_three_reached ltac:(repeat split) x_three_scaled (eq_pos x_three) J R) as (x' & res & E & Er & _).
  destruct C68_filling_instance as (Hr & Sc & (l2 & J2 & Q2) & R2).
  destruct (C68_exception_while_filling_sequences qj nd 2 1 false nd_ch nd_ph _ _ n_x0 n_u0 n_zf 1%Z (Fin (q 3)) never l2 EStd Hr ltac:(repeat split) Sc (eq_pos x_two) J2 Q2 R2) as (x'' & E2 & _).
  exists x', x'', res. refine (conj E (conj _ (conj E2 eq_refl))). now rewrite Er.
Qed.
