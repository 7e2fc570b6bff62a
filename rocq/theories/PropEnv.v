(** Property C86: user functions of the non-linear controller that read variables which the user changes between calls (functions are std::function
    objects, IDimensionable.hpp:94-149; a lambda that captures by reference is the usual case). *)
From Coq Require Import Bool Arith ZArith Lia QArith Qcanon List.
From Verif Require Import Scalar Sums Mat Slice Builder LMPC NLMap NLFun NLMPC Wit WitNL.
Import ListNotations.
Local Open Scope nat_scope.

Section Env.
  Context {F : Type} {SO : ScalarOps F}.
  Variable E : Type.                                   (* values of the user's variables *)
  Variables (junk : nat -> nat -> F) (d : dims) (ni ne : nat) (dyn_eq : bool).
  Notation step := (n_step junk d ni ne dyn_eq). Notation play := (n_play junk d ni ne dyn_eq).

  (** a call whose functions read the variables *)
  Definition eop := E -> nop F.
  (** two calls that differ at most in the functions passed *)
  Definition same_call (o o' : nop F) : Prop :=
    match o, o' with
    | NSetObjective _ a, NSetObjective _ a' => a = a'
    | NSetDynamics _ t a, NSetDynamics _ t' a' => t = t' /\ a = a'
    | NSetOutput _, NSetOutput _ => True
    | NSetIneq _ t a, NSetIneq _ t' a' => t = t' /\ a = a'
    | NSetEq _ t a, NSetEq _ t' a' => t = t' /\ a = a'
    | _, _ => o = o'
    end.
  Definition is_optimize (o : nop F) : bool := match o with NOptimize _ _ _ => true | _ => false end.

  (** The object as it looks under each value of the variables: its functions follow the variables, all other data are stored.  A setter stores; optimize()
      (which does not change the variables while it runs) computes with the functions under the present values and stores what it stores. *)
  Definition e_step (S : E -> nmpc F) (v : E) (o : eop) : outcome ((E -> nmpc F) * ret F) :=
    match step (S v) (o v) with
    | UB => UB
    | Ok (s', r) =>
        Ok (if is_optimize (o v) then (fun w => with_run (n_opt s') (n_first s') (n_slack s') (n_res s') (n_seq s') (S w))
            else (fun w => match step (S w) (o w) with Ok (t, _) => t | UB => S w end), r)
    end.
  (** each call is made at some value of the variables *)
  Fixpoint e_play (S : E -> nmpc F) (l : list (E * eop)) : outcome (E -> nmpc F) :=
    match l with
    | [] => Ok S
    | (v, o) :: l => match e_step S v o with UB => UB | Ok (S', _) => e_play S' l end
    end.

  (** *** proof: states that differ only in their functions and in results of the past *)
  Definition shape (M M' : mat F) : Prop := mrows M = mrows M' /\ mcols M = mcols M' /\ mok M = mok M'.
  Definition is_some {A} (o : option A) : bool := match o with Some _ => true | None => false end.
  Definition over (t s : nmpc F) : nmpc F :=
    mkN (n_map s) (n_ts s) (n_dyn t) (n_out t) (n_obj t) (n_ieq t) (n_itol s) (n_eqc t) (n_etol s) (n_bobj s) (n_cons s) (n_par s) (n_slb s) (n_sub s) (n_lb s) (n_ub s) (n_opt s)
        (n_first s) (n_warm s) (n_slack s) (n_res t) (n_seq t).
  Record kin (t s : nmpc F) : Prop := {
    k_over : t = over t s;
    k_some : is_some (n_dyn t) = is_some (n_dyn s) /\ is_some (n_out t) = is_some (n_out s) /\ is_some (n_obj t) = is_some (n_obj s) /\ is_some (n_ieq t) = is_some (n_ieq s) /\ is_some (n_eqc t) = is_some (n_eqc s);
    k_cmd : r_cmd (n_res t) = r_cmd (n_res s);
    k_seq : shape (q_state (n_seq t)) (q_state (n_seq s)) /\ shape (q_output (n_seq t)) (q_output (n_seq s)) /\ shape (q_input (n_seq t)) (q_input (n_seq s)) }.
  Definition omap (f : nmpc F -> nmpc F) (o : outcome (nmpc F)) : outcome (nmpc F) := match o with Ok s => Ok (f s) | UB => UB end.
  Lemma bounds_over t off w H lo hi sl s : n_bounds off w H lo hi sl (over t s) = omap (over t) (n_bounds off w H lo hi sl s).
  Proof. unfold n_bounds. destruct (nl_steps H sl) as [[|k l]|]; [reflexivity| |reflexivity]. cbn [over n_lb n_ub]. destruct (_ && _); reflexivity. Qed.
  Lemma loop_S {St} n (f : nat -> St -> St) x : loop (S n) f x = f n (loop n f x).
  Proof. reflexivity. Qed.
  Lemma bounds_mat_over t off w H lo hi s : n_bounds_mat off w H lo hi (over t s) = omap (over t) (n_bounds_mat off w H lo hi s).
  Proof.
    unfold n_bounds_mat. generalize H at 1 3 as n. intros n. induction n as [|n IH]; [reflexivity|]. rewrite !loop_S, IH.
    destruct (loop n _ (Ok s)) as [s1|]; [|reflexivity]. cbn [omap]. apply bounds_over.
  Qed.
  (** what belongs to the functions and to the past *)
  Definition own (s : nmpc F) := (n_dyn s, n_out s, n_obj s, n_ieq s, n_eqc s, n_res s, n_seq s).
  Lemma bounds_own off w H lo hi sl s s1 : n_bounds off w H lo hi sl s = Ok s1 -> own s1 = own s.
  Proof. unfold n_bounds. destruct (nl_steps H sl) as [[|k l]|]; [intros [= <-]; reflexivity| |discriminate]. destruct (_ && _); [|discriminate]. intros [= <-]. reflexivity. Qed.
  Lemma bounds_mat_own off w H lo hi s s1 : n_bounds_mat off w H lo hi s = Ok s1 -> own s1 = own s.
  Proof.
    unfold n_bounds_mat. generalize H at 1 as n. intros n. revert s1. induction n as [|n IH]; intros s1; [intros [= <-]; reflexivity|]. rewrite loop_S.
    destruct (loop n _ (Ok s)) as [s2|]; [|discriminate]. intros E1. apply bounds_own in E1. rewrite E1. now apply IH.
  Qed.
  (** calls that do not pass a function *)
  Definition plain (o : nop F) : bool := match o with NSetObjective _ _ | NSetDynamics _ _ _ | NSetOutput _ | NSetIneq _ _ _ | NSetEq _ _ _ | NOptimize _ _ _ => false | _ => true end.
  Lemma plain_step t s o : plain o = true ->
    step (over t s) o = (match step s o with Ok (s1, r) => Ok (over t s1, r) | UB => UB end) /\ (forall s1 r, step s o = Ok (s1, r) -> own s1 = own s).
  Proof.
    intros P. destruct o; try discriminate P; cbn [n_step]; clear P.
    - split; [reflexivity|intros s1 r [= <- _]; reflexivity].
    - destruct p as [p|]; [|split; [reflexivity|discriminate]]. split; [unfold set_params; cbn [over with_par n_par]; destruct (np_hard p); reflexivity|].
      intros s1 r [= <- _]. unfold set_params. destruct (np_hard p); reflexivity.
    - cbn [over n_map]. destruct (_ && _); split; try reflexivity; try discriminate. intros s1 r [= <- _]; reflexivity.
    - cbn [over n_map]. destruct (_ && _); split; try reflexivity; try discriminate. intros s1 r [= <- _]; reflexivity.
    - rewrite bounds_mat_over. destruct (n_bounds_mat _ _ _ _ _ s) as [s1|] eqn:E1; (split; [reflexivity|]); [|discriminate]. intros s2 r [= <- _]. eapply bounds_mat_own; eassumption.
    - rewrite bounds_mat_over. destruct (n_bounds_mat _ _ _ _ _ s) as [s1|] eqn:E1; (split; [reflexivity|]); [|discriminate]. intros s2 r [= <- _]. eapply bounds_mat_own; eassumption.
    - split; [reflexivity|intros s1 r [= <- _]; reflexivity].
    - unfold n_slice. destruct (slice_unset sl); [|destruct (slice_check _ sl) as [[|]|]];
        try (rewrite bounds_over; destruct (n_bounds _ _ _ _ _ _ s) as [s1|] eqn:E1; (split; [reflexivity|]); [intros s2 r [= <- _]; eapply bounds_own; eassumption|discriminate]);
        (split; [reflexivity|]); [intros s2 r [= <- _]; reflexivity|discriminate].
    - unfold n_slice. destruct (slice_unset sl); [|destruct (slice_check _ sl) as [[|]|]];
        try (rewrite bounds_over; destruct (n_bounds _ _ _ _ _ _ s) as [s1|] eqn:E1; (split; [reflexivity|]); [intros s2 r [= <- _]; eapply bounds_own; eassumption|discriminate]);
        (split; [reflexivity|]); [intros s2 r [= <- _]; reflexivity|discriminate].
    - split; [reflexivity|intros s1 r [= <- _]; reflexivity].
  Qed.

  (** shapes of the outputs do not depend on the output function *)
  Lemma shape_refl (M : mat F) : shape M M. Proof. repeat split. Qed.
  Lemma set_mrow_shape (M M' V V' : mat F) i : shape M M' -> shape V V' -> shape (set_mrow M i V) (set_mrow M' i V').
  Proof. intros (A & B & C) (A1 & B1 & C1). unfold set_mrow, set_block, shape. cbn [mrows mcols mok]. rewrite A, B, C, A1, B1, C1. repeat split. Qed.
  Lemma out_shape g g' (X U : mat F) : is_some g = is_some g' -> shape (get_output d g X U) (get_output d g' X U).
  Proof.
    destruct g as [g|], g' as [g'|]; try discriminate; [intros _|intros _; apply shape_refl]. unfold get_output.
    generalize (mzero (F:=F) (d_ph d + 1) (d_ny d)) as M0. intros M0. generalize (d_ph d + 1) as n. induction n as [|n IH]; [apply shape_refl|]. rewrite !loop_S.
    apply set_mrow_shape; [exact IH|]. repeat split.
  Qed.
  Lemma block_shape (M M' : mat F) r c h w : shape M M' -> shape (block M r c h w) (block M' r c h w).
  Proof. intros (A & B & C). unfold block, shape. cbn [mrows mcols mok]. rewrite A, B, C. repeat split. Qed.

  Lemma run_kin t s x0 u0 a : kin t s ->
    match n_run junk d ni ne t x0 u0 a, n_run junk d ni ne s x0 u0 a with
    | Ok t1, Ok s1 => kin t1 s1 /\ own t1 = (n_dyn t, n_out t, n_obj t, n_ieq t, n_eqc t, n_res t1, n_seq t1) /\ own s1 = (n_dyn s, n_out s, n_obj s, n_ieq s, n_eqc s, n_res s1, n_seq s1)
    | UB, UB => True | _, _ => False end.
  Proof.
    intros [Ov (D1 & D2 & D3 & D4 & D5) Cm (Sx & Sy & Su)]. unfold n_run.
    assert (G : n_guess junk d t x0 u0 = n_guess junk d s x0 u0) by (rewrite Ov; reflexivity). rewrite G. destruct (negb (mok _)); [exact I|].
    assert (St : n_start d t x0 u0 = n_start d s x0 u0) by (rewrite Ov; reflexivity).
    assert (Mp : n_map t = n_map s) by (rewrite Ov; reflexivity).
    destruct a as [|z code cost].
    - rewrite St. refine (conj _ (conj eq_refl eq_refl)). constructor.
      + rewrite Ov. reflexivity.
      + exact (conj D1 (conj D2 (conj D3 (conj D4 D5)))).
      + exact Cm.
      + cbn [with_run n_seq q_state q_output q_input]. destruct Sx as (A1 & A2 & _), Sy as (B1 & B2 & _), Su as (E1 & E2 & _). rewrite A1, A2, B1, B2, E1, E2. exact (conj (shape_refl _) (conj (shape_refl _) (shape_refl _))).
    - assert (He : has_eq t = has_eq s) by (unfold has_eq; destruct (n_eqc t), (n_eqc s); (reflexivity || discriminate)). rewrite He, Mp. destruct (has_eq s && (ne =? 0)); [exact I|].
      cbn [q_state q_output q_input].
      pose proof (block_shape _ _ 0 0 (d_ph d + 1) (d_ny d) (out_shape (n_out t) (n_out s) (unwrap_X d (n_map s) (mvec (n_dec d) z) x0) (unwrap_U d (n_map s) (mvec (n_dec d) z)) D2)) as Sh.
      rewrite (proj2 (proj2 Sh)). destruct (_ && _); [|exact I]. refine (conj _ (conj eq_refl eq_refl)). constructor.
      + rewrite Ov. reflexivity.
      + exact (conj D1 (conj D2 (conj D3 (conj D4 D5)))).
      + reflexivity.
      + exact (conj (shape_refl _) (conj Sh (shape_refl _))).
  Qed.

  Lemma run_with s x0 u0 a s1 : n_run junk d ni ne s x0 u0 a = Ok s1 -> s1 = with_run (n_opt s1) (n_first s1) (n_slack s1) (n_res s1) (n_seq s1) s.
  Proof.
    unfold n_run. destruct (negb (mok _)); [discriminate|]. destruct a as [|z code cost]; [intros [= <-]; reflexivity|].
    destruct (has_eq s && (ne =? 0)); [discriminate|]. cbn zeta. destruct (_ && _); [|discriminate]. intros [= <-]. reflexivity.
  Qed.
  Lemma shape_sym (M M' : mat F) : shape M M' -> shape M' M. Proof. intros (A & B & C). repeat split; congruence. Qed.
  Lemma shape_trans (M M' N : mat F) : shape M M' -> shape M' N -> shape M N. Proof. intros (A & B & C) (A1 & B1 & C1). repeat split; congruence. Qed.
  Lemma kin_refl s : kin s s.
  Proof. constructor; [destruct s; reflexivity|repeat split|reflexivity|repeat split]. Qed.
  Lemma over_over t s u : s = over s u -> over t s = over t u.
  Proof. intros ->. reflexivity. Qed.
  Lemma over_sym t s : t = over t s -> s = over s t.
  Proof. intros ->. destruct s; reflexivity. Qed.
  Lemma kin_sym t s : kin t s -> kin s t.
  Proof.
    intros [Ov (D1 & D2 & D3 & D4 & D5) Cm (Sx & Sy & Su)]. constructor; [now apply over_sym|repeat split; congruence|congruence|].
    exact (conj (shape_sym _ _ Sx) (conj (shape_sym _ _ Sy) (shape_sym _ _ Su))).
  Qed.
  Lemma kin_trans t s u : kin t s -> kin s u -> kin t u.
  Proof.
    intros [Ov (D1 & D2 & D3 & D4 & D5) Cm (Sx & Sy & Su)] [Ov' (D1' & D2' & D3' & D4' & D5') Cm' (Sx' & Sy' & Su')].
    constructor; [rewrite Ov at 1; now apply over_over|repeat split; congruence|congruence|].
    exact (conj (shape_trans _ _ _ Sx Sx') (conj (shape_trans _ _ _ Sy Sy') (shape_trans _ _ _ Su Su'))).
  Qed.

  (** the same functions *)
  Definition fs (t s : nmpc F) : Prop := n_dyn t = n_dyn s /\ n_out t = n_out s /\ n_obj t = n_obj s /\ n_ieq t = n_ieq s /\ n_eqc t = n_eqc s.
  Lemma own_kin t s t1 s1 : kin t s -> own t1 = own t -> own s1 = own s -> t1 = over t1 s1 -> kin t1 s1.
  Proof.
    unfold own. intros [_ D Cm Sq] [= A1 A2 A3 A4 A5 A6 A7] [= B1 B2 B3 B4 B5 B6 B7] Ov. constructor; [exact Ov| | |].
    - now rewrite A1, A2, A3, A4, A5, B1, B2, B3, B4, B5.
    - now rewrite A6, B6.
    - now rewrite A7, B7.
  Qed.
  Lemma over_own t t1 s : own t1 = own t -> over t s = over t1 s.
  Proof. unfold own, over. intros [= A1 A2 A3 A4 A5 A6 A7]. now rewrite A1, A2, A3, A4, A5, A6, A7. Qed.

  (** what a call that is not optimize() does to the functions *)
  Definition put (o : nop F) (t t1 : nmpc F) : Prop :=
    n_dyn t1 = (match o with NSetDynamics f _ _ => Some f | _ => n_dyn t end) /\ n_out t1 = (match o with NSetOutput g => Some g | _ => n_out t end) /\
    n_obj t1 = (match o with NSetObjective f _ => Some f | _ => n_obj t end) /\ n_ieq t1 = (match o with NSetIneq c _ _ => Some c | _ => n_ieq t end) /\
    n_eqc t1 = (match o with NSetEq c _ _ => Some c | _ => n_eqc t end) /\ (is_optimize o = false -> n_res t1 = n_res t /\ n_seq t1 = n_seq t).
  Lemma step_put t o t1 r : step t o = Ok (t1, r) -> put o t t1.
  Proof.
    intros H. destruct (plain o) eqn:P.
    - pose proof (proj2 (plain_step t t o P) _ _ H) as Q. unfold own in Q. injection Q as A1 A2 A3 A4 A5 A6 A7.
      destruct o; try discriminate P; unfold put; rewrite A1, A2, A3, A4, A5, A6, A7; repeat split.
    - destruct o; try discriminate P; cbn [n_step] in H.
      + injection H as <- _. repeat split.
      + injection H as <- _. repeat split.
      + injection H as <- _. repeat split.
      + injection H as <- _. repeat split.
      + destruct dyn_eq; [discriminate|]. injection H as <- _. repeat split.
      + destruct (n_run _ _ _ _ t _ _ _) as [s'|] eqn:R; [|discriminate]. injection H as <- _. rewrite (run_with _ _ _ _ _ R). unfold put. cbn [with_run n_dyn n_out n_obj n_ieq n_eqc is_optimize]. repeat split; discriminate.
  Qed.
  Ltac kin_set K := destruct K as [Ov (D1 & D2 & D3 & D4 & D5) Cm Sq];
    match type of Ov with ?t = over ?t ?s => destruct t, s end; cbn in Ov; injection Ov; intros; subst; constructor;
    [reflexivity|repeat split; (assumption || reflexivity)|exact Cm|exact Sq].
  Lemma step_kin t s o o'
 : kin t s -> same_call o o' ->
    match step t o, step s o' with
    | Ok (t1, r), Ok (s1, r') => kin t1 s1 /\ (is_optimize o = false -> r = r')
    | UB, UB => True | _, _ => False end.
  Proof.
    intros K SC. destruct (plain o) eqn:P.
    - assert (o' = o) as -> by (destruct o, o'; try discriminate P; try discriminate SC; now symmetry). pose proof (k_over _ _ K) as Ov.
      destruct (plain_step t s o P) as [E1 O1]. rewrite <- Ov in E1. pose proof (proj2 (plain_step t t o P)) as O2. rewrite E1.
      destruct (step s o) as [[s1 r]|] eqn:Es; [|exact I]. split; [|reflexivity].
      assert (Oo : own (over t s1) = own t) by reflexivity.
      refine (own_kin t s _ _ K Oo (O1 _ _ eq_refl) _). reflexivity.
    - destruct o; try discriminate P; destruct o'; try contradiction SC; try discriminate SC; cbn [n_step].
      + cbn in SC. subst. split; [|reflexivity]. kin_set K.
      + cbn in SC. destruct SC as [-> ->]. split; [|reflexivity]. kin_set K.
      + split; [|reflexivity]. kin_set K.
      + cbn in SC. destruct SC as [-> ->]. split; [|reflexivity]. kin_set K.
      + cbn in SC. destruct SC as [-> ->]. destruct dyn_eq; [exact I|]. split; [|reflexivity]. kin_set K.
      + cbn in SC. injection SC as <- <- <-. pose proof (run_kin t s x0 u0 a K) as R. destruct (n_run _ _ _ _ t _ _ _) as [t1|], (n_run _ _ _ _ s _ _ _) as [s1|]; try exact R.
        split; [exact (proj1 R)|discriminate].
  Qed.

  Lemma is_opt_same o o' : same_call o o' -> is_optimize o' = is_optimize o.
  Proof. destruct o, o'; try reflexivity; intros H; try discriminate H; try contradiction H. Qed.
  Lemma run_same t s x0 u0 a : kin t s -> fs t s ->
    match n_run junk d ni ne t x0 u0 a, n_run junk d ni ne s x0 u0 a with
    | Ok t1, Ok s1 => n_res t1 = n_res s1 /\ n_seq t1 = n_seq s1
    | UB, UB => True | _, _ => False end.
  Proof.
    intros [Ov _ Cm (Sx & Sy & Su)] (D1 & D2 & D3 & D4 & D5). unfold n_run.
    assert (G : n_guess junk d t x0 u0 = n_guess junk d s x0 u0) by (rewrite Ov; reflexivity). rewrite G. destruct (negb (mok _)); [exact I|].
    assert (Mp : n_map t = n_map s) by (rewrite Ov; reflexivity).
    destruct a as [|z code cost].
    - cbn [with_run n_res n_seq q_state q_output q_input]. destruct Sx as (A1 & A2 & _), Sy as (B1 & B2 & _), Su as (E1 & E2 & _). rewrite A1, A2, B1, B2, E1, E2, Cm. split; reflexivity.
    - assert (Ti : n_itol t = n_itol s) by (rewrite Ov; reflexivity). assert (Te : n_etol t = n_etol s) by (rewrite Ov; reflexivity).
      unfold has_eq. rewrite D2, D4, D5, Mp, Ti, Te. destruct (_ && (ne =? 0)); [exact I|]. destruct (_ && _); [|exact I]. split; reflexivity.
  Qed.
  Lemma call_same t s x0 u0 : kin t s -> fs t s -> n_call junk d ni ne t x0 u0 = n_call junk d ni ne s x0 u0.
  Proof.
    intros [Ov _ _ _] (D1 & D2 & D3 & D4 & D5). rewrite Ov. unfold over. rewrite D1, D2, D3, D4, D5. reflexivity.
  Qed.

  (** *** the invariant: [S] is the object with its variables, [T w] a plain object whose functions were passed with the variables fixed at [w] *)
  Record inv (S T : E -> nmpc F) : Prop := {
    i_kin : forall v w, kin (S v) (T w);
    i_fs : forall w, fs (S w) (T w);
    i_res : forall v w, n_res (S v) = n_res (S w) /\ n_seq (S v) = n_seq (S w) }.
  Lemma fs_put o t s t1 s1 : fs t s -> put o t t1 -> put o s s1 -> fs t1 s1.
  Proof. intros (A1 & A2 & A3 & A4 & A5) (B1 & B2 & B3 & B4 & B5 & _) (C1 & C2 & C3 & C4 & C5 & _). unfold fs. rewrite B1, B2, B3, B4, B5, C1, C2, C3, C4, C5. destruct o; repeat split; assumption || reflexivity. Qed.
  Lemma wr_over t T Sa r q : t = with_run (n_opt t) (n_first t) (n_slack t) (n_res t) (n_seq t) T -> Sa = over Sa T ->
    with_run (n_opt t) (n_first t) (n_slack t) r q Sa = over (with_run (n_opt t) (n_first t) (n_slack t) r q Sa) t.
  Proof. intros Wt Ov. rewrite Ov. revert Wt. generalize (n_opt t), (n_first t), (n_slack t), (n_res t), (n_seq t). intros ? ? ? ? ? ->. reflexivity. Qed.
  Lemma inv_step S T v o : inv S T -> (forall a b, same_call (o a) (o b)) ->
    match e_step S v o with
    | Ok (S', _) => exists T', (forall w, exists r, step (T w) (o w) = Ok (T' w, r)) /\ inv S' T'
    | UB => forall w, step (T w) (o w) = UB end.
  Proof.
    intros I U. unfold e_step.
    assert (K : forall a b, match step (S a) (o a), step (T b) (o b) with Ok (t1, r), Ok (s1, r') => kin t1 s1 /\ (is_optimize (o a) = false -> r = r') | UB, UB => True | _, _ => False end)
      by (intros a b; exact (step_kin _ _ _ _ (i_kin _ _ I a b) (U a b))).
    destruct (step (S v) (o v)) as [[s' r']|] eqn:Ev.
    2: { intros w. specialize (K v w). rewrite Ev in K. destruct (step (T w) (o w)) as [[? ?]|]; [contradiction|reflexivity]. }
    exists (fun w => match step (T w) (o w) with Ok (t, _) => t | UB => T w end).
    assert (OkT : forall w, exists t r, step (T w) (o w) = Ok (t, r)).
    { intros w. specialize (K v w). rewrite Ev in K. destruct (step (T w) (o w)) as [[t r]|]; [eauto|contradiction]. }
    assert (OkS : forall w, exists t r, step (S w) (o w) = Ok (t, r)).
    { intros w. specialize (K w v). destruct (OkT v) as (t & r & E1). rewrite E1 in K. destruct (step (S w) (o w)) as [[t1 r1]|]; [eauto|contradiction]. }
    split. { intros w. destruct (OkT w) as (t & r & E1). exists r. rewrite E1. reflexivity. }
    destruct (is_optimize (o v)) eqn:Op.
    - assert (Sw : forall w, exists x0 u0 a, o w = NOptimize x0 u0 a).
      { intros w. pose proof (is_opt_same _ _ (U v w)) as Q. rewrite Op in Q. destruct (o w); try discriminate Q. eauto. }
      assert (Wr : forall w t r, step (T w) (o w) = Ok (t, r) -> t = with_run (n_opt t) (n_first t) (n_slack t) (n_res t) (n_seq t) (T w)).
      { intros w t r H. destruct (Sw w) as (x0 & u0 & a & Eo). rewrite Eo in H. cbn [n_step] in H. destruct (n_run _ _ _ _ (T w) _ _ _) as [q|] eqn:R; [|discriminate]. injection H as <- _. exact (run_with _ _ _ _ _ R). }
      constructor.
      + intros a b. destruct (OkT b) as (t & r & E1). rewrite E1. pose proof (K v b) as Kb. rewrite Ev, E1 in Kb. destruct Kb as [Kb _]. pose proof (Wr b t r E1) as Wt.
        pose proof (i_kin _ _ I a b) as [Ov Sm _ _]. pose proof Kb as [Ov' _ Cm Sq].
        assert (A1 : n_opt s' = n_opt t) by (rewrite Ov'; reflexivity). assert (A2 : n_first s' = n_first t) by (rewrite Ov'; reflexivity). assert (A3 : n_slack s' = n_slack t) by (rewrite Ov'; reflexivity).
        constructor.
        * rewrite A1, A2, A3. exact (wr_over _ _ _ _ _ Wt Ov).
        * rewrite Wt. exact Sm.
        * exact Cm.
        * exact Sq.
      + intros w. destruct (OkT w) as (t & r & E1). rewrite E1, (Wr w t r E1). exact (i_fs _ _ I w).
      + intros a b. split; reflexivity.
    - constructor.
      + intros a b. pose proof (K a b) as Q. destruct (OkT b) as (t & r & E1). destruct (OkS a) as (t2 & r2 & E2). rewrite E1, E2 in *. exact (proj1 Q).
      + intros w. destruct (OkT w) as (t & r & E1). destruct (OkS w) as (t2 & r2 & E2). rewrite E1, E2. exact (fs_put _ _ _ _ _ (i_fs _ _ I w) (step_put _ _ _ _ E2) (step_put _ _ _ _ E1)).
      + intros a b. destruct (OkS a) as (t & r & E1). destruct (OkS b) as (t2 & r2 & E2). rewrite E1, E2.
        assert (Oa : is_optimize (o a) = false) by (rewrite (is_opt_same _ _ (U v a)); exact Op). assert (Ob : is_optimize (o b) = false) by (rewrite (is_opt_same _ _ (U v b)); exact Op).
        destruct (step_put _ _ _ _ E1) as (_ & _ & _ & _ & _ & P1). destruct (step_put _ _ _ _ E2) as (_ & _ & _ & _ & _ & P2). destruct (P1 Oa) as [-> ->]. destruct (P2 Ob) as [-> ->]. exact (i_res _ _ I a b).
  Qed.
  Lemma inv_play l : forall S T, inv S T -> Forall (fun vo => forall a b, same_call (snd vo a) (snd vo b)) l ->
    match e_play S l with
    | Ok S' => exists T', (forall w, exists h, play (T w) (map (fun vo => snd vo w) l) = Ok (T' w, h)) /\ inv S' T'
    | UB => forall w, play (T w) (map (fun vo => snd vo w) l) = UB end.
  Proof.
    induction l as [|[v o] l IH]; intros S T I Fa; [exists T; split; [intros w; exists []; reflexivity|exact I]|].
    inversion Fa as [|? ? U Fa']; subst. cbn [e_play map n_play snd]. cbn [snd] in U. pose proof (inv_step S T v o I U) as St.
    destruct (e_step S v o) as [[S1 r]|]; [|intros w; cbn [n_play]; rewrite (St w); reflexivity].
    destruct St as (T1 & HT & I1). specialize (IH S1 T1 I1 Fa'). destruct (e_play S1 l) as [S2|].
    - destruct IH as (T2 & HT2 & I2). exists T2. split; [|exact I2]. intros w. destruct (HT w) as [r1 E1]. destruct (HT2 w) as [h E2]. cbn [n_play]. rewrite E1, E2. eauto.
    - intros w. destruct (HT w) as [r1 E1]. cbn [n_play]. rewrite E1, (IH w). reflexivity.
  Qed.
  Lemma inv_const s : inv (fun _ => s) (fun _ => s).
  Proof. constructor; [intros; apply kin_refl|repeat split|repeat split]. Qed.

  (** *** C86 *)
  Definition uniform (l : list (E * eop)) : Prop := Forall (fun vo => forall a b, same_call (snd vo a) (snd vo b)) l.
  (** the same history with the variables fixed at [w] from the start *)
  Definition frozen (l : list (E * eop)) (w : E) : list (nop F) := map (fun vo => snd vo w) l.

  Theorem C86_current_values l w : uniform l ->
    match e_play (fun _ => n_init d) l, play (n_init d) (frozen l w) with
    | Ok Ob, Ok (s, _) =>
        forall x0 u0,
        n_call junk d ni ne (Ob w) x0 u0 = n_call junk d ni ne s x0 u0 /\
        forall a, match e_step Ob w (fun _ => NOptimize x0 u0 a), step s (NOptimize x0 u0 a) with
                  | Ok (Ob', r), Ok (s', r') => r = r' /\ forall v, n_res (Ob' v) = n_res s' /\ n_seq (Ob' v) = n_seq s'
                  | UB, UB => True | _, _ => False end
    | UB, UB => True | _, _ => False end.
  Proof.
    intros U. pose proof (inv_play l _ _ (inv_const (n_init d)) U) as P. destruct (e_play _ l) as [Ob|]; [|unfold frozen; rewrite (P w); exact I].
    destruct P as (T & HT & I1). destruct (HT w) as [h Eh]. unfold frozen. rewrite Eh. intros x0 u0. split; [exact (call_same _ _ _ _ (i_kin _ _ I1 w w) (i_fs _ _ I1 w))|].
    intros a. unfold e_step. cbn [n_step is_optimize]. pose proof (run_same _ _ x0 u0 a (i_kin _ _ I1 w w) (i_fs _ _ I1 w)) as R.
    destruct (n_run _ _ _ _ (Ob w) _ _ _) as [t1|], (n_run _ _ _ _ (T w) _ _ _) as [s1|]; try exact R. destruct R as [R1 R2]. split; [now rewrite R1|]. intros v. split; assumption.
  Qed.
  (** what is read back does not follow the variables *)
  Theorem C86_results_are_kept l S : uniform l -> e_play (fun _ => n_init d) l = Ok S -> forall v w, n_res (S v) = n_res (S w) /\ n_seq (S v) = n_seq (S w).
  Proof. intros U H. pose proof (inv_play l _ _ (inv_const (n_init d)) U) as P. rewrite H in P. destruct P as (T & _ & I1). exact (i_res _ _ I1). Qed.
End Env.

(** A variable read by the objective, by the output function and by the inequality; it is 3 while the controller is set up, 5 during a first optimize(), then 8. *)
Definition e_hist : list (Qc * eop Qc) :=
  map (fun o => (q 3, fun _ : Qc => o)) n_scales ++
  [(q 3, fun v => NSetObjective (fun X Y U e => n_J X Y U e + v * at2 X 2 0)%S true); (q 3, fun _ => NSetDynamics n_f (q 0) true); (q 4, fun v => NSetOutput (fun x u k l => n_g x u k l + v)%S);
   (q 3, fun v => NSetIneq (fun X Y U e k => n_ci X Y U e k + v - at2 Y 1 0)%S (q 1) true); (q 3, fun _ => NSetInputBounds (qe [-3]%Z) (qe [3]%Z) (mkSlice 0 1)); (q 5, fun _ => n_opt_op)].
Lemma e_hist_uniform : uniform Qc e_hist.
Proof. unfold uniform, e_hist. repeat (constructor; [intros a b; cbn; auto|]). constructor. Qed.
Definition e_obj : Qc -> nmpc Qc := match e_play Qc qj nd 2 1 false (fun _ => n_init nd) e_hist with Ok Ob => Ob | UB => fun _ => n_init nd end.
Lemma e_hist_runs : e_play Qc qj nd 2 1 false (fun _ => n_init nd) e_hist = Ok e_obj.
Proof. unfold e_obj. assert (H : is_ok (e_play Qc qj nd 2 1 false (fun _ => n_init nd) e_hist) = true) by (vm_compute; reflexivity). destruct (e_play _ _ _ _ _ _ _ _); [reflexivity|discriminate]. Qed.
Definition e_cost (v : Qc) : Qc := match nc_obj (n_call qj nd 2 1 (e_obj v) n_x0 n_u0) with Some ev => match ev n_z with Ok (c, _) => c | UB => q 0 end | None => q 0 end.
(** the cost handed to the solver follows the variable, the outputs read back do not: they are those computed at 5 *)
Example C86_instance : uniform Qc e_hist /\ e_play Qc qj nd 2 1 false (fun _ => n_init nd) e_hist = Ok e_obj /\ e_cost (q 8) <> e_cost (q 5) /\
  n_seq (e_obj (q 8)) = n_seq (e_obj (q 5)) /\ ent (q_output (n_seq (e_obj (q 8)))) 0 0 = (ent (q_state (n_seq (e_obj (q 5)))) 0 0 + ent (q_input (n_seq (e_obj (q 5)))) 0 0 + q 5)%S.
Proof.
  split; [exact e_hist_uniform|]. split; [exact e_hist_runs|]. split; [intros E; apply (f_equal (fun x => sleb x (e_cost (q 5)))) in E; vm_compute in E; discriminate|].
  split; [exact (proj2 (C86_results_are_kept Qc qj nd 2 1 false _ _ e_hist_uniform e_hist_runs _ _))|]. vm_compute. reflexivity.
Qed.
