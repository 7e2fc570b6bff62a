(** Property C74, continued: an instance, and what rounding does to the gradient. *)
From Coq Require Import Bool Arith ZArith Lia Reals Lra List.
From Coq Require Import Floats.SpecFloat.
From Flocq Require Import Core BinarySingleNaN.
From Verif Require Import Scalar ScalarR Double DoubleR DoubleStep Sums Mat Builder LMPC NLMap NLFun NLMPC SpecNLC SpecNLP NLRef NLRun NLTrace SpecTrace SpecDrift PropDouble PropDrift Slice.
Import ListNotations.
Local Open Scope nat_scope.

Definition v_b : dbl := dz 1099511627776.
Lemma v_b_R : rval v_b = 1099511627776%R.
Proof.
  assert (E : v_b = S754_finite false 4503599627370496 (-12)) by (vm_compute; reflexivity).
  rewrite E. unfold rval. cbn [SF2R cond_Zopp]. unfold F2R. simpl. lra.
Qed.
Lemma v_okd x : is_double x && Double.is_fin x && sleb x v_b && sleb (sopp v_b) x = true -> okd 1099511627776%R x.
Proof.
  intros H. apply andb_true_iff in H as [H H4]. apply andb_true_iff in H as [H H3]. apply andb_true_iff in H as [H1 H2].
  assert (Db : is_double v_b = true) by (vm_compute; reflexivity). assert (Fb : Double.is_fin v_b = true) by (vm_compute; reflexivity).
  destruct (dopp_R v_b Db) as (Do & Fo & Vo). rewrite Fb in Fo. rewrite v_b_R in Vo.
  rewrite dleb_R in H3 by assumption. rewrite dleb_R in H4 by assumption. rewrite v_b_R in H3. rewrite Vo in H4.
  revert H3 H4. case Rle_bool_spec; [|discriminate]. case Rle_bool_spec; [|discriminate]. intros. apply okd_of; [assumption|assumption|lra].
Qed.
(** the hypotheses of the four theorems are met *)
Theorem C74_instance :
  0 < d_ch wd <= d_ph wd /\ nreached dj wd 1 0 false v_s v_h /\ gm v_x0 (d_nx wd) 1 /\
  (length v_large = n_dec wd /\ shows wd v_s (k_out (ncfg_run wd 1 0 v_h)) v_x0 v_large (v_X v_large) v_U s0 /\ small wd 1099511627776%R (v_X v_large) v_U s0) /\
  (length v_tiny = n_dec wd /\ shows wd v_s (k_out (ncfg_run wd 1 0 v_h)) v_x0 v_tiny (v_X v_tiny) v_U s0 /\ small wd 1099511627776%R (v_X v_tiny) v_U s0) /\
  (1 <= 1099511627776 <= powerRZ 2 1000)%R.
Proof.
  assert (A : forall z, forallb (fun i => let x := v_X z i 0 in is_double x && Double.is_fin x && sleb x v_b && sleb (sopp v_b) x) (seq 0 3) = true ->
                small wd 1099511627776%R (v_X z) v_U s0).
  { intros z H. refine (conj _ (conj _ _)).
    - intros i j Hi Hj. apply v_okd. cbn in Hi, Hj. replace j with 0 by lia. rewrite forallb_forall in H. apply H. apply in_seq. lia.
    - intros i j Hi Hj. apply v_okd. clear H. cbn in Hi, Hj. assert (Ci : i = 0 \/ i = 1 \/ i = 2) by lia. assert (Cj : j = 0 \/ j = 1) by lia. 
      destruct Ci as [->|[->| ->]], Cj as [->| ->]; vm_compute; reflexivity.
    - apply v_okd. vm_compute. reflexivity. }
  refine (conj _ (conj v_reached (conj v_gm (conj (conj eq_refl (conj v_shows_large (A _ _))) (conj (conj eq_refl (conj v_shows_tiny (A _ _))) _))))).
  - cbn. lia.
  - vm_compute. reflexivity.
  - vm_compute. reflexivity.
  - split; [lra|]. replace 1099511627776%R with (bpow radix2 40) by (simpl; lra). change (powerRZ 2 1000) with (powerRZ (IZR radix2) 1000). rewrite <- bpow_powerRZ. apply bpow_le. lia.
Qed.
(** FINDING: the gradient handed to NLopt is then wrong, not merely inaccurate: for the objective "last predicted state" its derivative with
    respect to that state (which is 1) is returned as 0 *)
Definition last_state (X Y U : rows dbl) (e : dbl) : dbl := nth 0 (nth 2 X []) s0.
Definition v_ops' : list (nop dbl) := v_ops ++ [NSetObjective last_state true].
Definition v_s' : nmpc dbl := match n_life dj wd 1 0 false v_ops' with Ok (s, _) => s | UB => n_init wd end.
Definition v_h' : list (nop dbl * ret dbl) := match n_life dj wd 1 0 false v_ops' with Ok (_, h) => h | UB => [] end.
Lemma v_reached' : nreached dj wd 1 0 false v_s' v_h'.
Proof. exists v_ops'. split; [repeat constructor|]. vm_compute. reflexivity. Qed.
Theorem C74_gradient_nonzero_refuted :
  ~ (forall junk d ni ne dyn_eq (s : nmpc dbl) h x0 z v g, 0 < d_ch d -> d_ch d <= d_ph d -> nreached junk d ni ne dyn_eq s h -> gm x0 (d_nx d) 1 -> length z = n_dec d ->
       (forall k, k < length z -> okd 1099511627776%R (nth k z s0)) ->
       (forall i, i < d_nx d -> k_sx (ncfg_run d ni ne h) i = s1) ->
       k_obj (ncfg_run d ni ne h) = Some (fun X Y U e => nth 0 (nth (d_ph d) X []) s0) ->
       eval_obj junk d s x0 z = Ok (v, g) -> 0 < d_nx d ->
       sltb s0 (nth ((d_ph d - 1) * d_nx d) g s0) = true).
Proof.
  intros H. destruct (eval_obj dj wd v_s' v_x0 v_large) as [[v g]|] eqn:E.
  2:{ apply (f_equal (fun r => match r with Ok _ => true | UB => false end)) in E. vm_compute in E. discriminate E. }
  specialize (H dj wd 1 0 false v_s' v_h' v_x0 v_large v g ltac:(cbn; lia) ltac:(cbn; lia) v_reached' v_gm eq_refl).
  assert (O : forall k, k < length v_large -> okd 1099511627776%R (nth k v_large s0)).
  { intros k Hk. apply v_okd. revert k Hk. assert (T : forallb (fun k => let x := nth k v_large s0 in is_double x && Double.is_fin x && sleb x v_b && sleb (sopp v_b) x) (seq 0 7) = true) by (vm_compute; reflexivity).
    intros k Hk. rewrite forallb_forall in T. apply T. apply in_seq. cbn in Hk. lia. }
  specialize (H O). assert (S : forall i, i < d_nx wd -> k_sx (ncfg_run wd 1 0 v_h') i = s1).
  { intros i Hi. cbn in Hi. replace i with 0 by lia. vm_compute. reflexivity. }
  specialize (H S eq_refl E ltac:(cbn; lia)).
  assert (G : g = match eval_obj dj wd v_s' v_x0 v_large with Ok (_, g) => g | UB => [] end) by now rewrite E.
  rewrite G in H. vm_compute in H. discriminate H.
Qed.
