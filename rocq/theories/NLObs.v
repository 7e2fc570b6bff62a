(** Result of an optimization, as the caller observes it, and invariants of configurations. *)
From Coq Require Import Bool Arith ZArith List Lia Ring Field.
From Verif Require Import Scalar Sums Mat Slice Builder BuilderEnt LMPC NLMap NLTraj NLFun SpecNL NLLoop NLGrad NLEval NLMPC SpecLMPC SpecNLC SpecNLP NLRef NLRun NLCall.
Import ListNotations.

Section Feas.
  Context {F : Type} {SO : ScalarOps F} {SL : ScalarLaws F}.
  Lemma sltb_false (a b : F) : sltb a b = false <-> (b <= a)%S.
  Proof. rewrite s_lt_le. unfold sle. destruct (sleb b a); cbn; split; congruence. Qed.
  Lemma max_coeff_le (l : list F) : forall v t, (max_coeff v l <= t)%S <-> (v <= t)%S /\ forall a, In a l -> (a <= t)%S.
  Proof.
    induction l as [|a l IH]; intros v t; cbn [max_coeff fold_left].
    - split; [intros H; split; [exact H|intros ? []]|tauto].
    - change (fold_left _ l ?w) with (max_coeff w l). rewrite IH. destruct (sltb v a) eqn:E.
      + split; intros [H1 H2].
        * split; [|intros b [<-|I]; auto]. unfold sle in *. rewrite s_lt_le in E. apply negb_true_iff in E.
          destruct (s_le_total v a) as [K|K]; [|unfold sle in K; congruence]. eapply s_le_trans; eassumption.
        * split; [apply H2; now left|intros b I; apply H2; now right].
      + apply sltb_false in E. split; intros [H1 H2].
        * split; [exact H1|]. intros b [<-|I]; auto. eapply s_le_trans; eassumption.
        * split; [exact H1|]. intros b I. apply H2. now right.
  Qed.
  Lemma in_lst (V : mat F) a n : mrows V = n -> In a (lst V) <-> exists k, k < n /\ a = ent V k 0.
  Proof.
    intros <-. unfold lst. rewrite in_map_iff. split.
    - intros (k & <- & I). rewrite in_seq in I. exists k. split; [lia|reflexivity].
    - intros (k & I & ->). exists k. split; [reflexivity|]. rewrite in_seq. lia.
  Qed.
  Lemma any_gt_false (l : list F) t : any_gt (map Some l) t = false <-> forall a, In a l -> (a <= t)%S.
  Proof.
    unfold any_gt. induction l as [|a l IH]; cbn; [split; [intros _ ? []|reflexivity]|].
    rewrite orb_false_iff, IH, sltb_false. split; [intros [H1 H2] b [<-|I]; auto|intros H; split; auto].
  Qed.
  Lemma eq_violated_false (l : list F) t : l <> [] -> eq_violated l t = false <-> forall a, In a l -> (sabs a <= t)%S.
  Proof.
    unfold eq_violated. destruct l as [|a l]; [congruence|]. intros _. cbn [map]. rewrite sltb_false, max_coeff_le. split.
    - intros [H1 H2] b [<-|I]; [exact H1|]. apply H2, in_map_iff. eauto.
    - intros H. split; [apply H; now left|]. intros b I. apply in_map_iff in I as (b' & <- & I). apply H. now right.
  Qed.
End Feas.

Section Obs.
  Context {F : Type} {SO : ScalarOps F} {SL : ScalarLaws F}.
  Variable junk : nat -> nat -> F.
  Variable d : dims.
  Variables ni ne : nat.
  Variable dyn_eq : bool.
  Notation nx := (d_nx d). Notation nu := (d_nu d). Notation ny := (d_ny d).
  Notation ph := (d_ph d). Notation ch := (d_ch d).
  Notation N := (n_dec d). Notation NR := (NR d).
  Add Field SFob : s_field.
  Hypothesis C0 : 0 < ch.
  Hypothesis C : ch <= ph.

  (** user constraints met at [z] within their tolerances *)
  Definition user_feasible (c : ncfg F) (x0 : mat F) (z : nat -> F) : Prop :=
    (forall f, k_ieq c = Some f -> forall k, k < ni -> (ieq_of d c x0 f k z <= k_itol c)%S) /\
    (forall f, k_eqc c = Some f -> forall k, k < ne -> (sabs (eqc_of d c x0 f k z) <= k_etol c)%S).

  Lemma has_eq_ne s c x0 u0 z code cost s' : NR s c -> n_run junk d ni ne s x0 u0 (NSolved z code cost) = Ok s' -> has_eq s = true -> 0 < ne.
  Proof.
    intros H R E. unfold n_run in R. destruct (negb _); [discriminate|]. rewrite E in R. cbn [andb] in R. destruct (Nat.eqb_spec ne 0); [discriminate|lia].
  Qed.
  Lemma run_ok s x0 u0 a s' r : n_step junk d ni ne dyn_eq s (NOptimize x0 u0 a) = Ok (s', r) -> n_run junk d ni ne s x0 u0 a = Ok s' /\ r = RResult (n_res s').
  Proof. cbn. destruct (n_run _ _ _ _ _ _ _ _) as [s1|] eqn:E; [|discriminate]. intros E'. inversion E'; subst. auto. Qed.

  Lemma solved_obs s c x0 u0 z code cost s' r : NR s c -> gm x0 nx 1 -> scaled d c ->
    n_step junk d ni ne dyn_eq s (NOptimize x0 u0 (NSolved z code cost)) = Ok (s', r) ->
    exists res, r = RResult res /\ n_res s' = res /\
    rep (q_state (n_seq s')) (ph + 1) nx (x_traj d c x0 z) /\
    rep (q_output (n_seq s')) (ph + 1) ny (y_traj d c x0 z) /\
    rep (q_input (n_seq s')) (ph + 1) nu (u_traj d c z) /\
    gm (r_cmd res) nu 1 /\ (forall j, j < nu -> ent (r_cmd res) j 0 = u_traj d c z 0 j) /\
    r_code res = code /\ r_cost res = cost /\ r_status res = n_status code /\
    (r_feasible res = true <-> user_feasible c x0 z).
  Proof.
    intros H G0 Sc E. apply run_ok in E as [R ->]. exists (n_res s'). refine (conj eq_refl (conj eq_refl _)).
    pose proof (has_eq_ne s c x0 u0 z code cost s' H R) as He.
    rewrite (run_solved junk d ni ne C0 C s c x0 u0 z code cost H G0 He) in R. inversion R; subst s'; clear R.
    pose proof (nr_map d s c H) as HM. assert (GO : gm (mvec N z) N 1) by (repeat split).
    assert (EZ : forall k, k < N -> ent (mvec N z) k 0 = z k) by reflexivity.
    pose proof (traj_X d (n_map s) _ _ HM (ph_pos d C0 C) C0 C (mvec N z) x0 z (fun j => (k_sx c j * vec x0 j)%S) GO G0 EZ Sc (fun _ _ => eq_refl)) as TX.
    pose proof (traj_U d (n_map s) _ _ HM (ph_pos d C0 C) C0 C (mvec N z) z GO EZ) as TU.
    pose proof (traj_e d (ph_pos d C0 C) C0 C (mvec N z) z GO EZ) as Te.
    change (st_traj d (k_sx c) _ z) with (x_traj d c x0 z) in TX. change (in_traj d (k_su c) z) with (u_traj d c z) in TU.
    pose proof (get_output_rep d (n_out s) _ _ _ _ TX TU) as TY. rewrite (nr_out d s c H) in TY at 2. change (out_traj d (k_out c) _ _) with (y_traj d c x0 z) in TY.
    assert (BR : forall (M : mat F) n X, rep M (ph + 1) n X -> rep (block M 0 0 (ph + 1) n) (ph + 1) n X).
    { intros M n X [G E]. split; [now apply block_all|]. intros i j Hi Hj. cbn [block ent]. cbn [Nat.add]. auto. }
    cbn -[mtrans mrow block unwrap_e unwrap_X unwrap_U get_output is_feasible mvec n_dec]. refine (conj _ (conj _ (conj _ (conj _ (conj _ (conj eq_refl (conj eq_refl (conj eq_refl _)))))))).
    - now apply BR.
    - now apply BR.
    - now apply BR.
    - apply (rep_trow _ (ph + 1) nu _ 0 TU). lia.
    - intros j Hj. cbn [mtrans mrow block ent]. cbn [Nat.add]. apply TU; lia.
    - unfold is_feasible. rewrite Te, (nr_ieq d s c H), (nr_eqc d s c H), (nr_itol d s c H), (nr_etol d s c H).
      unfold user_feasible. rewrite andb_true_iff.
      assert (He' : k_eqc c <> None -> 0 < ne). { intros K. apply He. unfold has_eq. rewrite (nr_eqc d s c H). destruct (k_eqc c); congruence. }
      assert (A : match k_ieq c with Some f => negb (any_gt (map Some (lst (ieq_call d ni f (n_out s) (unwrap_X d (n_map s) (mvec N z) x0) (unwrap_U d (n_map s) (mvec N z)) (z (v_slack d))))) (k_itol c)) | None => true end = true <->
              (forall f, k_ieq c = Some f -> forall k, k < ni -> (ieq_of d c x0 f k z <= k_itol c)%S)).
      { destruct (k_ieq c) as [f|]; [|split; [intros _ f E; discriminate|reflexivity]]. rewrite negb_true_iff, any_gt_false. rewrite (nr_out d s c H).
        assert (EV : forall k, ent (ieq_call d ni f (k_out c) (unwrap_X d (n_map s) (mvec N z) x0) (unwrap_U d (n_map s) (mvec N z)) (z (v_slack d))) k 0 = ieq_of d c x0 f k z)
          by (intros k; apply (ieq_call_at d ni f (k_out c) _ _ _ _ _ k TX TU)).
        split.
        - intros A f' E k Hk. inversion E; subst f'. rewrite <- EV. apply A. eapply (in_lst _ _ ni); [reflexivity|eauto].
        - intros A a I. eapply (in_lst _ _ ni) in I as (k & Hk & ->); [|reflexivity]. rewrite EV. eauto. }
      assert (B : match k_eqc c with Some f => negb (eq_violated (lst (eqc_call ne f (unwrap_X d (n_map s) (mvec N z) x0) (unwrap_U d (n_map s) (mvec N z)))) (k_etol c)) | None => true end = true <->
              (forall f, k_eqc c = Some f -> forall k, k < ne -> (sabs (eqc_of d c x0 f k z) <= k_etol c)%S)).
      { destruct (k_eqc c) as [f|]; [|split; [intros _ f E; discriminate|reflexivity]]. specialize (He' ltac:(congruence)).
        assert (EV : forall k, ent (eqc_call ne f (unwrap_X d (n_map s) (mvec N z) x0) (unwrap_U d (n_map s) (mvec N z))) k 0 = eqc_of d c x0 f k z)
          by (intros k; apply (eqc_call_at d ne f _ _ _ _ k TX TU)).
        rewrite negb_true_iff, eq_violated_false.
        2:{ intros K. apply (f_equal (@length _)) in K. rewrite lst_len in K. cbn in K. lia. }
        split.
        - intros A' f' E k Hk. inversion E; subst f'. rewrite <- EV. apply A'. eapply (in_lst _ _ ne); [reflexivity|eauto].
        - intros A' a I. eapply (in_lst _ _ ne) in I as (k & Hk & ->); [|reflexivity]. rewrite EV. eauto. }
      tauto.
  Qed.
  Lemma thrown_obs s c x0 u0 s' r : NR s c ->
    n_step junk d ni ne dyn_eq s (NOptimize x0 u0 NThrow) = Ok (s', r) ->
    exists res, r = RResult res /\ n_res s' = res /\ r_cmd res = r_cmd (n_res s) /\ r_code res = (-1)%Z /\ r_cost res = PInf /\ r_status res = ERROR /\ r_feasible res = false /\
    n_seq s' = mkSeq (mzero (ph + 1) nx) (mzero (ph + 1) ny) (mzero (ph + 1) nu).
  Proof.
    intros H E. apply run_ok in E as [R ->]. exists (n_res s'). rewrite (run_throw junk d ni ne C0 C s c x0 u0 H) in R. inversion R; subst s'. cbn. auto 10.
  Qed.

  (** *** invariants of configurations *)
  Definition cfg_inv (c : ncfg F) : Prop :=
    (k_bobj c = true -> k_obj c <> None) /\
    (forall t, In (KDyn, t) (k_cons c) -> k_dyn c <> None /\ length t = ph * nx) /\
    (forall t, In (KIneq, t) (k_cons c) -> k_ieq c <> None /\ length t = ni) /\
    (forall t, In (KEq, t) (k_cons c) -> k_eqc c <> None /\ length t = ne).
  Lemma cfg_inv_step c e : cfg_inv c -> cfg_inv (ncfg_step d ni ne c e).
  Proof.
    assert (A : forall (c : ncfg F) op, cfg_inv c -> cfg_inv (ncfg_apply d ni ne op c)).
    { intros c' op I. destruct I as (I1 & I2 & I3 & I4).
      destruct op; try (exact (conj I1 (conj I2 (conj I3 I4)))); cbn [ncfg_apply].
      - destruct p; exact (conj I1 (conj I2 (conj I3 I4))).
      - refine (conj _ (conj I2 (conj I3 I4))). cbn. congruence.
      - destruct acc; cbn; refine (conj I1 (conj _ (conj _ _))); cbn.
        + intros t I. rewrite in_app_iff in I. destruct I as [I|[E|[]]]; [destruct (I2 t I); split; [congruence|assumption]|]. inversion E. rewrite repeat_length. split; [congruence|reflexivity].
        + intros t I. rewrite in_app_iff in I. destruct I as [I|[E|[]]]; [auto|inversion E].
        + intros t I. rewrite in_app_iff in I. destruct I as [I|[E|[]]]; [auto|inversion E].
        + intros t I. destruct (I2 t I); split; [congruence|assumption].
        + exact I3.
        + exact I4.
      - destruct acc; cbn; refine (conj I1 (conj _ (conj _ _))); cbn.
        + intros t I. rewrite in_app_iff in I. destruct I as [I|[E|[]]]; [auto|inversion E].
        + intros t I. rewrite in_app_iff in I. destruct I as [I|[E|[]]]; [destruct (I3 t I); split; [congruence|assumption]|]. inversion E. rewrite repeat_length. split; [congruence|reflexivity].
        + intros t I. rewrite in_app_iff in I. destruct I as [I|[E|[]]]; [auto|inversion E].
        + exact I2.
        + intros t I. destruct (I3 t I); split; [congruence|assumption].
        + exact I4.
      - destruct acc; cbn; refine (conj I1 (conj _ (conj _ _))); cbn.
        + intros t I. rewrite in_app_iff in I. destruct I as [I|[E|[]]]; [auto|inversion E].
        + intros t I. rewrite in_app_iff in I. destruct I as [I|[E|[]]]; [auto|inversion E].
        + intros t I. rewrite in_app_iff in I. destruct I as [I|[E|[]]]; [destruct (I4 t I); split; [congruence|assumption]|]. inversion E. rewrite repeat_length. split; [congruence|reflexivity].
        + exact I2.
        + exact I3.
        + intros t I. destruct (I4 t I); split; [congruence|assumption].
      - destruct a; exact (conj I1 (conj I2 (conj I3 I4))). }
    intros I. destruct e as [op r]. unfold ncfg_step. destruct op; try (now apply A); destruct r as [[]| | |]; try (now apply A); exact I.
  Qed.
  Lemma cfg_inv_run h : cfg_inv (ncfg_run d ni ne h).
  Proof.
    unfold ncfg_run. assert (I0 : cfg_inv (ncfg0 : ncfg F)) by (repeat split; cbn; try discriminate; contradiction).
    revert I0. generalize (ncfg0 : ncfg F). induction h as [|e h IH]; intros c I; cbn [fold_left]; [exact I|]. apply IH. now apply cfg_inv_step.
  Qed.
End Obs.
