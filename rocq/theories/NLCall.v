(** What the solver observes, for every reachable controller: values and derivatives of the registered functions, bounds, guess. *)
From Coq Require Import Bool Arith ZArith List Lia Ring Field.
From Verif Require Import Scalar Sums Mat Slice Builder BuilderEnt LMPC NLMap NLTraj NLFun SpecNL NLLoop NLGrad NLEval NLDyn NLSlope NLSlope2 NLAcc NLDynSlope NLMPC SpecLMPC SpecNLC SpecNLP NLRef NLRun.
Import ListNotations.

Section Lst.
  Context {F : Type} {SO : ScalarOps F}.
  Lemma lst_len (V : mat F) : length (lst V) = mrows V. Proof. unfold lst. now rewrite map_length, seq_length. Qed.
  Lemma lst_nth (V : mat F) r : r < mrows V -> nth r (lst V) s0 = ent V r 0.
  Proof.
    intros H. unfold lst. rewrite (nth_indep _ s0 (ent V 0 0)) by (now rewrite map_length, seq_length).
    rewrite (map_nth (fun i => ent V i 0) (seq 0 (mrows V)) 0 r), seq_nth by exact H. reflexivity.
  Qed.
  Lemma elst_len (V : mat (ext F)) : length (elst V) = mrows V. Proof. unfold elst. now rewrite map_length, seq_length. Qed.
  Lemma elst_nth (V : mat (ext F)) r e : r < mrows V -> nth r (elst V) e = ent V r 0.
  Proof.
    intros H. unfold elst. rewrite (nth_indep _ e (ent V 0 0)) by (now rewrite map_length, seq_length).
    rewrite (map_nth (fun i => ent V i 0) (seq 0 (mrows V)) 0 r), seq_nth by exact H. reflexivity.
  Qed.
  Lemma vec_of_gm (z : list F) N : length z = N -> gm (vec_of z) N 1.
  Proof. intros <-. repeat split. Qed.
  Lemma vec_of_ent (z : list F) k : ent (vec_of z) k 0 = dvar z k. Proof. reflexivity. Qed.
End Lst.

Section Call.
  Context {F : Type} {SO : ScalarOps F} {SL : ScalarLaws F}.
  Variable junk : nat -> nat -> F.
  Variable d : dims.
  Variables ni ne : nat.
  Variable dyn_eq : bool.
  Notation nx := (d_nx d). Notation nu := (d_nu d). Notation ny := (d_ny d).
  Notation ph := (d_ph d). Notation ch := (d_ch d).
  Notation N := (n_dec d). Notation NR := (NR d).
  Add Field SFca : s_field.
  Hypothesis C0 : 0 < ch.
  Hypothesis C : ch <= ph.
  Variables (s : nmpc F) (c : ncfg F) (x0 : mat F).
  Hypothesis H : NR s c.
  Hypothesis G0 : gm x0 nx 1.
  Hypothesis Sc : scaled d c.
  Let P : 0 < ph := ph_pos d C0 C.
  Let HM := nr_map d s c H.

  Section Z.
  Variable z : list F.
  Hypothesis Lz : length z = N.
  Let GZ := vec_of_gm z N Lz.
  Let EZ : forall k, k < N -> ent (vec_of z) k 0 = dvar z k := fun k _ => vec_of_ent z k.
  Let Hxi : forall j, j < nx -> (fun j => k_sx c j * vec x0 j)%S j = (k_sx c j * ent x0 j 0)%S := fun j _ => eq_refl.

  Definition obj_full f := obj_evaluate junk d (n_map s) f (k_out c) x0 (vec_of z).
  Definition ieq_full f := ieq_evaluate junk d ni (n_map s) f (k_out c) x0 (vec_of z).
  Definition eqc_full f := eqc_evaluate junk d ne (n_map s) f x0 (vec_of z).
  Definition seq_full f := seq_evaluate junk d (n_map s) f (k_ts c) x0 (vec_of z).

  Lemma obj_ev f : k_obj c = Some f -> exists g,
    eval_obj junk d s x0 z = Ok (cost_of d c x0 f (dvar z), g) /\ length g = N /\
    forall r, r < N -> nth r g s0 = ent (snd (obj_full f)) r 0.
  Proof.
    intros Hf. unfold eval_obj. rewrite (nr_obj d s c H), Hf, (nr_out d s c H).
    pose proof (obj_evaluate_ent junk d (n_map s) _ _ HM P C0 C (vec_of z) x0 _ _ GZ G0 EZ Sc Hxi f (k_out c)) as E.
    unfold obj_full. destruct (obj_evaluate _ _ _ _ _ _ _) as [v g]. destruct E as (-> & (R & K & ->) & _).
    exists (lst g). refine (conj eq_refl (conj _ _)); [now rewrite lst_len|]. intros r Hr. cbn [snd]. apply lst_nth. now rewrite R.
  Qed.
  Lemma ieq_ev f : k_ieq c = Some f -> exists v g,
    eval_con junk d ni ne s x0 KIneq z = Ok (v, g) /\ length v = ni /\ length g = N * ni /\
    (forall k, k < ni -> nth k v s0 = ieq_of d c x0 f k (dvar z)) /\
    forall r, r < N * ni -> nth r g s0 = ent (snd (ieq_full f)) r 0.
  Proof.
    intros Hf. unfold eval_con. rewrite (nr_ieq d s c H), Hf, (nr_out d s c H).
    pose proof (ieq_evaluate_ent junk d ni (n_map s) _ _ HM P C0 C (vec_of z) x0 _ _ GZ G0 EZ Sc Hxi f (k_out c)) as E.
    unfold ieq_full. destruct (ieq_evaluate _ _ _ _ _ _ _ _) as [v g]. destruct E as ((R1 & K1 & ->) & Ev & (R & K & ->) & _).
    exists (lst v), (lst g). cbn [andb snd]. rewrite !lst_len.
    refine (conj eq_refl (conj R1 (conj R (conj _ _)))); intros r Hr; rewrite lst_nth by lia; [apply Ev|reflexivity].
  Qed.
  Lemma eqc_ev f : k_eqc c = Some f -> exists v g,
    eval_con junk d ni ne s x0 KEq z = Ok (v, g) /\ length v = ne /\ length g = N * ne /\
    (forall k, k < ne -> nth k v s0 = eqc_of d c x0 f k (dvar z)) /\
    forall r, r < N * ne -> nth r g s0 = ent (snd (eqc_full f)) r 0.
  Proof.
    intros Hf. unfold eval_con. rewrite (nr_eqc d s c H), Hf.
    pose proof (eqc_evaluate_ent junk d ne (n_map s) _ _ HM P C0 C (vec_of z) x0 _ _ GZ G0 EZ Sc Hxi f) as E.
    unfold eqc_full. destruct (eqc_evaluate _ _ _ _ _ _ _) as [v g]. destruct E as ((R1 & K1 & ->) & Ev & (R & K & ->) & _).
    exists (lst v), (lst g). cbn [andb snd]. rewrite !lst_len.
    refine (conj eq_refl (conj R1 (conj R (conj _ _)))); intros r Hr; rewrite lst_nth by lia; [apply Ev|reflexivity].
  Qed.
  Lemma dyn_ev f : k_dyn c = Some f -> exists v g,
    eval_con junk d ni ne s x0 KDyn z = Ok (v, g) /\ length v = ph * nx /\ length g = N * (ph * nx) /\
    (forall i l, i < ph -> l < nx -> nth (i * nx + l) v s0 = dyn_res d f (k_ts c) (k_sx c) (x_traj d c x0 (dvar z)) (u_traj d c (dvar z)) i l) /\
    forall r, r < N * (ph * nx) -> nth r g s0 = ent (snd (seq_full f)) r 0.
  Proof.
    intros Hf. unfold eval_con. rewrite (nr_dyn d s c H), Hf, (nr_ts d s c H).
    pose proof (seq_evaluate_ent junk d (n_map s) _ _ HM P C0 C (vec_of z) x0 _ _ GZ G0 EZ Sc Hxi f (k_ts c)) as E.
    unfold seq_full. destruct (seq_evaluate _ _ _ _ _ _ _) as [v g]. destruct E as ((R1 & K1 & ->) & Ev & (R & K & ->) & _).
    exists (lst v), (lst g). cbn [andb snd]. rewrite !lst_len.
    refine (conj eq_refl (conj R1 (conj R (conj _ _)))).
    - intros i l Hi Hl. rewrite lst_nth by (rewrite R1; now apply blk_lt). now apply Ev.
    - intros r Hr. rewrite lst_nth by lia. reflexivity.
  Qed.

  (** *** derivatives *)
  Lemma obj_dev f gX gU ge K rho : near_grad d (obj_at d f (k_out c)) (x_traj d c x0 (dvar z)) (u_traj d c (dvar z)) (dvar z (v_slack d)) gX gU ge K rho ->
    let g := snd (obj_full f) in
    (forall i j t, i < ph -> j < nx -> t = (dv_obj * lstep (ph + 1) (x_traj d c x0 (dvar z)) j)%S -> (t <= rho)%S ->
      (sabs (ent g (i * nx + j) 0 - gX (i + 1)%nat j) <= K * t)%S) /\
    (forall b j t, b < ch -> j < nu -> t = (dv_obj * lstep (ph + 1) (u_traj d c (dvar z)) j)%S -> (t <= rho)%S ->
      (sabs (ent g (ph * nx + (b * nu + j)) 0 - k_su c j * ssum (ph + 1) (fun a => if held d a =? b then gU a j else s0)) <=
         sabs (k_su c j) * (snat ph * (K * t)))%S) /\
    (forall t, t = (smax (sdec 1%positive 1000000%positive) (sabs (dvar z (v_slack d))) * dv_obj)%S -> (t <= rho)%S ->
      (sabs (ent g (v_slack d) 0 - ge) <= K * t)%S).
  Proof. exact (obj_acc junk d (n_map s) _ _ _ _ (vec_of z) x0 HM P C0 C GZ G0 EZ Sc Hxi f (k_out c) gX gU ge K rho). Qed.
  Lemma ieq_dev f k gX gU ge r : k < ni ->
    has_grad d (ieq_at d f (k_out c) k) (x_traj d c x0 (dvar z)) (u_traj d c (dvar z)) (dvar z (v_slack d)) gX gU ge -> r < N ->
    slope (fun t => ieq_of d c x0 f k (bump (dvar z) r t))
      (ent (snd (ieq_full f)) (k * N + r) 0 +
       (if ((v_input d (ch - 1) 0 <=? r) && (r <? v_slack d))%nat%bool then k_su c (r - v_input d (ch - 1) 0)%nat * gU ph (r - v_input d (ch - 1) 0)%nat else s0))%S.
  Proof. intros Hk Hg Hr. exact (ieq_grad junk d (n_map s) _ _ _ _ (vec_of z) x0 HM P C0 C GZ G0 EZ Sc Hxi ni f (k_out c) k gX gU ge Hk Hg r Hr). Qed.
  Lemma eqc_dev f k gX gU ge r : k < ne ->
    has_grad d (fun X U _ => eqc_at d f k X U) (x_traj d c x0 (dvar z)) (u_traj d c (dvar z)) (dvar z (v_slack d)) gX gU ge -> r < N ->
    slope (fun t => eqc_of d c x0 f k (bump (dvar z) r t)) (ent (snd (eqc_full f)) (k * N + r) 0).
  Proof. intros Hk Hg Hr. exact (eqc_grad junk d (n_map s) _ _ _ _ (vec_of z) x0 HM P C0 C GZ G0 EZ Sc Hxi ne f k gX gU ge Hk Hg r Hr). Qed.
  Lemma dyn_dev f i l A0 B0 A1 B1 r : i < ph -> l < nx ->
    dyn_grad d f i l (x_traj d c x0 (dvar z) i) (u_traj d c (dvar z) i) A0 B0 ->
    (k_ts c <> None -> dyn_grad d f i l (x_traj d c x0 (dvar z) (S i)) (u_traj d c (dvar z) i) A1 B1) -> r < N ->
    slope (fun t => dyn_res d f (k_ts c) (k_sx c) (x_traj d c x0 (bump (dvar z) r t)) (u_traj d c (bump (dvar z) r t)) i l)
      (ent (snd (seq_full f)) ((i * nx + l) * N + r) 0).
  Proof. intros Hi Hl Ha Hb Hr. exact (seq_grad junk d (n_map s) _ _ _ _ (vec_of z) x0 HM P C0 C GZ G0 EZ Sc Hxi f (k_ts c) i l A0 B0 A1 B1 Hi Hl Ha Hb r Hr). Qed.
  End Z.

  (** *** registered functions *)
  Lemma call_obj u0 ev : nc_obj (n_call junk d ni ne s x0 u0) = Some ev -> k_bobj c = true /\ ev = eval_obj junk d s x0.
  Proof. cbn. rewrite (nr_bobj d s c H). destruct (k_bobj c); [|discriminate]. intros E. inversion E. auto. Qed.
  Lemma call_con u0 k tol ev : In (k, tol, ev) (nc_cons (n_call junk d ni ne s x0 u0)) -> In (k, tol) (k_cons c) /\ ev = eval_con junk d ni ne s x0 k.
  Proof. cbn. rewrite (nr_cons d s c H). intros I. apply in_map_iff in I as ([k' t'] & E & I). inversion E; subst. auto. Qed.
End Call.
