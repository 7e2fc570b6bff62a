(** C69: where, and how often, the user's functions are evaluated. *)
From Coq Require Import Bool Arith ZArith Lia Ring Field QArith Qcanon List.
From Verif Require Import Scalar Sums Mat Slice Builder BuilderEnt LMPC NLMap NLTraj NLFun SpecNL NLLoop NLGrad NLEval NLDyn NLMPC SpecLMPC SpecNLC SpecNLP NLSlope NLSlope2 NLAcc NLRef NLRun NLCall NLTrace SpecTrace NLTraceEnt NLTraceSame PropNL1 Wit WitNL.
Import ListNotations.
Local Open Scope nat_scope.

(** the numbers the statements about derivatives are about (Objective.hpp:192, Constraints.hpp:931: the steps 1e-6 and sqrt of the machine epsilon 2^-52), and the
    magnitude that multiplies them: that of the entry with linear index j, at least 1 *)
Theorem C69_probe_sizes {F : Type} {SO : ScalarOps F} :
  dv_obj = sdec 1%positive 1000000%positive /\ dv_con = sdec 1%positive 67108864%positive /\ forall n (X : nat -> nat -> F) j, lstep n X j = smax (sabs (X (j mod n) (j / n))) s1.
Proof. repeat split. Qed.

Section P.
  Context {F : Type} {SO : ScalarOps F} {SL : ScalarLaws F}.
  Variable junk : nat -> nat -> F.
  Variable d : dims.
  Variables ni ne : nat.
  Variable dyn_eq : bool.
  Notation nx := (d_nx d). Notation nu := (d_nu d). Notation ny := (d_ny d).
  Notation ph := (d_ph d). Notation ch := (d_ch d).
  Notation reached := (nreached junk d ni ne dyn_eq).
  Local Notation cf h := (ncfg_run d ni ne h).
  Add Field SFpt : s_field.

  (** *** the calls, in order *)
  Theorem C69_objective_calls s h x0 z hg :
    0 < ch -> ch <= ph -> reached s h -> gm x0 nx 1 -> scaled d (cf h) -> length z = n_dec d ->
    let X := x_traj d (cf h) x0 (dvar z) in let U := u_traj d (cf h) (dvar z) in let e := dvar z (v_slack d) in
    eval_obj_calls d hg s x0 z = flat_map (obj_shown d (k_out (cf h))) (if hg then obj_points d X U e else [(X, U, e)]).
  Proof.
    intros C0 C Hr G Sc Lz. pose proof (nreached_NR junk d ni ne dyn_eq C0 C s h Hr) as H. unfold eval_obj_calls. rewrite (nr_out d s _ H).
    exact (obj_calls_at d (n_map s) _ _ (nr_map d s _ H) (ph_pos d C0 C) C0 C (vec_of z) x0 (dvar z) _ (vec_of_gm z _ Lz) G (fun k _ => vec_of_ent z k) Sc (fun j _ => eq_refl) hg _).
  Qed.
  Theorem C69_inequality_calls s h x0 z hg :
    0 < ch -> ch <= ph -> reached s h -> gm x0 nx 1 -> scaled d (cf h) -> length z = n_dec d ->
    let X := x_traj d (cf h) x0 (dvar z) in let U := u_traj d (cf h) (dvar z) in let e := dvar z (v_slack d) in
    eval_con_calls d hg s x0 KIneq z = flat_map (ieq_shown d (k_out (cf h))) (ieq_points d X U e).
  Proof.
    intros C0 C Hr G Sc Lz. pose proof (nreached_NR junk d ni ne dyn_eq C0 C s h Hr) as H. unfold eval_con_calls. rewrite (nr_out d s _ H).
    exact (ieq_calls_at d (n_map s) _ _ (nr_map d s _ H) (ph_pos d C0 C) C0 C (vec_of z) x0 (dvar z) _ (vec_of_gm z _ Lz) G (fun k _ => vec_of_ent z k) Sc (fun j _ => eq_refl) _).
  Qed.
  Theorem C69_equality_calls s h x0 z hg :
    0 < ch -> ch <= ph -> reached s h -> gm x0 nx 1 -> scaled d (cf h) -> length z = n_dec d ->
    let X := x_traj d (cf h) x0 (dvar z) in let U := u_traj d (cf h) (dvar z) in
    eval_con_calls d hg s x0 KEq z = flat_map (eqc_shown d) (eqc_points d X U).
  Proof.
    intros C0 C Hr G Sc Lz. pose proof (nreached_NR junk d ni ne dyn_eq C0 C s h Hr) as H. unfold eval_con_calls.
    exact (eqc_calls_at d (n_map s) _ _ (nr_map d s _ H) (ph_pos d C0 C) C0 C (vec_of z) x0 (dvar z) _ (vec_of_gm z _ Lz) G (fun k _ => vec_of_ent z k) Sc (fun j _ => eq_refl)).
  Qed.
  Theorem C69_dynamics_calls s h x0 z hg :
    0 < ch -> ch <= ph -> reached s h -> gm x0 nx 1 -> scaled d (cf h) -> length z = n_dec d ->
    let X := x_traj d (cf h) x0 (dvar z) in let U := u_traj d (cf h) (dvar z) in
    eval_con_calls d hg s x0 KDyn z =
      flat_map (fun p => flat_map (dyn_shown d p) (dyn_points d hg (match k_ts (cf h) with Some _ => true | None => false end) X U p)) (seq 0 ph).
  Proof.
    intros C0 C Hr G Sc Lz. pose proof (nreached_NR junk d ni ne dyn_eq C0 C s h Hr) as H. unfold eval_con_calls. rewrite (nr_ts d s _ H).
    exact (dyn_calls_at d (n_map s) _ _ (nr_map d s _ H) (ph_pos d C0 C) C0 C (vec_of z) x0 (dvar z) _ (vec_of_gm z _ Lz) G (fun k _ => vec_of_ent z k) Sc (fun j _ => eq_refl) hg _).
  Qed.

  (** *** how many *)
  Lemma n_app (q : ucall F -> bool) a b : length (filter q (a ++ b)) = length (filter q a) + length (filter q b).
  Proof. now rewrite filter_app, app_length. Qed.
  Lemma n_flat {T} (q : ucall F -> bool) (f : T -> list (ucall F)) l k : (forall a, In a l -> length (filter q (f a)) = k) -> length (filter q (flat_map f l)) = length l * k.
  Proof.
    induction l as [|a l IH]; intros H; [reflexivity|]. cbn [flat_map length]. rewrite n_app, IH by (intros; apply H; now right).
    rewrite (H a) by now left. lia.
  Qed.
  Lemma len_flat {T V} (f : T -> list V) l k : (forall a, In a l -> length (f a) = k) -> length (flat_map f l) = length l * k.
  Proof.
    induction l as [|a l IH]; intros H; [reflexivity|]. cbn [flat_map length]. rewrite app_length, IH by (intros; apply H; now right).
    rewrite (H a) by now left. lia.
  Qed.
  Lemma len_each {T} n m (f : nat -> nat -> list T) k : (forall i j, length (f i j) = k) -> length (each n m f) = n * m * k.
  Proof.
    intros H. unfold each. rewrite (len_flat _ _ (m * k)); [rewrite seq_length; lia|]. intros i _. rewrite (len_flat _ _ k); [now rewrite seq_length|]. auto.
  Qed.
  Lemma outs_count (og : option (out_t F)) X U : length (filter is_out (outs d og X U)) = (match og with None => 0 | Some _ => ph + 1 end) /\
    length (filter (fun c => negb (is_out c)) (outs d og X U)) = 0.
  Proof.
    unfold outs. destruct og as [g|]; [|split; reflexivity]. generalize (ph + 1) as n. intros n.
    assert (Q : forall l, length (filter is_out (map (fun i => UOut (traj_row nx X i) (traj_row nu U i) i) l)) = length l /\
      length (filter (fun c => negb (is_out c)) (map (fun i => UOut (traj_row nx X i) (traj_row nu U i) i) l)) = 0).
    { induction l as [|i l IH]; [split; reflexivity|]. cbn. lia. }
    rewrite <- (seq_length n 0) at 2. apply Q.
  Qed.
  Lemma mul_pred p n : 0 < p -> (p - 1) * n + n = p * n.
  Proof. destruct p; [lia|]. intros _. cbn [Nat.mul]. rewrite Nat.sub_0_r || idtac. cbn. rewrite Nat.sub_0_r. lia. Qed.
  Lemma obj_points_len (X U : nat -> nat -> F) e : 0 < ph -> length (obj_points d X U e) = 1 + ph * nx + ph * nu + 2.
  Proof.
    intros P. unfold obj_points. cbn zeta. rewrite !app_length. rewrite (len_each ph nx _ 1), (len_each (ph - 1) nu _ 1), (len_flat _ _ 1) by reflexivity.
    rewrite seq_length. cbn [length]. pose proof (mul_pred ph nu P). lia.
  Qed.
  Lemma ieq_points_len (X U : nat -> nat -> F) e : length (ieq_points d X U e) = 1 + 2 * (ph * nx) + 2 * (ph * nu) + 2.
  Proof. unfold ieq_points. cbn zeta. rewrite !app_length. rewrite !(len_each _ _ _ 2) by reflexivity. cbn [length]. lia. Qed.
  Lemma eqc_points_len (X U : nat -> nat -> F) : 0 < ph -> length (eqc_points d X U) = 1 + 2 * (ph * nx) + 2 * (ph * nu).
  Proof.
    intros P. unfold eqc_points. cbn zeta. rewrite !app_length. rewrite !(len_each _ _ _ 2), (len_flat _ _ 2) by reflexivity. rewrite seq_length. cbn [length].
    pose proof (mul_pred ph nu P). lia.
  Qed.
  Lemma dyn_around_len (x u : nat -> F) : length (dyn_around d x u) = 2 * (nx + nu).
  Proof. unfold dyn_around. rewrite app_length, !(len_flat _ _ 2), !seq_length by reflexivity. lia. Qed.
  (** one evaluation of the objective costs 3 + ph(nx + nu) calls with gradient, one of the inequalities 3 + 2ph(nx + nu), one of the equalities
      1 + 2ph(nx + nu) (whether or not the gradient was requested); each objective or inequality call goes with ph + 1 output calls *)
  Theorem C69_evaluation_counts s h x0 z :
    0 < ch -> ch <= ph -> reached s h -> gm x0 nx 1 -> scaled d (cf h) -> length z = n_dec d ->
    let outs_each := match k_out (cf h) with None => 0 | Some _ => ph + 1 end in
    let ends := match k_ts (cf h) with Some _ => 2 | None => 1 end in
    (n_mains (eval_obj_calls d true s x0 z) = 3 + ph * (nx + nu) /\ n_outs (eval_obj_calls d true s x0 z) = (3 + ph * (nx + nu)) * outs_each) /\
    (n_mains (eval_obj_calls d false s x0 z) = 1 /\ n_outs (eval_obj_calls d false s x0 z) = outs_each) /\
    (forall hg, n_mains (eval_con_calls d hg s x0 KIneq z) = 3 + 2 * ph * (nx + nu) /\ n_outs (eval_con_calls d hg s x0 KIneq z) = (3 + 2 * ph * (nx + nu)) * outs_each) /\
    (forall hg, n_mains (eval_con_calls d hg s x0 KEq z) = 1 + 2 * ph * (nx + nu) /\ n_outs (eval_con_calls d hg s x0 KEq z) = 0) /\
    (forall hg, n_mains (eval_con_calls d hg s x0 KDyn z) = ph * (ends * (1 + if hg then 2 * (nx + nu) else 0)) /\ n_outs (eval_con_calls d hg s x0 KDyn z) = 0).
  Proof.
    intros C0 C Hr G Sc Lz. pose proof (ph_pos d C0 C) as P. cbn zeta.
    assert (Qo : forall og l, n_mains (flat_map (obj_shown d og) l) = length l /\ n_outs (flat_map (obj_shown d og) l) = length l * (match og with None => 0 | Some _ => ph + 1 end)).
    { intros og l. unfold n_mains, n_outs. split; [rewrite (n_flat _ _ _ 1); [lia|]|apply n_flat]; intros [[X U] e] _; cbn [obj_shown]; rewrite n_app;
        destruct (outs_count og X U) as [A B]; rewrite ?A, ?B; cbn; lia. }
    assert (Qi : forall og l, n_mains (flat_map (ieq_shown d og) l) = length l /\ n_outs (flat_map (ieq_shown d og) l) = length l * (match og with None => 0 | Some _ => ph + 1 end)).
    { intros og l. unfold n_mains, n_outs. split; [rewrite (n_flat _ _ _ 1); [lia|]|apply n_flat]; intros [[X U] e] _; cbn [ieq_shown]; rewrite n_app;
        destruct (outs_count og X U) as [A B]; rewrite ?A, ?B; cbn; lia. }
    assert (Qe : forall l, n_mains (flat_map (eqc_shown d) l) = length l /\ n_outs (flat_map (eqc_shown (F:=F) d) l) = 0).
    { intros l. unfold n_mains, n_outs. split; [rewrite (n_flat _ _ _ 1); [lia|]|rewrite (n_flat _ _ _ 0); [lia|]]; intros [X U] _; reflexivity. }
    assert (Qd : forall p l, n_mains (flat_map (dyn_shown d p) l) = length l /\ n_outs (flat_map (dyn_shown (F:=F) d p) l) = 0).
    { intros p l. unfold n_mains, n_outs. split; [rewrite (n_flat _ _ _ 1); [lia|]|rewrite (n_flat _ _ _ 0); [lia|]]; intros [X U] _; reflexivity. }
    refine (conj _ (conj _ (conj _ (conj _ _)))).
    - rewrite (C69_objective_calls s h x0 z true C0 C Hr G Sc Lz). cbn zeta. 
      match goal with |- context [obj_points d ?a ?b ?c] => pose proof (obj_points_len a b c P) as L; destruct (Qo (k_out (cf h)) (obj_points d a b c)) as [-> ->]; rewrite L end. 
      rewrite Nat.mul_add_distr_l. split; [lia|f_equal; lia].
    - rewrite (C69_objective_calls s h x0 z false C0 C Hr G Sc Lz). cbn zeta.
      match goal with |- context [flat_map (obj_shown _ ?o) ?l] => destruct (Qo o l) as [-> ->] end. cbn [length]. lia.
    - intros hg. rewrite (C69_inequality_calls s h x0 z hg C0 C Hr G Sc Lz). cbn zeta.
      match goal with |- context [ieq_points d ?a ?b ?c] => pose proof (ieq_points_len a b c) as L; destruct (Qi (k_out (cf h)) (ieq_points d a b c)) as [-> ->]; rewrite L end.
      rewrite Nat.mul_add_distr_l. split; [lia|f_equal; lia].
    - intros hg. rewrite (C69_equality_calls s h x0 z hg C0 C Hr G Sc Lz). cbn zeta.
      match goal with |- context [eqc_points d ?a ?b] => pose proof (eqc_points_len a b P) as L; destruct (Qe (eqc_points d a b)) as [-> ->]; rewrite L end.
      rewrite Nat.mul_add_distr_l. split; lia.
    - intros hg. rewrite (C69_dynamics_calls s h x0 z hg C0 C Hr G Sc Lz). cbn zeta. unfold n_mains, n_outs. split.
      + rewrite (n_flat _ _ _ ((match k_ts (cf h) with Some _ => 2 | None => 1 end) * (1 + if hg then 2 * (nx + nu) else 0))); [now rewrite seq_length|].
        intros p _. match goal with |- context [flat_map (dyn_shown d p) ?l] => destruct (Qd p l) as [E _] end. unfold n_mains in E. rewrite E.
        unfold dyn_points. rewrite !app_length. destruct hg, (k_ts (cf h)); cbn [andb length]; rewrite ?dyn_around_len; lia.
      + rewrite (n_flat _ _ _ 0); [lia|]. intros p _. match goal with |- context [flat_map (dyn_shown d p) ?l] => destruct (Qd p l) as [_ E] end. exact E.
  Qed.

  (** *** what does not move *)
  (** objective, inequality and equality functions always see the tables of the right size, and the scaled measured state in row 0 of the states *)
  Definition shapes (c : ucall F) : Prop :=
    match c with
    | UObj X Y U _ | UIeq X Y U _ => length X = ph + 1 /\ length Y = ph + 1 /\ length U = ph + 1 /\
        Forall (fun r => length r = nx) X /\ Forall (fun r => length r = ny) Y /\ Forall (fun r => length r = nu) U
    | UEqc X U => length X = ph + 1 /\ length U = ph + 1 /\ Forall (fun r => length r = nx) X /\ Forall (fun r => length r = nu) U
    | UDyn x u p => length x = nx /\ length u = nu /\ p < ph
    | UOut x u i => length x = nx /\ length u = nu /\ i <= ph
    end.
  Definition row0 (r : list F) (c : ucall F) : Prop :=
    match c with UObj X _ _ _ | UIeq X _ _ _ | UEqc X _ => nth 0 X [] = r | UOut x _ i => i = 0 -> x = r | UDyn _ _ _ => True end.
  Lemma tab_len n m (X : nat -> nat -> F) : length (tab n m X) = n /\ Forall (fun r => length r = m) (tab n m X).
  Proof.
    unfold tab. split; [now rewrite map_length, seq_length|]. apply Forall_forall. intros r Hr. apply in_map_iff in Hr as (i & <- & _). now rewrite map_length, seq_length.
  Qed.
  Lemma tab_row0 n m (X : nat -> nat -> F) : nth 0 (tab (n + 1) m X) [] = map (X 0) (seq 0 m).
  Proof. unfold tab. rewrite Nat.add_comm. reflexivity. Qed.
  Lemma outs_ok og (X U : nat -> nat -> F) c : In c (outs d og X U) -> shapes c /\ row0 (map (X 0) (seq 0 nx)) c.
  Proof.
    unfold outs. destruct og; [|intros []]. intros I. apply in_map_iff in I as (i & <- & I). apply in_seq in I. cbn [shapes row0]. unfold traj_row.
    rewrite !map_length, !seq_length. refine (conj (conj eq_refl (conj eq_refl _)) _); [lia|]. now intros ->.
  Qed.
  Lemma obj_shown_ok og (p : (nat -> nat -> F) * (nat -> nat -> F) * F) c : In c (obj_shown d og p) -> shapes c /\ row0 (map (fst (fst p) 0) (seq 0 nx)) c.
  Proof.
    destruct p as [[X U] e]. cbn [obj_shown fst]. intros I. apply in_app_or in I as [I|[<-|[]]]; [exact (outs_ok og X U c I)|]. cbn [shapes row0]. rewrite tab_row0. split; [|reflexivity].
    destruct (tab_len (ph + 1) nx X), (tab_len (ph + 1) ny (out_traj d og X U)), (tab_len (ph + 1) nu U). auto 10.
  Qed.
  Lemma ieq_shown_ok og (p : (nat -> nat -> F) * (nat -> nat -> F) * F) c : In c (ieq_shown d og p) -> shapes c /\ row0 (map (fst (fst p) 0) (seq 0 nx)) c.
  Proof.
    destruct p as [[X U] e]. cbn [ieq_shown fst]. intros I. apply in_app_or in I as [I|[<-|[]]]; [exact (outs_ok og X U c I)|]. cbn [shapes row0]. rewrite tab_row0. split; [|reflexivity].
    destruct (tab_len (ph + 1) nx X), (tab_len (ph + 1) ny (out_traj d og X U)), (tab_len (ph + 1) nu U). auto 10.
  Qed.
  Lemma eqc_shown_ok (p : (nat -> nat -> F) * (nat -> nat -> F)) c : In c (eqc_shown d p) -> shapes c /\ row0 (map (fst p 0) (seq 0 nx)) c.
  Proof.
    destruct p as [X U]. cbn [eqc_shown fst]. intros [<-|[]]. cbn [shapes row0]. rewrite tab_row0. split; [|reflexivity].
    destruct (tab_len (ph + 1) nx X), (tab_len (ph + 1) nu U). auto 10.
  Qed.
  (** every point of the three lists *)
  Lemma in_each {T} n m (f : nat -> nat -> list T) p : In p (each n m f) <-> exists i j, i < n /\ j < m /\ In p (f i j).
  Proof.
    unfold each. rewrite in_flat_map. split.
    - intros (i & Hi & H). apply in_flat_map in H as (j & Hj & H). apply in_seq in Hi, Hj. exists i, j. repeat split; [lia|lia|exact H].
    - intros (i & j & Hi & Hj & H). exists i. split; [apply in_seq; lia|]. apply in_flat_map. exists j. split; [apply in_seq; lia|exact H].
  Qed.
  (** [near r X X']: the tables differ by at most r in every entry *)
  Definition near (r : F) (X X' : nat -> nat -> F) : Prop := forall i j, (sabs (X' i j - X i j) <= r)%S.
  Definition bounded (n m : nat) (X : nat -> nat -> F) (B : F) : Prop := forall i j, i < n -> j < m -> (mag (X i j) <= B)%S.
  Lemma sabs_0 : sabs (s0 : F) = s0. Proof. apply sabs_pos, s_le_refl. Qed.
  Lemma add_self_0 (a t : F) : (a + t)%S = a -> t = s0. Proof. intros E. transitivity (a + t - a)%S; [ring|]. rewrite E. ring. Qed.
  Lemma near_refl r (X : nat -> nat -> F) : (s0 <= r)%S -> near r X X.
  Proof. intros H i j. replace (X i j - X i j)%S with (s0 : F) by ring. now rewrite sabs_0. Qed.
  Lemma near_pert r (X : nat -> nat -> F) a b t : (s0 <= r)%S -> (sabs t <= r)%S -> near r X (pert X a b t).
  Proof.
    intros H0 H i j. unfold pert. destruct ((i =? a) && (j =? b)).
    - replace (X i j + t - X i j)%S with t by ring. exact H.
    - replace (X i j - X i j)%S with (s0 : F) by ring. now rewrite sabs_0.
  Qed.
  Lemma near_pert2 r (X : nat -> nat -> F) j t : 0 < ph -> (s0 <= r)%S -> (sabs t <= r)%S -> near r X (pert2 d X j t).
  Proof.
    intros P H0 H i k. unfold pert2, pert. destruct (Nat.eqb_spec i ph), (Nat.eqb_spec k j), (Nat.eqb_spec i (ph - 1)); cbn [andb]; try lia;
      try (replace (X i k + t - X i k)%S with t by ring; exact H); (replace (X i k - X i k)%S with (s0 : F) by ring; now rewrite sabs_0).
  Qed.
  Lemma spos_ge1 p : ((s1 : F) <= spos p)%S.
  Proof.
    assert (N : ((s0 : F) <= s1)%S) by (apply slt_le, s01_lt).
    induction p as [p IH|p IH|]; cbn [spos]; [| |apply sle_refl].
    - replace (s1 : F) with (s1 + s0)%S at 1 by ring. apply sle_add_l. apply sle_trans with (spos p); [apply sle_trans with s1; assumption|].
      unfold s2. replace ((s1 + s1) * spos p)%S with (spos p + spos p)%S by ring. replace (spos p) with (spos p + s0)%S at 1 by ring. apply sle_add_l. apply sle_trans with s1; assumption.
    - apply sle_trans with (spos p); [exact IH|].
      unfold s2. replace ((s1 + s1) * spos p)%S with (spos p + spos p)%S by ring. replace (spos p) with (spos p + s0)%S at 1 by ring. apply sle_add_l. apply sle_trans with s1; assumption.
  Qed.
  Lemma smul_le_l (a b c : F) : (s0 <= a)%S -> (b <= c)%S -> (a * b <= a * c)%S.
  Proof. intros A B. apply (proj2 (sle_sub_0 _ _)). replace (a * c - a * b)%S with (a * (c - b))%S by ring. apply s_le_mul; [exact A|]. exact (proj1 (sle_sub_0 b c) B). Qed.
  Lemma sdec_le1 p : ((sdec 1%positive p : F) <= s1)%S.
  Proof.
    assert (Q : ((s0 : F) <= sdec 1%positive p)%S) by (apply slt_le, sdec_pos).
    assert (E : ((sdec 1%positive p * spos p)%S = (s1 : F))) by (unfold sdec; cbn [spos]; field; apply spos_neq).
    apply sle_trans with (sdec 1%positive p * spos p)%S; [|rewrite E; apply sle_refl].
    replace (sdec 1%positive p) with (sdec 1%positive p * s1)%S at 1 by ring. apply smul_le_l; [exact Q|apply spos_ge1].
  Qed.
  Lemma smax_le (a b c : F) : (a <= c)%S -> (b <= c)%S -> (smax a b <= c)%S. Proof. intros. unfold smax. destruct (sltb a b); assumption. Qed.
  Lemma mag_pos (v : F) : (s0 < mag v)%S. Proof. apply smax_pos, s01_lt. Qed.
  Lemma mag_bounds (v B : F) : (mag v <= B)%S -> (s1 <= B)%S /\ (sabs v <= B)%S.
  Proof.
    unfold mag, smax. destruct (sltb (sabs v) s1) eqn:E; intros H; (split; [|]); try exact H.
    - apply sle_trans with s1; [|exact H]. now apply slt_le.
    - apply sle_trans with (sabs v); [|exact H]. unfold sle. rewrite s_lt_le in E. now apply negb_false_iff in E.
  Qed.
  Lemma step_small (k p : positive) (v B : F) : (mag v <= B)%S -> (sabs (sdec k p * mag v) <= sdec k p * B)%S /\ (sabs (- (sdec k p * mag v)) <= sdec k p * B)%S.
  Proof.
    intros H. rewrite sabs_opp. rewrite sabs_pos; [|apply slt_le, smul_pos; [apply sdec_pos|apply mag_pos]].
    split; (apply smul_le_l; [apply slt_le, sdec_pos|exact H]).
  Qed.
  Lemma slack_small (q k p : positive) (e B : F) : (mag e <= B)%S ->
    (sabs (e + smax (sdec 1%positive q) (sabs e) * sdec k p - e) <= sdec k p * B)%S /\ (sabs (e - smax (sdec 1%positive q) (sabs e) * sdec k p - e) <= sdec k p * B)%S.
  Proof.
    intros H. destruct (mag_bounds e B H) as [H1 H2].
    replace (e + smax (sdec 1%positive q) (sabs e) * sdec k p - e)%S with (smax (sdec 1%positive q) (sabs e) * sdec k p)%S by ring.
    replace (e - smax (sdec 1%positive q) (sabs e) * sdec k p - e)%S with (- (smax (sdec 1%positive q) (sabs e) * sdec k p))%S by ring.
    rewrite sabs_opp. assert (P : (s0 < smax (sdec 1%positive q) (sabs e))%S) by (apply smax_pos_l, sdec_pos).
    rewrite sabs_pos; [|apply slt_le, smul_pos; [exact P|apply sdec_pos]].
    replace (smax (sdec 1%positive q) (sabs e) * sdec k p)%S with (sdec k p * smax (sdec 1%positive q) (sabs e))%S by ring.
    split; (apply smul_le_l; [apply slt_le, sdec_pos|]; apply smax_le; [apply sle_trans with s1; [apply sdec_le1|exact H1]|exact H2]).
  Qed.
  Lemma nth_entry_bounded m (X : nat -> nat -> F) B j : bounded (ph + 1) m X B -> j < m -> (mag (nth_entry d X j) <= B)%S.
  Proof.
    intros H Hj. apply H; [apply Nat.mod_upper_bound; lia|]. apply Nat.le_lt_trans with j; [|exact Hj]. apply Nat.div_le_upper_bound; [lia|]. nia.
  Qed.
  (** two points (trajectories and slack) within r of each other, with the same row 0 of the states *)
  Definition close (r : F) (p p' : (nat -> nat -> F) * (nat -> nat -> F) * F) : Prop :=
    let '(X, U, e) := p in let '(X', U', e') := p' in
    near r X X' /\ near r U U' /\ (sabs (e' - e) <= r)%S /\ forall j, X' 0 j = X 0 j.
  Lemma pert_row0 (X : nat -> nat -> F) i j t k : pert X (i + 1) j t 0 k = X 0 k.
  Proof. unfold pert. destruct (Nat.eqb_spec 0 (i + 1)); [lia|]. reflexivity. Qed.
  Lemma e_same (e r : F) : (s0 <= r)%S -> (sabs (e - e) <= r)%S.
  Proof. intros H. replace (e - e)%S with (s0 : F) by ring. now rewrite sabs_0. Qed.
  Lemma bound_pos (B e : F) : (mag e <= B)%S -> (s0 <= B)%S.
  Proof. intros H. apply sle_trans with (mag e); [apply slt_le, mag_pos|exact H]. Qed.
  Lemma obj_points_close X U e B p : 0 < ph -> bounded (ph + 1) nx X B -> bounded (ph + 1) nu U B -> (mag e <= B)%S ->
    In p (obj_points d X U e) -> close (dv_obj * B)%S (X, U, e) p.
  Proof.
    intros P BX BU Be. assert (R : (s0 <= dv_obj * B)%S) by (apply s_le_mul; [apply slt_le, sdec_pos|exact (bound_pos B e Be)]).
    unfold obj_points. cbn zeta. rewrite !in_app_iff, !in_each, in_flat_map.
    intros [[<-|[]]|[(i & j & Hi & Hj & [<-|[]])|[(i & j & Hi & Hj & [<-|[]])|[(j & Hj & [<-|[]])|[<-|[<-|[]]]]]]];
      try (apply in_seq in Hj); (refine (conj _ (conj _ (conj _ _))); [| | |intros k; try apply pert_row0; reflexivity]); try (now apply near_refl); try (now apply e_same).
    - apply near_pert; [exact R|]. apply (step_small _ _ _ B). now apply nth_entry_bounded with (m := nx).
    - apply near_pert; [exact R|]. apply (step_small _ _ _ B). now apply nth_entry_bounded with (m := nu).
    - apply near_pert2; [exact P|exact R|]. apply (step_small _ _ _ B). apply nth_entry_bounded with (m := nu); [exact BU|lia].
    - apply (slack_small _ _ _ e B Be).
    - apply (slack_small _ _ _ e B Be).
  Qed.
  Lemma ieq_points_close X U e B p : 0 < ph -> bounded (ph + 1) nx X B -> bounded (ph + 1) nu U B -> (mag e <= B)%S ->
    In p (ieq_points d X U e) -> close (dv_con * B)%S (X, U, e) p.
  Proof.
    intros P BX BU Be. assert (R : (s0 <= dv_con * B)%S) by (apply s_le_mul; [apply slt_le, sdec_pos|exact (bound_pos B e Be)]).
    unfold ieq_points. cbn zeta. rewrite !in_app_iff, !in_each.
    intros [[<-|[]]|[(i & j & Hi & Hj & [<-|[<-|[]]])|[(i & j & Hi & Hj & [<-|[<-|[]]])|[<-|[<-|[]]]]]];
      (refine (conj _ (conj _ (conj _ _))); [| | |intros k; try apply pert_row0; reflexivity]); try (now apply near_refl); try (now apply e_same).
    - apply near_pert; [exact R|]. apply (step_small _ _ _ B). now apply nth_entry_bounded with (m := nx).
    - apply near_pert; [exact R|]. apply (step_small _ _ _ B). now apply nth_entry_bounded with (m := nx).
    - apply near_pert; [exact R|]. apply (step_small _ _ _ B). now apply nth_entry_bounded with (m := nu).
    - apply near_pert; [exact R|]. apply (step_small _ _ _ B). now apply nth_entry_bounded with (m := nu).
    - apply (slack_small _ _ _ e B Be).
    - apply (slack_small _ _ _ e B Be).
  Qed.
  Lemma eqc_points_close X U B e p : 0 < ph -> bounded (ph + 1) nx X B -> bounded (ph + 1) nu U B -> (mag e <= B)%S ->
    In p (eqc_points d X U) -> close (dv_con * B)%S (X, U, e) (p, e).
  Proof.
    intros P BX BU Be. assert (R : (s0 <= dv_con * B)%S) by (apply s_le_mul; [apply slt_le, sdec_pos|exact (bound_pos B e Be)]).
    unfold eqc_points. cbn zeta. rewrite !in_app_iff, !in_each, in_flat_map.
    intros [[<-|[]]|[(i & j & Hi & Hj & [<-|[<-|[]]])|[(i & j & Hi & Hj & [<-|[<-|[]]])|(j & Hj & [<-|[<-|[]]])]]];
      try (apply in_seq in Hj); (refine (conj _ (conj _ (conj _ _))); [| | |intros k; try apply pert_row0; reflexivity]); try (now apply near_refl); try (now apply e_same).
    - apply near_pert; [exact R|]. apply (step_small _ _ _ B). apply BX; lia.
    - apply near_pert; [exact R|]. apply (step_small _ _ _ B). apply BX; lia.
    - apply near_pert; [exact R|]. apply (step_small _ _ _ B). apply BU; lia.
    - apply near_pert; [exact R|]. apply (step_small _ _ _ B). apply BU; lia.
    - apply near_pert2; [exact P|exact R|]. apply (step_small _ _ _ B). apply BU; lia.
    - apply near_pert2; [exact P|exact R|]. apply (step_small _ _ _ B). apply BU; lia.
  Qed.
  Lemma bump_near (x : nat -> F) j t r : (s0 <= r)%S -> (sabs t <= r)%S -> forall k, (sabs (bump x j t k - x k) <= r)%S.
  Proof.
    intros R H k. unfold bump. destruct (k =? j); [replace (x k + t - x k)%S with t by ring; exact H|now apply e_same].
  Qed.

  (** with B at least 1 and at least every entry of the trajectories and the slack in absolute value: no call departs from the trajectories
      NLopt asked about by more than 1e-6 B (objective) or 2^-26 B (constraints, dynamics), and none of the trajectory functions sees another row 0 *)
  Theorem C69_calls_stay_close s h x0 z B :
    0 < ch -> ch <= ph -> reached s h -> gm x0 nx 1 -> scaled d (cf h) -> length z = n_dec d ->
    let X := x_traj d (cf h) x0 (dvar z) in let U := u_traj d (cf h) (dvar z) in let e := dvar z (v_slack d) in
    bounded (ph + 1) nx X B -> bounded (ph + 1) nu U B -> (mag e <= B)%S ->
    (forall hg c, In c (eval_obj_calls d hg s x0 z) -> exists p, close (dv_obj * B)%S (X, U, e) p /\ In c (obj_shown d (k_out (cf h)) p)) /\
    (forall hg c, In c (eval_con_calls d hg s x0 KIneq z) -> exists p, close (dv_con * B)%S (X, U, e) p /\ In c (ieq_shown d (k_out (cf h)) p)) /\
    (forall hg c, In c (eval_con_calls d hg s x0 KEq z) -> exists X' U', close (dv_con * B)%S (X, U, e) (X', U', e) /\ In c (eqc_shown d (X', U'))) /\
    (forall hg c, In c (eval_con_calls d hg s x0 KDyn z) -> exists p a x u, p < ph /\ (a = p \/ a = p + 1) /\
       (forall j, (sabs (x j - X a j) <= dv_con * B)%S) /\ (forall j, (sabs (u j - U p j) <= dv_con * B)%S) /\ In c (dyn_shown d p (x, u))).
  Proof.
    intros C0 C Hr G Sc Lz. pose proof (ph_pos d C0 C) as P. cbn zeta. intros BX BU Be.
    refine (conj _ (conj _ (conj _ _))); intros hg c I.
    - rewrite (C69_objective_calls s h x0 z hg C0 C Hr G Sc Lz) in I. apply in_flat_map in I as (p & Hp & I). exists p. split; [|exact I].
      apply obj_points_close; try assumption. destruct hg; [exact Hp|]. destruct Hp as [<-|[]]. apply in_or_app. left. now left.
    - rewrite (C69_inequality_calls s h x0 z hg C0 C Hr G Sc Lz) in I. apply in_flat_map in I as (p & Hp & I). exists p. split; [|exact I]. now apply ieq_points_close.
    - rewrite (C69_equality_calls s h x0 z hg C0 C Hr G Sc Lz) in I. apply in_flat_map in I as ([X' U'] & Hp & I). exists X', U'. split; [|exact I].
      exact (eqc_points_close _ _ B _ (X', U') P BX BU Be Hp).
    - rewrite (C69_dynamics_calls s h x0 z hg C0 C Hr G Sc Lz) in I. apply in_flat_map in I as (p & Hp & I). apply in_seq in Hp.
      apply in_flat_map in I as ([x u] & Hq & I). exists p.
      assert (R : (s0 <= dv_con * B)%S) by (apply s_le_mul; [apply slt_le, sdec_pos|exact (bound_pos B _ Be)]).
      set (X := x_traj d (cf h) x0 (dvar z)) in *. set (U := u_traj d (cf h) (dvar z)) in *.
      assert (Q : forall a, a <= ph -> In (x, u) (dyn_around d (X a) (U p)) ->
        (forall j, (sabs (x j - X a j) <= dv_con * B)%S) /\ (forall j, (sabs (u j - U p j) <= dv_con * B)%S)).
      { intros a Ha. unfold dyn_around. cbn zeta. rewrite in_app_iff, !in_flat_map. intros [(j & Hj & J)|(j & Hj & J)]; apply in_seq in Hj; destruct J as [J|[J|[]]]; inversion J; subst;
          (split; [|]); try (intros; now apply e_same); (apply bump_near; [exact R|]; apply (step_small _ _ _ B); (apply BX || apply BU); lia). }
      unfold dyn_points in Hq. rewrite !in_app_iff in Hq. destruct Hq as [[J|[]]|[J|[J|J]]].
      + inversion J; subst. exists p. eexists _, _. refine (conj _ (conj (or_introl eq_refl) (conj _ (conj _ I)))); [lia| |]; intros; now apply e_same.
      + destruct (k_ts (cf h)); [|destruct J]. destruct J as [J|[]]. inversion J; subst.
        exists (p + 1). eexists _, _. refine (conj _ (conj (or_intror eq_refl) (conj _ (conj _ I)))); [lia| |]; intros; now apply e_same.
      + destruct hg; [|destruct J]. destruct (Q p ltac:(lia) J) as [Q1 Q2]. exists p, x, u. refine (conj _ (conj (or_introl eq_refl) (conj Q1 (conj Q2 I)))). lia.
      + destruct hg, (k_ts (cf h)); try destruct J. destruct (Q (p + 1) ltac:(lia) J) as [Q1 Q2]. exists (p + 1), x, u. refine (conj _ (conj (or_intror eq_refl) (conj Q1 (conj Q2 I)))). lia.
  Qed.
  (** sizes, step indices, and the first state row, for every call whatsoever *)
  Theorem C69_calls_well_formed s h x0 z hg c :
    0 < ch -> ch <= ph -> reached s h -> gm x0 nx 1 -> scaled d (cf h) -> length z = n_dec d ->
    In c (eval_obj_calls d hg s x0 z) \/ (exists k, In c (eval_con_calls d hg s x0 k z)) ->
    shapes c /\ row0 (map (fun j => (k_sx (cf h) j * ent x0 j 0)%S) (seq 0 nx)) c.
  Proof.
    intros C0 C Hr G Sc Lz. pose proof (ph_pos d C0 C) as P. set (X := x_traj d (cf h) x0 (dvar z)). set (U := u_traj d (cf h) (dvar z)).
    assert (E0 : forall X' : nat -> nat -> F, (forall j, X' 0 j = X 0 j) -> map (X' 0) (seq 0 nx) = map (fun j => (k_sx (cf h) j * ent x0 j 0)%S) (seq 0 nx)).
    { intros X' E. apply map_ext. intros j. rewrite E. reflexivity. }
    assert (Bd : forall (X : nat -> nat -> F) n m, exists B, bounded n m X B).
    { intros X' n m. assert (Q1 : forall (f : nat -> F) k, exists B, forall i, i < k -> (mag (f i) <= B)%S).
      { intros f. induction k as [|k [B IH]]; [exists s0; lia|]. destruct (sle_total B (mag (f k))) as [L|L].
        - exists (mag (f k)). intros i Hi. destruct (Nat.eq_dec i k) as [->|]; [apply sle_refl|]. apply sle_trans with B; [apply IH; lia|exact L].
        - exists B. intros i Hi. destruct (Nat.eq_dec i k) as [->|]; [exact L|]. apply IH; lia. }
      induction n as [|n [B IH]]; [exists s0; intros ? ? ?; lia|]. destruct (Q1 (X' n) m) as [B' H']. destruct (sle_total B B') as [L|L].
      - exists B'. intros i j Hi Hj. destruct (Nat.eq_dec i n) as [->|]; [now apply H'|]. apply sle_trans with B; [apply IH; lia|exact L].
      - exists B. intros i j Hi Hj. destruct (Nat.eq_dec i n) as [->|]; [|apply IH; lia]. apply sle_trans with B'; [now apply H'|exact L]. }
    assert (Bm : exists B, bounded (ph + 1) nx X B /\ bounded (ph + 1) nu U B /\ (mag (dvar z (v_slack d)) <= B)%S).
    { destruct (Bd X (ph + 1) nx) as [B1 H1]. destruct (Bd U (ph + 1) nu) as [B2 H2]. set (B3 := mag (dvar z (v_slack d))).
      assert (M : forall a b : F, exists m, (a <= m)%S /\ (b <= m)%S) by (intros a b; destruct (sle_total a b); [exists b|exists a]; split; auto using sle_refl).
      destruct (M B1 B2) as (m1 & M1 & M2). destruct (M m1 B3) as (m2 & M3 & M4). exists m2. refine (conj _ (conj _ M4)).
      - intros i j Hi Hj. apply sle_trans with B1; [now apply H1|]. apply sle_trans with m1; assumption.
      - intros i j Hi Hj. apply sle_trans with B2; [now apply H2|]. apply sle_trans with m1; assumption. }
    destruct Bm as (B & B1 & B2 & B3). pose proof (C69_calls_stay_close s h x0 z B C0 C Hr G Sc Lz) as Q. cbn zeta in Q. fold X in Q. fold U in Q.
    destruct (Q B1 B2 B3) as (Qo & Qi & Qe & Qd). intros [I|[k I]].
    - destruct (Qo hg c I) as ([[X' U'] e'] & (_ & _ & _ & K) & I'). rewrite <- (E0 X' K). exact (obj_shown_ok _ (X', U', e') c I').
    - destruct k.
      + destruct (Qd hg c I) as (p & a & x & u & Hp & _ & _ & _ & [<-|[]]). cbn [shapes row0]. rewrite !map_length, !seq_length. auto.
      + destruct (Qi hg c I) as ([[X' U'] e'] & (_ & _ & _ & K) & I'). rewrite <- (E0 X' K). exact (ieq_shown_ok _ (X', U', e') c I').
      + destruct (Qe hg c I) as (X' & U' & (_ & _ & _ & K) & I'). rewrite <- (E0 X' K). exact (eqc_shown_ok (X', U') c I').
  Qed.
End P.

(** *** the answers to these calls determine the result: no scalar law is used *)
Section Only.
  Context {F : Type} {SO : ScalarOps F}.
  Variable junk : nat -> nat -> F.
  Variable d : dims.
  Variables ni ne : nat.
  Notation agree s s' := (same_answer s s').

  Lemma om_eq {A B} (f : A -> B) o o' v w : option_map f o = option_map f o' -> o = Some v -> o' = Some w -> f v = f w.
  Proof. intros E -> ->. now inversion E. Qed.
  Lemma om_some {A B} (f : A -> B) o o' : option_map f o = option_map f o' -> (exists v w, o = Some v /\ o' = Some w) \/ (o = None /\ o' = None).
  Proof. destruct o, o'; cbn; intros E; try discriminate E; [left; eauto|right; auto]. Qed.
  Lemma in_obj (s : nmpc F) hg x0 z : exists X Y U e, In (UObj X Y U e) (eval_obj_calls d hg s x0 z).
  Proof. eexists _, _, _, _. unfold eval_obj_calls, obj_calls. apply in_or_app. left. unfold obj_pt. apply in_or_app. right. now left. Qed.
  Lemma in_ieq (s : nmpc F) hg x0 z : exists X Y U e, In (UIeq X Y U e) (eval_con_calls d hg s x0 KIneq z).
  Proof. eexists _, _, _, _. unfold eval_con_calls, ieq_calls. apply in_or_app. left. unfold ieq_pt. apply in_or_app. right. now left. Qed.
  Lemma in_eqc (s : nmpc F) hg x0 z : exists X U, In (UEqc X U) (eval_con_calls d hg s x0 KEq z).
  Proof. eexists _, _. unfold eval_con_calls, eqc_calls. apply in_or_app. left. now left. Qed.

  (** the same value and gradient *)
  Theorem C69_objective_depends_only_on_calls s s' x0 z :
    n_map s' = n_map s -> (n_out s = None <-> n_out s' = None) ->
    (forall c, In c (eval_obj_calls d true s x0 z) -> agree s s' c) -> eval_obj junk d s' x0 z = eval_obj junk d s x0 z.
  Proof.
    intros M O A. unfold eval_obj. rewrite M. destruct (in_obj s true x0 z) as (X & Y & U & e & I).
    destruct (om_some _ _ _ (A _ I)) as [(f & f' & E & E')|[E E']]; rewrite E, E'; [|reflexivity].
    rewrite (obj_ev_same junk d (agree s s') (n_out s) (n_out s') O (fun x u i H => H) f f'
      (fun X Y U e H => om_eq _ _ _ f f' H E E') (n_map s) x0 (vec_of z) A). reflexivity.
  Qed.
  (** the same value when no gradient is requested *)
  Theorem C69_objective_value_depends_only_on_calls s s' x0 z v g v' g' :
    n_map s' = n_map s -> (n_out s = None <-> n_out s' = None) ->
    (forall c, In c (eval_obj_calls d false s x0 z) -> agree s s' c) ->
    eval_obj junk d s x0 z = Ok (v, g) -> eval_obj junk d s' x0 z = Ok (v', g') -> v' = v.
  Proof.
    intros M O A. unfold eval_obj. rewrite M. destruct (in_obj s false x0 z) as (X & Y & U & e & I).
    destruct (om_some _ _ _ (A _ I)) as [(f & f' & E & E')|[E E']]; rewrite E, E'; [|intros K; discriminate K].
    pose proof (obj_val_same junk d (agree s s') (n_out s) (n_out s') O (fun x u i H => H) f f'
      (fun X Y U e H => om_eq _ _ _ f f' H E E') (n_map s) x0 (vec_of z) A) as Q.
    destruct (obj_evaluate junk d (n_map s) f (n_out s) x0 (vec_of z)) as [v1 g1]. destruct (obj_evaluate junk d (n_map s) f' (n_out s') x0 (vec_of z)) as [v2 g2].
    cbn [fst] in Q. destruct (mok g1); [|intros K; discriminate K]. destruct (mok g2); [|intros _ K; discriminate K]. intros K1 K2. inversion K1. inversion K2. congruence.
  Qed.
  Theorem C69_constraints_depend_only_on_calls s s' x0 z k : 0 < d_ph d ->
    n_map s' = n_map s -> n_ts s' = n_ts s -> (n_out s = None <-> n_out s' = None) ->
    (forall c, In c (eval_con_calls d true s x0 k z) -> agree s s' c) -> eval_con junk d ni ne s' x0 k z = eval_con junk d ni ne s x0 k z.
  Proof.
    intros P M T O A. unfold eval_con. rewrite M, T. destruct k.
    - assert (I : exists x u p, In (UDyn x u p) (eval_con_calls d true s x0 KDyn z)).
      { unfold eval_con_calls, dyn_calls. destruct (d_ph d) as [|n]; [lia|]. clear.
        induction n as [|n IH]; cbn [loop].
        - eexists _, _, _. apply in_or_app. right. now left.
        - destruct IH as (x & u & p & I). exists x, u, p. apply in_or_app. left. exact I. }
      destruct I as (x & u & p & I). destruct (om_some _ _ _ (A _ I)) as [(f & f' & E & E')|[E E']]; rewrite E, E'; [|reflexivity].
      rewrite (seq_ev_same junk d (agree s s') f f' (fun x u p H => om_eq _ _ _ f f' H E E') (n_map s) (n_ts s) x0 (vec_of z) A). reflexivity.
    - destruct (in_ieq s true x0 z) as (X & Y & U & e & I).
      destruct (om_some _ _ _ (A _ I)) as [(f & f' & E & E')|[E E']]; rewrite E, E'; [|reflexivity].
      rewrite (ieq_ev_same junk d ni (agree s s') (n_out s) (n_out s') O (fun x u i H => H) f f'
        (fun X Y U e H => om_eq _ _ _ f f' H E E') (n_map s) x0 (vec_of z) A). reflexivity.
    - destruct (in_eqc s true x0 z) as (X & U & I).
      destruct (om_some _ _ _ (A _ I)) as [(f & f' & E & E')|[E E']]; rewrite E, E'; [|reflexivity].
      rewrite (eqc_ev_same junk d ne (agree s s') f f' (fun X U H => om_eq _ _ _ f f' H E E') (n_map s) x0 (vec_of z) A). reflexivity.
  Qed.
  Theorem C69_dynamics_values_depend_only_on_calls s s' x0 z v g v' g' : 0 < d_ph d ->
    n_map s' = n_map s -> n_ts s' = n_ts s ->
    (forall c, In c (eval_con_calls d false s x0 KDyn z) -> agree s s' c) ->
    eval_con junk d ni ne s x0 KDyn z = Ok (v, g) -> eval_con junk d ni ne s' x0 KDyn z = Ok (v', g') -> v' = v.
  Proof.
    intros P M T A. unfold eval_con. rewrite M, T.
    destruct (n_dyn s) as [f|] eqn:E; [|intros K; discriminate K]. destruct (n_dyn s') as [f'|] eqn:E'; [|intros _ K; discriminate K].
    pose proof (seq_val_same junk d (agree s s') f f' (fun x u p H => om_eq _ _ _ f f' H E E') (n_map s) (n_ts s) x0 (vec_of z) A) as Q.
    destruct (seq_evaluate junk d (n_map s) f (n_ts s) x0 (vec_of z)) as [v1 g1]. destruct (seq_evaluate junk d (n_map s) f' (n_ts s) x0 (vec_of z)) as [v2 g2].
    cbn [fst] in Q. subst v2. destruct (mok v1 && mok g1); [|intros K; discriminate K]. destruct (mok v1 && mok g2); [|intros _ K; discriminate K].
    intros K1 K2. inversion K1. inversion K2. congruence.
  Qed.
End Only.

(** *** what a user might expect and does not hold *)
(** bounds: even when the decision vector respects them (unit scales), the model is evaluated outside *)
Definition tr_z : list Qc := map q [1; 2; 3; 4; 5; 6; 3; -3; 0]%Z.
Local Notation trS := (nS nd 2 1 n_cfg).
Local Notation trH := (nH nd 2 1 n_cfg).
Lemma tr_reached : nreached qj nd 2 1 false trS trH. Proof. n_reach. Qed.
Lemma qc_of_le (a b : Qc) : sleb a b && sleb b a = true -> a = b.
Proof. intros H. apply andb_true_iff in H as [H1 H2]. now apply s_le_antisym. Qed.
Lemma tr_unit_x : forall j, j < d_nx nd -> k_sx (ncfg_run nd 2 1 trH) j = s1.
Proof. intros j Hj. apply qc_of_le. destruct j as [|[|j]]; [vm_compute; reflexivity|vm_compute; reflexivity|cbn in Hj; lia]. Qed.
Lemma tr_unit_u : forall j, j < d_nu nd -> k_su (ncfg_run nd 2 1 trH) j = s1.
Proof. intros j Hj. apply qc_of_le. destruct j as [|j]; [vm_compute; reflexivity|cbn in Hj; lia]. Qed.
Lemma tr_scaled : scaled nd (ncfg_run nd 2 1 trH).
Proof. intros j Hj. rewrite tr_unit_x by exact Hj. intros E. apply (f_equal (fun x => sleb x s0)) in E. vm_compute in E. discriminate E. Qed.
Lemma tr_box : in_box nd (n_call qj nd 2 1 trS n_x0 n_u0) tr_z.
Proof.
  apply (C23_box qj nd 2 1 false _ _ n_x0 n_u0 tr_z nd_ch nd_ph tr_reached). refine (conj _ (conj _ _)).
  - intros k j Hk Hj. apply within_b_ok. destruct k as [|[|[|k]]], j as [|[|j]]; try (cbn in Hk, Hj; lia); vm_compute; reflexivity.
  - intros k j Hk Hj. apply within_b_ok. destruct k as [|[|k]], j as [|j]; try (cbn in Hk, Hj; lia); vm_compute; reflexivity.
  - vm_compute. reflexivity.
Qed.
Theorem C69_calls_within_bounds_refuted :
  ~ (forall d ni ne s h x0 u0 z, 0 < d_ch d -> d_ch d <= d_ph d -> nreached qj d ni ne false s h -> gm x0 (d_nx d) 1 -> length z = n_dec d ->
       (forall j, j < d_nx d -> k_sx (ncfg_run d ni ne h) j = s1) -> (forall j, j < d_nu d -> k_su (ncfg_run d ni ne h) j = s1) ->
       in_box d (n_call qj d ni ne s x0 u0) z ->
       forall x u p, In (UDyn x u p) (eval_con_calls d true s x0 KDyn z) ->
         forall j, j < d_nu d -> within (k_ulo (ncfg_run d ni ne h) (held d p) j) (k_uhi (ncfg_run d ni ne h) (held d p) j) (nth j u s0)).
Proof.
  intros H. specialize (H nd 2 1 trS trH n_x0 n_u0 tr_z nd_ch nd_ph tr_reached ltac:(repeat split) eq_refl tr_unit_x tr_unit_u tr_box).
  (* step 0: the input 3 (its upper bound) is moved up *)
  assert (Q : existsb (fun c => match c with UDyn x u 0 => negb (within_b (k_ulo (ncfg_run nd 2 1 trH) 0 0) (k_uhi (ncfg_run nd 2 1 trH) 0 0) (nth 0 u s0)) | _ => false end)
    (eval_con_calls nd true trS n_x0 KDyn tr_z) = true) by (vm_compute; reflexivity).
  apply existsb_exists in Q as (c & I & Q). destruct c as [| | |x u p|]; try discriminate Q. destruct p; [|discriminate Q].
  specialize (H x u 0 I 0 ltac:(cbn; lia)). revert H. apply within_dec_false. now apply negb_true_iff in Q.
Qed.
(** steps: "a state entry is moved by 1e-6 times its own magnitude" *)
Theorem C69_own_magnitude_refuted :
  ~ (forall d ni ne s h x0 z, 0 < d_ch d -> d_ch d <= d_ph d -> nreached qj d ni ne false s h -> gm x0 (d_nx d) 1 -> scaled d (ncfg_run d ni ne h) -> length z = n_dec d ->
       forall X Y U e, In (UObj X Y U e) (eval_obj_calls d true s x0 z) ->
         forall i j, i <= d_ph d -> j < d_nx d -> let v := x_traj d (ncfg_run d ni ne h) x0 (dvar z) i j in
           nth j (nth i X []) s0 = v \/ nth j (nth i X []) s0 = (v + dv_obj * mag v)%S).
Proof.
  intros H. specialize (H nd 2 1 trS trH n_x0 tr_z nd_ch nd_ph tr_reached ltac:(repeat split) tr_scaled eq_refl).
  set (v := x_traj nd (ncfg_run nd 2 1 trH) n_x0 (dvar tr_z) 3 1) in *.
  assert (Q : existsb (fun c => match c with UObj X _ _ _ => let w := nth 1 (nth 3 X []) s0 in
      negb (sleb w v && sleb v w) && negb (sleb w (v + dv_obj * mag v)%S && sleb (v + dv_obj * mag v)%S w) | _ => false end)
    (eval_obj_calls nd true trS n_x0 tr_z) = true) by (vm_compute; reflexivity).
  apply existsb_exists in Q as (c & I & Q). destruct c as [X Y U e| | | |]; try discriminate Q. cbv zeta in Q.
  apply andb_true_iff in Q as [Q1 Q2]. apply negb_true_iff in Q1, Q2.
  specialize (H X Y U e I 3 1 ltac:(cbn; lia) ltac:(cbn; lia)). cbv zeta in H. fold v in H. clear I. clearbody v.
  destruct H as [E|E].
  - rewrite E, (s_le_refl v) in Q1. discriminate Q1.
  - rewrite E, s_le_refl in Q2. discriminate Q2.
Qed.
(** the measured state itself is moved in the calls to the dynamics that serve its Jacobian (whose value for step 0 is then not used) *)
Theorem C69_dynamics_moves_measured_state {F} {SO : ScalarOps F} {SL : ScalarLaws F} junk d ni ne dyn_eq (s : nmpc F) h x0 z j :
  0 < d_ch d -> d_ch d <= d_ph d -> nreached junk d ni ne dyn_eq s h -> gm x0 (d_nx d) 1 -> scaled d (ncfg_run d ni ne h) -> length z = n_dec d -> j < d_nx d ->
  let x i := (k_sx (ncfg_run d ni ne h) i * ent x0 i 0)%S in
  exists u, In (UDyn (map (bump x j (dv_con * mag (x j))%S) (seq 0 (d_nx d))) u 0) (eval_con_calls d true s x0 KDyn z) /\
    map (bump x j (dv_con * mag (x j))%S) (seq 0 (d_nx d)) <> map x (seq 0 (d_nx d)).
Proof.
  intros C0 C Hr G Sc Lz Hj x. eexists. split.
  - rewrite (C69_dynamics_calls junk d ni ne dyn_eq s h x0 z true C0 C Hr G Sc Lz). cbn zeta. apply in_flat_map. exists 0. split; [apply in_seq; lia|].
    apply in_flat_map. exists (bump x j (dv_con * mag (x j))%S, u_traj d (ncfg_run d ni ne h) (dvar z) 0). split; [|now left].
    unfold dyn_points. apply in_or_app. right. apply in_or_app. right. apply in_or_app. left. unfold dyn_around. apply in_or_app. left.
    apply in_flat_map. exists j. split; [apply in_seq; lia|]. now left.
  - intros E. apply (f_equal (fun l => nth j l (bump x j (dv_con * mag (x j))%S 0))) in E.
    rewrite (map_nth (bump x j (dv_con * mag (x j))%S) (seq 0 (d_nx d)) 0 j) in E.
    rewrite (nth_indep _ _ (x 0)) in E by (rewrite map_length, seq_length; exact Hj). rewrite (map_nth x (seq 0 (d_nx d)) 0 j), seq_nth in E by exact Hj.
    unfold bump in E. cbn [Nat.add] in E. rewrite Nat.eqb_refl in E.
    assert (T : (dv_con * mag (x j))%S = s0) by exact (add_self_0 _ _ E).
    assert (Q : (s0 < dv_con * mag (x j))%S) by exact (smul_pos _ _ (sdec_pos 1%positive 67108864%positive) (mag_pos (x j))).
    rewrite T in Q. apply slt_neq in Q. exact (Q eq_refl).
Qed.

(** *** instances *)
(** the concrete controller of [WitNL] (two states, one input, output function, ph = 3): counts from the theorem and by running the model *)
Example C69_instance_counts : nreached qj nd 2 1 false (nS nd 2 1 n_ops) (nH nd 2 1 n_ops) /\ gm n_x0 (d_nx nd) 1 /\ scaled nd (ncfg_run nd 2 1 (nH nd 2 1 n_ops)) /\ length n_z = n_dec nd /\
  n_mains (eval_obj_calls nd true (nS nd 2 1 n_ops) n_x0 n_z) = 12 /\ n_outs (eval_obj_calls nd true (nS nd 2 1 n_ops) n_x0 n_z) = 48 /\
  n_mains (eval_con_calls nd true (nS nd 2 1 n_ops) n_x0 KIneq n_z) = 21 /\ n_mains (eval_con_calls nd false (nS nd 2 1 n_ops) n_x0 KEq n_z) = 19 /\
  n_mains (eval_con_calls nd true (nS nd 2 1 n_ops) n_x0 KDyn n_z) = 21.
Proof.
  refine (conj n_ops_reached (conj _ (conj n_c_scaled (conj eq_refl _)))); [repeat split|].
  refine (conj _ (conj _ (conj _ (conj _ _)))); vm_compute; reflexivity.
Qed.
(** a bound as required by [C69_calls_stay_close] *)
Example C69_instance_bounded : bounded 4 2 (x_traj nd (ncfg_run nd 2 1 trH) n_x0 (dvar tr_z)) (q 6) /\ bounded 4 1 (u_traj nd (ncfg_run nd 2 1 trH) (dvar tr_z)) (q 6) /\
  (mag (dvar tr_z (v_slack nd)) <= q 6)%S.
Proof.
  refine (conj _ (conj _ _)); [| |vm_compute; reflexivity]; intros i j Hi Hj.
  - destruct i as [|[|[|[|i]]]], j as [|[|j]]; try lia; vm_compute; reflexivity.
  - destruct i as [|[|[|[|i]]]], j as [|j]; try lia; vm_compute; reflexivity.
Qed.
(** two different objectives that agree on the calls made (they differ far away) *)
Definition tr_J' : obj_t Qc := fun X Y U e => if sleb (q 1000) (at2 X 3 1) then q 0 else n_J X Y U e.
Lemma tr_agree (b : nmpc Qc) (L : list (ucall Qc)) :
  forallb (fun c => match c with UObj X _ _ _ => negb (sleb (q 1000) (at2 X 3 1)) | UOut _ _ _ => true | _ => false end) L = true ->
  forall c, In c L -> same_answer (with_obj n_J true b) (with_obj tr_J' true b) c.
Proof.
  intros Q c I. rewrite forallb_forall in Q. specialize (Q c I). destruct c as [X Y U e| | | |x u i]; try discriminate Q; cbn [same_answer].
  - change (Some (n_J X Y U e) = Some (tr_J' X Y U e)). unfold tr_J'. apply negb_true_iff in Q. now rewrite Q.
  - reflexivity.
Qed.
Lemma tr_calls_b : forallb (fun c => match c with UObj X _ _ _ => negb (sleb (q 1000) (at2 X 3 1)) | UOut _ _ _ => true | _ => false end)
  (eval_obj_calls nd true (with_obj n_J true trS) n_x0 tr_z) = true.
Proof. vm_compute. reflexivity. Qed.
Lemma tr_maps (b : nmpc Qc) : n_map (with_obj tr_J' true b) = n_map (with_obj n_J true b) /\ (n_out (with_obj n_J true b) = None <-> n_out (with_obj tr_J' true b) = None).
Proof. split; [reflexivity|]. cbn. tauto. Qed.
Example C69_instance_other_objective :
  (n_map (with_obj tr_J' true trS) = n_map (with_obj n_J true trS) /\ (n_out (with_obj n_J true trS) = None <-> n_out (with_obj tr_J' true trS) = None)) /\
  (forall c, In c (eval_obj_calls nd true (with_obj n_J true trS) n_x0 tr_z) -> same_answer (with_obj n_J true trS) (with_obj tr_J' true trS) c).
Proof. exact (conj (tr_maps trS) (tr_agree trS _ tr_calls_b)). Qed.
