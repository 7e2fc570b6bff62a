(** Execution statistics (include/mpc/Profiler.hpp, used by include/mpc/IMPC.hpp); properties C37, C38.  Durations are exact reals. *)
From Coq Require Import Bool Arith ZArith List Lia Reals Lra.
From Verif Require Import LMPC.
Import ListNotations.
Local Open Scope R_scope.

(** *** Model *)
Section Model.
  (** duration<double>::max() and duration<double>::min() (the lowest value) *)
  Variables big low : R.
  (** Profiler.hpp:116-119 *)
  Record stats := mkStats { s_min : R; s_max : R; s_avg : R; s_tot : R; s_states : rstatus -> nat; s_std : R; s_num : nat }.
  (** Profiler.hpp:44-54 clear (also by the constructor, 28-31); int numberOfSolutions as nat: for its overflow after 2^31 - 1 solutions see PropCount.v (C78) *)
  Definition s_clear : stats := mkStats big low 0 0 (fun _ => 0%nat) 0 0.
  Definition st_eqb (a b : rstatus) : bool :=
    match a, b with SUCCESS, SUCCESS | MAX_ITERATION, MAX_ITERATION | INFEASIBLE, INFEASIBLE | ERROR, ERROR | UNKNOWN, UNKNOWN => true | _, _ => false end.
  (** Profiler.hpp:173 solutionsStates[result.status]++ *)
  Definition s_count (st : rstatus) (s : stats) : stats :=
    mkStats (s_min s) (s_max s) (s_avg s) (s_tot s) (fun x => if st_eqb x st then S (s_states s x) else s_states s x) (s_std s) (s_num s).
  (** Profiler.hpp:199-229 addSolutionTime; the factor n / (n - 1) is an integer division *)
  Definition s_add (t : R) (s : stats) : stats :=
    let tot := s_tot s + t in
    let n := S (s_num s) in
    let mn := if Rlt_dec t (s_min s) then t else s_min s in
    let mx := if Rlt_dec (s_max s) t then t else s_max s in
    let avg := (1 / INR n) * (t + INR (n - 1) * s_avg s) in
    let sd :=
      if (n =? 1)%nat then 0 else
        let residual := INR (n / (n - 1)) * (t - avg) ^ 2 in
        let old := IZR (Z.of_nat n - 2) * s_std s ^ 2 in
        sqrt ((old + residual) / INR (n - 1)) in
    mkStats mn mx avg tot (s_states s) sd n.
  (** Profiler.hpp:154-177: start and end read the clock; IMPC.hpp:149-166: every optimize that returns is one start and one end, one that
      throws is a start without an end; IMPC.hpp:216-219 resetStats (also IMPC.hpp:239 at construction) *)
  Inductive pev := POptimize (t0 t1 : R) (st : rstatus) | PThrown (t0 : R) | PReset.
  Record prof := mkProf { p_start : R; p_stats : stats }.
  Definition p_step (p : prof) (e : pev) : prof :=
    match e with
    | POptimize t0 t1 st => mkProf t0 (s_add (t1 - t0) (s_count st (p_stats p)))
    | PThrown t0 => mkProf t0 (p_stats p)
    | PReset => mkProf (p_start p) s_clear
    end.
  (** std::chrono::time_point is the epoch by default *)
  Definition p_run (h : list pev) : stats := p_stats (fold_left p_step h (mkProf 0 s_clear)).
End Model.

(** *** Specification *)
(** the solutions since the last reset, newest first *)
Definition since_step (l : list (R * rstatus)) (e : pev) : list (R * rstatus) :=
  match e with POptimize t0 t1 st => (t1 - t0, st) :: l | PThrown _ => l | PReset => [] end.
Definition since (h : list pev) : list (R * rstatus) := fold_left since_step h [].
Definition durations (h : list pev) : list R := map fst (since h).
Fixpoint rsum (l : list R) : R := match l with [] => 0 | x :: l => x + rsum l end.
Definition mean (l : list R) : R := rsum l / INR (length l).
(** sum of the squared deviations from the mean *)
Definition sqdev (l : list R) : R := rsum (map (fun x => (x - mean l) ^ 2) l).
Definition sample_std (l : list R) : R := sqrt (sqdev l / (INR (length l) - 1)).
Definition population_std (l : list R) : R := sqrt (sqdev l / INR (length l)).
Definition is_min (m : R) (l : list R) : Prop := In m l /\ forall x, In x l -> m <= x.
Definition is_max (m : R) (l : list R) : Prop := In m l /\ forall x, In x l -> x <= m.
Definition with_status (st : rstatus) (l : list (R * rstatus)) : nat := length (filter (fun e => st_eqb (snd e) st) l).

(** *** Refinement *)
Section Ref.
  Variables big low : R.
  Notation run := (p_run big low).
  (** stats as a function of the solutions *)
  Fixpoint of_list (l : list (R * rstatus)) : stats :=
    match l with [] => s_clear big low | (t, st) :: l => s_add t (s_count st (of_list l)) end.
  Lemma run_of_list h : run h = of_list (since h).
  Proof.
    unfold p_run, since. assert (K : forall (p : prof) l, p_stats p = of_list l -> p_stats (fold_left (p_step big low) h p) = of_list (fold_left since_step h l)).
    { induction h as [|e h IH]; intros p l E; cbn [fold_left]; [exact E|]. apply IH. destruct e; cbn; rewrite ?E; reflexivity. }
    apply (K (mkProf 0 (s_clear big low)) []). reflexivity.
  Qed.
  Lemma num_of l : s_num (of_list l) = length l.
  Proof. induction l as [|[t st] l IH]; [reflexivity|]. cbn -[sqrt INR Nat.div]. now rewrite IH. Qed.
  Lemma tot_of l : s_tot (of_list l) = rsum (map fst l).
  Proof. induction l as [|[t st] l IH]; [reflexivity|]. cbn -[sqrt INR Nat.div] in *. rewrite IH. lra. Qed.
  Lemma avg_of l : l <> [] -> s_avg (of_list l) = mean (map fst l).
  Proof.
    assert (K : forall l, INR (length l) * s_avg (of_list l) = rsum (map fst l)).
    { induction l0 as [|[t st] l0 IH]; [cbn; lra|]. cbn [of_list s_add s_avg s_count s_num]. rewrite num_of. cbn [length map fst rsum]. rewrite <- IH.
      replace (S (length l0) - 1)%nat with (length l0) by lia. assert (INR (S (length l0)) <> 0) by (apply not_0_INR; lia). field_simplify; [lra|assumption]. }
    intros N. unfold mean. rewrite <- K, map_length. assert (INR (length l) <> 0) by (apply not_0_INR; destruct l; [congruence|discriminate]). field. assumption.
  Qed.
  Lemma st_eqb_sym a b : st_eqb a b = st_eqb b a. Proof. destruct a, b; reflexivity. Qed.
  Lemma states_of l st : s_states (of_list l) st = with_status st l.
  Proof.
    induction l as [|[t s'] l IH]; [reflexivity|]. cbn [of_list s_add s_states s_count]. rewrite IH. unfold with_status. cbn [filter snd]. rewrite (st_eqb_sym s' st).
    destruct (st_eqb st s'); reflexivity.
  Qed.
  Lemma min_of l : (forall e, In e l -> fst e < big) -> l <> [] -> is_min (s_min (of_list l)) (map fst l).
  Proof.
    induction l as [|[t st] l IH]; intros Hb N; [congruence|]. cbn [of_list s_add s_min s_count map fst].
    destruct l as [|e l].
    { cbn [of_list s_clear s_min map]. destruct (Rlt_dec t big) as [L|L]; [|destruct L; exact (Hb (t, st) (or_introl eq_refl))]. split; [now left|]. intros x [<-|[]]. lra. }
    destruct (IH ltac:(intros; apply Hb; now right) ltac:(discriminate)) as [I1 I2]. set (m := s_min (of_list (e :: l))) in *. clearbody m.
    destruct (Rlt_dec t m) as [L|L]; split.
    - now left.
    - intros x [<-|Ix]; [lra|]. specialize (I2 x Ix). lra.
    - now right.
    - intros x [<-|Ix]; [lra|]. now apply I2.
  Qed.
  Lemma max_of l : (forall e, In e l -> low < fst e) -> l <> [] -> is_max (s_max (of_list l)) (map fst l).
  Proof.
    induction l as [|[t st] l IH]; intros Hb N; [congruence|]. cbn [of_list s_add s_max s_count map fst].
    destruct l as [|e l].
    { cbn [of_list s_clear s_max map]. destruct (Rlt_dec low t) as [L|L]; [|destruct L; exact (Hb (t, st) (or_introl eq_refl))]. split; [now left|]. intros x [<-|[]]. lra. }
    destruct (IH ltac:(intros; apply Hb; now right) ltac:(discriminate)) as [I1 I2]. set (m := s_max (of_list (e :: l))) in *. clearbody m.
    destruct (Rlt_dec m t) as [L|L]; split.
    - now left.
    - intros x [<-|Ix]; [lra|]. specialize (I2 x Ix). lra.
    - now right.
    - intros x [<-|Ix]; [lra|]. now apply I2.
  Qed.

  (** *** C37 *)
  Theorem C37_statistics h :
    let l := durations h in
    s_num (run h) = length l /\ s_tot (run h) = rsum l /\
    (l <> [] -> (forall x, In x l -> low < x < big) -> is_min (s_min (run h)) l /\ is_max (s_max (run h)) l /\ s_avg (run h) = mean l).
  Proof.
    cbn zeta. rewrite run_of_list. unfold durations. set (l := since h). rewrite num_of, tot_of, map_length. refine (conj eq_refl (conj eq_refl _)). intros N B.
    assert (N' : l <> []) by (intros E; rewrite E in N; now apply N). assert (B' : forall e, In e l -> low < fst e < big) by (intros e I; apply B; now apply in_map).
    refine (conj _ (conj _ _)); [apply min_of|apply max_of|now apply avg_of]; try assumption; intros e I; apply B', I.
  Qed.
  Theorem C37_status_counters h st : s_states (run h) st = with_status st (since h).
  Proof. rewrite run_of_list. apply states_of. Qed.
  Theorem C37_counters_sum h :
    (s_states (run h) SUCCESS + s_states (run h) MAX_ITERATION + s_states (run h) INFEASIBLE + s_states (run h) ERROR + s_states (run h) UNKNOWN = s_num (run h))%nat.
  Proof.
    rewrite run_of_list, num_of, !states_of. unfold with_status. induction (since h) as [|[t st] l IH]; [reflexivity|]. destruct st; cbn [filter snd st_eqb length] in *; lia.
  Qed.
  (** Profiler.hpp:101 the percentages printed for the statuses *)
  Definition percentage (s : stats) (st : rstatus) : R := INR (s_states s st) / INR (s_num s) * 100.
  Theorem C37_percentages h : durations h <> [] ->
    percentage (run h) SUCCESS + percentage (run h) MAX_ITERATION + percentage (run h) INFEASIBLE + percentage (run h) ERROR + percentage (run h) UNKNOWN = 100.
  Proof.
    intros N. pose proof (C37_counters_sum h) as E. apply (f_equal INR) in E. rewrite !plus_INR in E. unfold percentage.
    assert (INR (s_num (run h)) <> 0). { rewrite run_of_list, num_of. apply not_0_INR. unfold durations in N. destruct (since h); [now elim N|discriminate]. }
    rewrite <- E in *. field. assumption.
  Qed.
  (** no statistic before the first solution; a reset forgets everything *)
  Theorem C37_reset h : run (h ++ [PReset]) = s_clear big low.
  Proof. unfold p_run. rewrite fold_left_app. reflexivity. Qed.

  (** *** C38 *)
  Lemma rsum_dev (c : R) l : rsum (map (fun x => (x - c) ^ 2) l) = rsum (map (fun x => x ^ 2) l) - 2 * c * rsum l + INR (length l) * c ^ 2.
  Proof. induction l as [|x l IH]; [cbn; lra|]. cbn [map rsum length]. rewrite IH, S_INR. ring. Qed.
  Lemma sqdev_eq l : l <> [] -> sqdev l = rsum (map (fun x => x ^ 2) l) - rsum l ^ 2 / INR (length l).
  Proof.
    intros N. unfold sqdev. rewrite rsum_dev. unfold mean. assert (INR (length l) <> 0) by (apply not_0_INR; destruct l; [congruence|discriminate]). field. assumption.
  Qed.
  Lemma sqdev_cons x l : l <> [] -> sqdev (x :: l) = sqdev l + INR (S (length l)) / INR (length l) * (x - mean (x :: l)) ^ 2.
  Proof.
    intros N. rewrite !sqdev_eq by (assumption || discriminate). unfold mean. cbn [map rsum length].
    assert (A : INR (length l) <> 0) by (apply not_0_INR; destruct l; [congruence|discriminate]). assert (INR (S (length l)) <> 0) by (apply not_0_INR; lia).
    rewrite S_INR in *. field. split; assumption.
  Qed.
  (** what the code accumulates: the factor n/(n-1) is truncated to 2 for n = 2 and to 1 for n >= 3 *)
  Fixpoint truncated (l : list R) : R :=
    match l with
    | [] => 0
    | x :: l' => truncated l' + (match length l' with 0%nat => 0 | 1%nat => 2 | _ => 1 end) * (x - mean (x :: l')) ^ 2 end.
  Lemma truncated_pos l : 0 <= truncated l.
  Proof. induction l as [|x l IH]; cbn [truncated]; [lra|]. pose proof (pow2_ge_0 (x - mean (x :: l))). destruct (length l) as [|[|]]; lra. Qed.
  Lemma trunc_div n : ((2 <= n)%nat -> S n / n = 1)%nat /\ (S 1 / 1 = 2)%nat.
  Proof. split; [|reflexivity]. intros H. symmetry. apply (Nat.div_unique (S n) n 1 1); lia. Qed.
  Lemma std_of l : s_std (of_list l) = sqrt (truncated (map fst l) / (INR (length l) - 1)).
  Proof.
    destruct l as [|[t st] l]; [cbn; unfold Rdiv; rewrite Rmult_0_l, sqrt_0; reflexivity|].
    revert t st. induction l as [|[t' st'] l IH]; intros t st.
    { cbn. unfold Rdiv. rewrite Rmult_0_l, Rplus_0_l, Rmult_0_l, sqrt_0. reflexivity. }
    specialize (IH t' st'). remember ((t', st') :: l) as m eqn:Em. assert (Nm : m <> []) by (subst; discriminate).
    pose proof (avg_of ((t, st) :: m) ltac:(discriminate)) as Ea. cbn [map fst of_list s_add s_avg s_count s_num] in Ea |- *. cbn [truncated]. rewrite <- Ea. clear Ea.
    unfold s_add. cbn [s_std s_count s_num s_avg].
    rewrite IH, num_of. assert (Lm : (1 <= length m)%nat) by (subst; cbn; lia).
    destruct (Nat.eqb_spec (S (length m)) 1); [lia|]. cbn [map fst length truncated]. rewrite ?map_length, Nat.sub_succ, Nat.sub_0_r.
    f_equal. rewrite !S_INR. replace (INR (length m) + 1 - 1) with (INR (length m)) by ring. f_equal.
    assert (E1 : INR (S (length m) / length m) = match length m with 0%nat => 0 | 1%nat => 2 | _ => 1 end).
    { clear - Lm. destruct (length m) as [|[|k]]; [lia|cbn; lra|]. rewrite (proj1 (trunc_div (S (S k))) ltac:(lia)). reflexivity. }
    rewrite E1. f_equal. replace (IZR (Z.of_nat (S (length m)) - 2)) with (INR (length m) - 1) by (rewrite INR_IZR_INZ, <- minus_IZR; f_equal; lia).
    destruct (Nat.eq_dec (length m) 1) as [L1|L1].
    - destruct m as [|[a b] [|]]; try discriminate L1. cbn. lra.
    - assert (P : 0 < INR (length m) - 1) by (apply Rlt_Rminus; change 1 with (INR 1); apply lt_INR; lia).
      rewrite pow2_sqrt; [field; lra|]. apply Rmult_le_pos; [apply truncated_pos|]. left. now apply Rinv_0_lt_compat.
  Qed.
  (** (n - 1) sd^2 is between 2/3 and 1 times the sum of the squared deviations *)
  Lemma truncated_bounds l : 2 / 3 * sqdev l <= truncated l <= sqdev l.
  Proof.
    induction l as [|x l IH]; [cbn; lra|]. destruct l as [|y l].
    { unfold sqdev, mean. cbn. lra. }
    rewrite sqdev_cons by discriminate. cbn [truncated] in *. remember (y :: l) as m eqn:Em. pose proof (pow2_ge_0 (x - mean (x :: m))) as P. set (p := (x - mean (x :: m)) ^ 2) in *. clearbody p.
    assert (Lm : (1 <= length m)%nat) by (subst; cbn; lia). assert (F : 0 < INR (length m)) by (apply lt_0_INR; lia). rewrite S_INR.
    destruct (length m) as [|[|k]]; [lia|cbn; lra|].
    assert (G : 2 <= INR (S (S k))) by (change 2 with (INR 2); apply le_INR; lia). set (n := INR (S (S k))) in *. clearbody n.
    assert (E : (n + 1) / n = 1 + / n) by (field; lra). rewrite E.
    assert (I1 : 0 < / n) by (now apply Rinv_0_lt_compat). assert (I2 : / n <= / 2) by (apply Rinv_le_contravar; lra).
    pose proof (Rmult_le_compat_r p _ _ P I2). pose proof (Rmult_le_pos _ _ (Rlt_le _ _ I1) P). lra.
  Qed.
  Lemma truncated_exact l : truncated l = sqdev l <-> (forall x l1 l2, l = l1 ++ x :: l2 -> (2 <= length l2)%nat -> x = mean (x :: l2)).
  Proof.
    induction l as [|x l IH].
    { split; [|intros _; reflexivity]. intros _ x [|] l2 E; discriminate E. }
    destruct l as [|y l].
    { unfold sqdev, mean. cbn. split; [|intros _; lra]. intros _ z [|a [|]] l2 E L; try discriminate E. inversion E; subst. cbn in L. lia. }
    remember (y :: l) as m eqn:Em. rewrite sqdev_cons by (subst; discriminate). cbn [truncated]. pose proof (pow2_ge_0 (x - mean (x :: m))) as P.
    assert (Lm : (1 <= length m)%nat) by (subst; cbn; lia). destruct (truncated_bounds m) as [_ B].
    assert (Split : (forall x0 l1 l2, x :: m = l1 ++ x0 :: l2 -> (2 <= length l2)%nat -> x0 = mean (x0 :: l2)) <->
      ((2 <= length m)%nat -> x = mean (x :: m)) /\ (forall x0 l1 l2, m = l1 ++ x0 :: l2 -> (2 <= length l2)%nat -> x0 = mean (x0 :: l2))).
    { split.
      - intros H. split; [intros L; exact (H x [] m eq_refl L)|]. intros x0 l1 l2 E. apply (H x0 (x :: l1) l2). now rewrite E.
      - intros [H1 H2] x0 [|a l1] l2 E L; cbn in E; injection E as E1 E2; subst; [now apply H1|now apply (H2 x0 l1 l2)]. }
    rewrite Split, <- IH. clear Split IH. rewrite S_INR.
    destruct (Nat.eq_dec (length m) 1) as [L1|L1].
    - rewrite L1. cbn [INR]. split; [intros E; split; [lia|lra]|intros [_ E]; lra].
    - assert (C : match length m with 0%nat => 0 | 1%nat => 2 | _ => 1 end = 1) by (destruct (length m) as [|[|]]; [lia|lia|reflexivity]). rewrite C.
      assert (G : 2 <= INR (length m)) by (change 2 with (INR 2); apply le_INR; lia). assert (F : 0 < / INR (length m)) by (apply Rinv_0_lt_compat; lra).
      assert (E : (INR (length m) + 1) / INR (length m) = 1 + / INR (length m)) by (field; lra). rewrite E. clear E.
      split.
      + intros E. assert (Z : (x - mean (x :: m)) ^ 2 = 0).
        { pose proof (Rmult_le_pos _ _ (Rlt_le _ _ F) P). assert (K : / INR (length m) * (x - mean (x :: m)) ^ 2 = 0) by lra.
          apply Rmult_integral in K as [K|K]; [lra|exact K]. }
        split; [intros _|rewrite Z in E; lra]. assert (K : x - mean (x :: m) = 0) by (apply Rsqr_0_uniq; unfold Rsqr; lra). lra.
      + intros [E1 E2]. rewrite <- (E1 ltac:(lia)). lra.
  Qed.

  (** C38: the reported standard deviation *)
  Theorem C38_bounds h :
    let l := durations h in
    (2 <= length l)%nat -> sqrt (2 / 3) * sample_std l <= s_std (run h) <= sample_std l.
  Proof.
    cbn zeta. rewrite run_of_list, std_of. unfold durations. set (l := since h). rewrite map_length. intros L. unfold sample_std. rewrite map_length.
    assert (G : 2 <= INR (length l)) by (change 2 with (INR 2); now apply le_INR). assert (F : 0 < / (INR (length l) - 1)) by (apply Rinv_0_lt_compat; lra).
    destruct (truncated_bounds (map fst l)) as [B1 B2]. pose proof (truncated_pos (map fst l)). split.
    - rewrite <- sqrt_mult; [|lra|apply Rmult_le_pos; lra]. apply sqrt_le_1_alt. unfold Rdiv at 2. rewrite <- Rmult_assoc. apply Rmult_le_compat_r; lra.
    - apply sqrt_le_1_alt. apply Rmult_le_compat_r; lra.
  Qed.
  (** it is the sample standard deviation exactly if every duration from the third on equals the mean of the durations up to it *)
  Theorem C38_exact_iff h :
    let l := durations h in
    (2 <= length l)%nat -> (s_std (run h) = sample_std l <-> (forall x newer older, l = newer ++ x :: older -> (2 <= length older)%nat -> x = mean (x :: older))).
  Proof.
    cbn zeta. rewrite run_of_list, std_of. unfold durations. set (l := since h). rewrite map_length. intros L. unfold sample_std. rewrite map_length.
    assert (G : 2 <= INR (length l)) by (change 2 with (INR 2); now apply le_INR). assert (F : 0 < / (INR (length l) - 1)) by (apply Rinv_0_lt_compat; lra).
    destruct (truncated_bounds (map fst l)) as [B1 B2]. pose proof (truncated_pos (map fst l)). rewrite <- truncated_exact. split; intros E; [|now rewrite E].
    apply sqrt_inj in E; [|apply Rmult_le_pos; lra|apply Rmult_le_pos; lra]. unfold Rdiv in E. apply Rmult_eq_reg_r in E; [exact E|lra].
  Qed.
  Corollary C38_one_or_two h : (length (durations h) = 1%nat -> s_std (run h) = 0) /\ (length (durations h) = 2%nat -> s_std (run h) = sample_std (durations h)).
  Proof.
    split; intros L.
    - rewrite run_of_list, std_of. unfold durations in L. destruct (since h) as [|[a b] [|]]; try discriminate L. cbn. unfold Rdiv. rewrite Rmult_0_l, Rplus_0_l, Rmult_0_l. apply sqrt_0.
    - apply C38_exact_iff; [lia|]. intros x l1 l2 E L2. rewrite E, app_length in L. cbn in L. lia.
  Qed.
End Ref.

(** *** Instances *)
Definition p_three : list pev := [POptimize 5 9 ERROR; PReset; POptimize 0 0 SUCCESS; PThrown 7; POptimize 1 4 MAX_ITERATION; POptimize 2 2 SUCCESS].
Example C37_instance : durations p_three = [2 - 2; 4 - 1; 0 - 0] /\ (forall x, In x (durations p_three) -> -100 < x < 100).
Proof. split; [reflexivity|]. cbn. intros x [<-|[<-|[<-|[]]]]; lra. Qed.
(** C38 as intended *)
Theorem C38_intended_refuted :
  ~ (forall h, (2 <= length (durations h))%nat -> s_std (p_run 100 (-100) h) = sample_std (durations h) \/ s_std (p_run 100 (-100) h) = population_std (durations h)).
Proof.
  intros H. destruct (H p_three ltac:(cbn; lia)) as [E|E]; rewrite run_of_list, std_of in E; unfold sample_std, population_std in E; cbn -[sqrt pow] in E; unfold sqdev, mean in E; cbn -[sqrt pow] in E.
  - apply sqrt_inj in E; lra.
  - apply sqrt_inj in E; lra.
Qed.
