(** Property C79: printing the execution statistics ([std::cout << controller.getExecutionStats()], as all examples do). *)
From Coq Require Import Bool Arith ZArith Lia Reals Lra String List.
From Verif Require Import LMPC Profiler.
Import ListNotations.
Local Open Scope string_scope.
Local Open Scope list_scope.
Local Open Scope R_scope.

(** *** Model *)
(** what a stream is asked to print; a floating-point number with the format flags in force: std::fixed set or not, precision *)
Inductive item := Txt (s : string) | Num (fixed : bool) (prec : nat) (v : R) | Count (n : nat) | Endl.
(** of an output stream: the format flags (both stay in force until changed) and everything printed *)
Record ostm := mkOs { os_fixed : bool; os_prec : nat; os_out : list item }.
Definition put (i : item) (o : ostm) : ostm := mkOs (os_fixed o) (os_prec o) (os_out o ++ [i]).
Definition txt (s : string) : ostm -> ostm := put (Txt s).
Definition endl : ostm -> ostm := put Endl.
Definition num (v : R) (o : ostm) : ostm := put (Num (os_fixed o) (os_prec o) v) o.
Definition set_fixed (o : ostm) : ostm := mkOs true (os_prec o) (os_out o).
Definition set_prec (p : nat) (o : ostm) : ostm := mkOs (os_fixed o) p (os_out o).
(** Profiler.hpp:62-79 resultStatusToString (the default branch is for values outside the enumeration, which the library never produces: C17, C32) *)
Definition st_name (st : rstatus) : string :=
  match st with SUCCESS => "SUCCESS" | MAX_ITERATION => "MAX_ITERATION" | INFEASIBLE => "INFEASIBLE" | ERROR => "ERROR" | UNKNOWN => "UNKNOWN" end.
(** Profiler.hpp:117, 173: the std::map has a key for each status counted since the last clear; iteration is in the order of the enumeration (Types.hpp:87-94) *)
Definition all_statuses : list rstatus := [SUCCESS; MAX_ITERATION; INFEASIBLE; ERROR; UNKNOWN].
Definition s_keys (s : stats) : list rstatus := filter (fun st => (0 <? s_states s st)%nat) all_statuses.
(** Profiler.hpp:100-107 the loop over the map *)
Definition print_status (s : stats) (o : ostm) (st : rstatus) : ostm :=
  endl (txt "%" (num (INR (s_states s st) / INR (s_num s) * 100) (set_prec 2 (set_fixed (txt ": " (txt (st_name st) (txt "  - " o))))))).
(** Profiler.hpp:88-114 operator<< *)
Definition print_stats (s : stats) (o : ostm) : ostm :=
  let o := set_prec 6 (set_fixed o) in
  let o := endl (txt "Solution stats:" o) in
  let o := endl (txt " s" (num (s_min s) (txt "  - min: " o))) in
  let o := endl (txt " s" (num (s_max s) (txt "  - max: " o))) in
  let o := endl (txt " s" (num (s_avg s) (txt "  - avg: " o))) in
  let o := endl (txt " s" (num (s_std s) (txt "  - std: " o))) in
  let o := match s_keys s with [] => o | ks => fold_left (print_status s) ks (endl (txt "Solution status percentages:" o)) end in
  let o := endl (txt "Total time and number of solutions:" o) in
  let o := endl (txt " s" (num (s_tot s) (txt "  - tot: " o))) in
  endl (put (Count (s_num s)) (txt "  - num: " o)).

(** *** Specification *)
(** the values of the enumeration in order, with their names *)
Definition enumeration : list rstatus := [SUCCESS; MAX_ITERATION; INFEASIBLE; ERROR; UNKNOWN].
Definition label (st : rstatus) : string :=
  match st with SUCCESS => "SUCCESS" | MAX_ITERATION => "MAX_ITERATION" | INFEASIBLE => "INFEASIBLE" | ERROR => "ERROR" | UNKNOWN => "UNKNOWN" end.
(** one line of the report *)
Definition line (l : string) (p : nat) (v : R) (unit : string) : list item := [Txt l; Num true p v; Txt unit; Endl].
(** z / 10^p is v rounded to p decimals *)
Definition decimal (p : nat) (v : R) (z : Z) : Prop := Rabs (v * 10 ^ p - IZR z) <= 1 / 2.
(** the share, in percent, of the solutions since the last reset that ended with this status *)
Definition share (h : list pev) (st : rstatus) : R := 100 * INR (with_status st (since h)) / INR (List.length (since h)).
(** the statuses that occurred since the last reset *)
Definition occurred (h : list pev) : list rstatus := filter (fun st => (0 <? with_status st (since h))%nat) enumeration.
(** an optimization completed since the last reset *)
Definition some_solution (h : list pev) : bool := match since h with [] => false | _ => true end.
Definition report (h : list pev) (s : stats) : list item :=
  [Txt "Solution stats:"; Endl] ++ line "  - min: " 6 (s_min s) " s" ++ line "  - max: " 6 (s_max s) " s" ++ line "  - avg: " 6 (s_avg s) " s" ++ line "  - std: " 6 (s_std s) " s" ++
  (if some_solution h
   then [Txt "Solution status percentages:"; Endl] ++ concat (map (fun st => Txt "  - " :: Txt (label st) :: line ": " 2 (share h st) "%") (occurred h)) else []) ++
  [Txt "Total time and number of solutions:"; Endl] ++ line "  - tot: " (if some_solution h then 2 else 6) (s_tot s) " s" ++
  [Txt "  - num: "; Count (List.length (since h)); Endl].

(** *** Statements *)
Section Stmts.
  Variables big low : R.
  Notation run := (p_run big low).
  Lemma keys_occurred h : s_keys (run h) = occurred h.
  Proof. unfold s_keys, occurred. change all_statuses with enumeration. apply filter_ext. intros st. now rewrite C37_status_counters. Qed.
  Lemma num_since h : s_num (run h) = List.length (since h).
  Proof. rewrite run_of_list. apply num_of. Qed.
  Lemma occurred_in h st : In st (occurred h) <-> exists t, In (t, st) (since h).
  Proof.
    unfold occurred. rewrite filter_In. assert (A : In st enumeration) by (destruct st; cbn; tauto).
    rewrite Nat.ltb_lt. unfold with_status. split.
    - intros [_ L]. destruct (filter _ (since h)) as [|[t st'] l] eqn:E; [cbn in L; lia|]. exists t.
      assert (I : In (t, st') (filter (fun e => st_eqb (snd e) st) (since h))) by (rewrite E; now left). apply filter_In in I. destruct I as [I K]. cbn [snd] in K.
      replace st with st' by (destruct st', st; try reflexivity; discriminate K). exact I.
    - intros [t I]. split; [exact A|]. assert (J : In (t, st) (filter (fun e => st_eqb (snd e) st) (since h))) by (apply filter_In; split; [exact I|now destruct st]).
      destruct (filter _ (since h)); [destruct J|cbn; lia].
  Qed.
  Lemma occurred_nil h : occurred h = [] <-> since h = [].
  Proof.
    split; intros E; [|unfold occurred; rewrite E; reflexivity]. destruct (since h) as [|[t st] l] eqn:S; [reflexivity|]. exfalso.
    assert (I : In st (occurred h)) by (apply occurred_in; exists t; rewrite S; now left). rewrite E in I. destruct I.
  Qed.
  Lemma print_loop s ks : forall o, (0 < s_num s)%nat ->
    os_out (fold_left (print_status s) ks o) = os_out o ++ concat (map (fun st => Txt "  - " :: Txt (label st) :: line ": " 2 (100 * INR (s_states s st) / INR (s_num s)) "%") ks) /\
    (os_fixed (fold_left (print_status s) ks o), os_prec (fold_left (print_status s) ks o)) = match ks with [] => (os_fixed o, os_prec o) | _ => (true, 2%nat) end.
  Proof.
    induction ks as [|k ks IH]; intros o N; [cbn; now rewrite app_nil_r|]. cbn [fold_left map concat]. destruct (IH (print_status s o k) N) as [E1 E2]. split.
    - rewrite E1. cbn [print_status endl txt num put set_prec set_fixed os_out os_fixed os_prec]. change st_name with label. unfold line. rewrite <- !app_assoc. cbn [app].
      replace (INR (s_states s k) / INR (s_num s) * 100) with (100 * INR (s_states s k) / INR (s_num s)); [reflexivity|]. field. apply not_0_INR. lia.
    - rewrite E2. now destruct ks.
  Qed.
  (** the report, for every history and every stream; what was printed before is kept, and the stream is left in the fixed format with the precision last used *)
  Theorem C79_report h o : let o' := print_stats (run h) o in
    os_out o' = os_out o ++ report h (run h) /\ os_fixed o' = true /\ os_prec o' = (if some_solution h then 2 else 6)%nat.
  Proof.
    cbn zeta. unfold print_stats. cbn zeta. rewrite keys_occurred. unfold report, some_solution. destruct (since h) as [|e l] eqn:S.
    - rewrite (proj2 (occurred_nil h)) by exact S. cbn [endl txt num put set_prec set_fixed os_out os_fixed os_prec]. rewrite num_since, S. unfold line. rewrite <- !app_assoc. cbn [app List.length]. auto.
    - assert (N : occurred h <> []) by (intros K; apply occurred_nil in K; rewrite S in K; discriminate K).
      set (o1 := endl (txt "Solution status percentages:" _)).
      replace (match occurred h with [] => _ | _ :: _ => _ end) with (fold_left (print_status (run h)) (occurred h) o1) by (now destruct (occurred h)).
      destruct (print_loop (run h) (occurred h) o1) as [E1 E2]; [rewrite num_since, S; cbn; lia|].
      destruct (fold_left (print_status (run h)) (occurred h) o1) as [fx pr out]. cbn [os_out os_fixed os_prec] in E1, E2.
      assert (E3 : (fx, pr) = (true, 2%nat)) by (rewrite E2; now destruct (occurred h)). injection E3 as -> ->.
      cbn [endl txt num put set_prec set_fixed os_out os_fixed os_prec]. split; [|now split]. rewrite E1. subst o1. cbn [endl txt num put set_prec set_fixed os_out os_fixed os_prec].
      replace (map (fun st => Txt "  - " :: Txt (label st) :: line ": " 2 (100 * INR (s_states (run h) st) / INR (s_num (run h))) "%") (occurred h))
        with (map (fun st => Txt "  - " :: Txt (label st) :: line ": " 2 (share h st) "%") (occurred h)).
      2: { apply map_ext. intros st. unfold share. now rewrite C37_status_counters, num_since. }
      rewrite num_since, S. unfold line. rewrite <- !app_assoc. cbn [app]. reflexivity.
  Qed.
  (** each status that occurred has exactly one line, in the order of the enumeration; no other has *)
  Theorem C79_statuses h : NoDup (occurred h) /\ forall st, In st (occurred h) <-> exists t, In (t, st) (since h).
  Proof. split; [|apply occurred_in]. apply NoDup_filter. unfold enumeration. repeat constructor; cbn; intuition discriminate. Qed.
  (** the exact shares are positive, at most 100, and add up to 100 *)
  Theorem C79_shares h : since h <> [] -> (forall st, In st (occurred h) -> 0 < share h st <= 100) /\ rsum (map (share h) (occurred h)) = 100.
  Proof.
    intros N. assert (Np : (0 < List.length (since h))%nat) by (destruct (since h); [now elim N|cbn; lia]). assert (Nr : 0 < INR (List.length (since h))) by (apply lt_0_INR; lia). split.
    - intros st I. unfold occurred in I. apply filter_In in I. destruct I as [_ L]. apply Nat.ltb_lt in L. unfold share. split.
      + apply Rdiv_lt_0_compat; [|exact Nr]. apply lt_0_INR in L. lra.
      + apply Rmult_le_reg_r with (INR (List.length (since h))); [exact Nr|]. unfold Rdiv. rewrite Rmult_assoc, Rinv_l, Rmult_1_r by lra. apply Rmult_le_compat_l; [lra|]. apply le_INR.
        unfold with_status. clear. induction (since h) as [|e l IH]; [reflexivity|]. cbn [filter]. destruct (st_eqb _ _); cbn [List.length]; lia.
    - assert (Z : forall st, (0 <? with_status st (since h))%nat = false -> share h st = 0).
      { intros st E. apply Nat.ltb_ge in E. unfold share. replace (with_status st (since h)) with 0%nat by lia. unfold Rdiv. rewrite Rmult_0_r. apply Rmult_0_l. }
      assert (A : forall ks, rsum (map (share h) (filter (fun st => (0 <? with_status st (since h))%nat) ks)) = rsum (map (share h) ks)).
      { induction ks as [|k ks IH]; [reflexivity|]. cbn [filter map rsum]. destruct (0 <? with_status k (since h))%nat eqn:E; cbn [map rsum]; rewrite IH; [reflexivity|]. rewrite (Z k E). lra. }
      unfold occurred. rewrite A. unfold enumeration. cbn [map rsum].
      pose proof (C37_percentages 9 0 h) as P. unfold percentage in P. rewrite !C37_status_counters in P. rewrite run_of_list, num_of in P.
      transitivity (100 : R); [|reflexivity]. rewrite <- P; [unfold share; field; lra|]. unfold durations. intros E. apply N. destruct (since h); [reflexivity|discriminate E].
  Qed.
  (** as intended - every time of the report is shown with six decimals - refuted: the total time is not *)
  Theorem C79_six_decimals_refuted :
    ~ (forall h pre fx p v post, report h (run h) = pre ++ Num fx p v :: Txt " s" :: post -> p = 6%nat).
  Proof.
    intros H. pose (h := [POptimize 0 1 SUCCESS]). assert (E : exists pre post, report h (run h) = pre ++ Num true 2 (s_tot (run h)) :: Txt " s" :: post).
    { exists (firstn 29 (report h (run h))), (skipn 31 (report h (run h))). reflexivity. }
    destruct E as (pre & post & E). discriminate (H _ _ _ _ _ _ E).
  Qed.
  (** ... so a total of less than 5 ms is shown as zero *)
  Theorem C79_short_totals_vanish t z : 0 <= t < 5 / 1000 -> decimal 2 t z -> z = 0%Z.
  Proof.
    intros T D. unfold decimal in D. apply Rabs_def2b in D || idtac. assert (B : -1 < IZR z < 1). { revert D. cbn [pow]. unfold Rabs. destruct (Rcase_abs _); lra. }
    destruct B as [B1 B2]. apply lt_IZR in B1. apply lt_IZR in B2. lia.
  Qed.
  (** ... and before the first solution the extremes are the initial values *)
  Theorem C79_empty_report o : os_out (print_stats (run []) o) = os_out o ++
    [Txt "Solution stats:"; Endl] ++ line "  - min: " 6 big " s" ++ line "  - max: " 6 low " s" ++ line "  - avg: " 6 0 " s" ++ line "  - std: " 6 0 " s" ++
    [Txt "Total time and number of solutions:"; Endl] ++ line "  - tot: " 6 0 " s" ++ [Txt "  - num: "; Count 0; Endl].
  Proof. rewrite (proj1 (C79_report [] o)). reflexivity. Qed.
End Stmts.

Example C79_instance : exists h, since h <> [] /\ (forall st, In st (occurred h) <-> st = SUCCESS \/ st = ERROR) /\ share h SUCCESS = 200 / 3 /\ decimal 2 (share h SUCCESS) 6667.
Proof.
  exists [POptimize 0 1 SUCCESS; POptimize 3 5 ERROR; POptimize 6 7 SUCCESS]. split; [discriminate|]. split; [|split].
  - intros st. cbn. intuition congruence.
  - unfold share. cbn. field.
  - unfold decimal, share. cbn. unfold Rabs. destruct (Rcase_abs _); lra.
Qed.
