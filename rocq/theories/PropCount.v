(** Property C78: the counters of the execution statistics are of type int. *)
From Coq Require Import Bool Arith ZArith List Lia Reals.
From Verif Require Import LMPC Slice Profiler.
Import ListNotations.
Local Open Scope nat_scope.

(** *** Model *)
Section Model.
  Variables big low : R.
  (** INT_MAX of a 32-bit int *)
  Definition int_top : Z := 2147483647.
  (** ++ on an int: undefined at INT_MAX *)
  Definition int_incr_ok (n : nat) : bool := (Z.of_nat n <? int_top)%Z.
  (** Profiler.hpp:166-177 solutionEnd: [solutionsStates[result.status]++] (173; the map's values are int, 117), then addSolutionTime (199-229) with
      [numberOfSolutions++] (202; int, 119).  All other int expressions (n - 1, n - 2, n / (n - 1) at 216-226) are in range when these are *)
  Definition p_step_int (p : prof) (e : pev) : outcome prof :=
    match e with
    | POptimize t0 t1 st => if int_incr_ok (s_states (p_stats p) st) && int_incr_ok (s_num (p_stats p)) then Ok (p_step big low p e) else UB
    | _ => Ok (p_step big low p e)
    end.
  Fixpoint p_runs_int (p : prof) (h : list pev) : outcome prof :=
    match h with [] => Ok p | e :: h => match p_step_int p e with UB => UB | Ok p' => p_runs_int p' h end end.
  Definition p_run_int (h : list pev) : outcome stats :=
    match p_runs_int (mkProf 0 (s_clear big low)) h with UB => UB | Ok p => Ok (p_stats p) end.
End Model.

(** *** Statements *)
Section Stmts.
  Variables big low : R.
  Notation start := (mkProf 0 (s_clear big low)).
  Lemma steps_ok p h p' : p_runs_int big low p h = Ok p' -> p' = fold_left (p_step big low) h p.
  Proof.
    revert p. induction h as [|e h IH]; intros p E; [now injection E|]. cbn [p_runs_int fold_left] in *.
    destruct (p_step_int big low p e) as [p1|] eqn:E1; [|discriminate E]. replace (p_step big low p e) with p1; [now apply IH|].
    destruct e; cbn [p_step_int] in E1; [destruct (_ && _)%bool; [|discriminate E1]| |]; now injection E1 as <-.
  Qed.
  Lemma runs_app p h1 h2 : p_runs_int big low p (h1 ++ h2) = match p_runs_int big low p h1 with UB => UB | Ok p' => p_runs_int big low p' h2 end.
  Proof. revert p. induction h1 as [|e h1 IH]; intros p; [reflexivity|]. cbn [p_runs_int app]. destruct (p_step_int big low p e); [apply IH|reflexivity]. Qed.
  Lemma stats_of h : p_stats (fold_left (p_step big low) h start) = of_list big low (since h).
  Proof. exact (run_of_list big low h). Qed.
  Lemma states_le l st : s_states (of_list big low l) st <= length l.
  Proof.
    induction l as [|[t st'] l IH]; [cbn; lia|]. cbn [of_list length]. cbn -[sqrt INR Nat.div st_eqb of_list]. destruct (st_eqb st st'); lia.
  Qed.
  Lemma last_step h e p : p_runs_int big low start h = Ok p ->
    p_step_int big low p e = (match e with POptimize _ _ _ => if (Z.of_nat (length (since h)) <? int_top)%Z then Ok (p_step big low p e) else UB | _ => Ok (p_step big low p e) end).
  Proof.
    intros E. pose proof (steps_ok _ _ _ E) as ->. destruct e as [t0 t1 st|t0|]; try reflexivity. unfold p_step_int. rewrite !stats_of. rewrite num_of. unfold int_incr_ok.
    pose proof (states_le (since h) st) as L. destruct (Z.ltb_spec (Z.of_nat (length (since h))) int_top); [|now rewrite andb_false_r].
    rewrite (proj2 (Z.ltb_lt (Z.of_nat (s_states (of_list big low (since h)) st)) int_top)) by lia. reflexivity.
  Qed.
  Lemma since_snoc h e : since (h ++ [e]) = since_step (since h) e.
  Proof. unfold since. now rewrite fold_left_app. Qed.

  (** C78: as long as no more than 2147483647 optimizations completed since the last reset, the statistics are those of C37 *)
  Theorem C78_statistics h : (forall h1 h2, h = h1 ++ h2 -> (Z.of_nat (length (since h1)) <= 2147483647)%Z) -> p_run_int big low h = Ok (p_run big low h).
  Proof.
    intros H. assert (K : exists p, p_runs_int big low start h = Ok p).
    { induction h as [|e h IH] using rev_ind; [now exists start|]. destruct IH as [p E]; [intros h1 h2 ->; apply (H h1 (h2 ++ [e])); now rewrite app_assoc|].
      rewrite runs_app, E. cbn [p_runs_int]. rewrite (last_step h e p E). destruct e as [t0 t1 st|t0|]; eauto.
      specialize (H (h ++ [POptimize t0 t1 st]) [] ltac:(now rewrite app_nil_r)). rewrite since_snoc in H. cbn [since_step length] in H.
      destruct (Z.ltb_spec (Z.of_nat (length (since h))) int_top); [eauto|unfold int_top in *; lia]. }
    destruct K as [p E]. unfold p_run_int, p_run. rewrite E. now rewrite (steps_ok _ _ _ E).
  Qed.
  (** ... and the optimization that completes as number 2147483648 is undefined behaviour *)
  Theorem C78_undefined_iff h : p_run_int big low h = UB <-> exists h1 h2, h = h1 ++ h2 /\ (2147483648 <= Z.of_nat (length (since h1)))%Z.
  Proof.
    split.
    - intros E. assert (N : ~ forall h1 h2, h = h1 ++ h2 -> (Z.of_nat (length (since h1)) <= 2147483647)%Z) by (intros K; rewrite C78_statistics in E by exact K; discriminate E).
      assert (D : forall n, (exists h1 h2, h = h1 ++ h2 /\ (2147483648 <= Z.of_nat (length (since h1)))%Z) \/ (forall h1 h2, length h1 < n -> h = h1 ++ h2 -> (Z.of_nat (length (since h1)) <= 2147483647)%Z)).
      { induction n as [|n [IH|IH]]; [right; intros; lia|now left|].
        destruct (Z_le_gt_dec (Z.of_nat (length (since (firstn n h)))) 2147483647) as [L|L].
        - right. intros h1 h2 Ln Eh. destruct (Nat.eq_dec (length h1) n) as [El|Nl]; [|apply (IH h1 h2); [lia|exact Eh]].
          rewrite Eh, firstn_app in L. replace (n - length h1) with 0 in L by lia. rewrite firstn_O, app_nil_r, <- El, firstn_all in L. exact L.
        - left. exists (firstn n h), (skipn n h). split; [symmetry; apply firstn_skipn|lia]. }
      destruct (D (S (length h))) as [K|K]; [exact K|]. exfalso. apply N. intros h1 h2 Eh. apply (K h1 h2); [|exact Eh]. rewrite Eh, app_length. lia.
    - intros (h1 & h2 & -> & L). unfold p_run_int. rewrite runs_app.
      assert (K : forall h1, (2147483648 <= Z.of_nat (length (since h1)))%Z -> p_runs_int big low start h1 = UB).
      { clear. induction h1 as [|e h1 IH] using rev_ind; intros L; [cbn in L; lia|]. rewrite runs_app. destruct (p_runs_int big low start h1) as [p|] eqn:E; [|reflexivity].
        cbn [p_runs_int]. rewrite (last_step h1 e p E). rewrite since_snoc in L. destruct e as [t0 t1 st|t0|]; cbn [since_step length] in L.
        - destruct (Z.ltb_spec (Z.of_nat (length (since h1))) int_top); [|reflexivity]. unfold int_top in *. lia.
        - discriminate (IH L).
        - lia. }
      rewrite K by exact L. reflexivity.
  Qed.
  (** resetting in time keeps the statistics defined for ever *)
  Theorem C78_reset_helps h h' : p_run_int big low h <> UB -> (forall h1 h2, h' = h1 ++ h2 -> (Z.of_nat (length (since h1)) <= 2147483647)%Z) -> p_run_int big low (h ++ PReset :: h') = Ok (p_run big low h').
  Proof.
    intros D H. rewrite C78_statistics.
    - f_equal. rewrite !run_of_list. f_equal. unfold since. rewrite fold_left_app. reflexivity.
    - intros h1 h2 E. assert (S : forall a b, since (a ++ PReset :: b) = since b) by (intros a b; unfold since; rewrite fold_left_app; reflexivity).
      assert (C : (exists t, h = h1 ++ t) \/ exists b, h1 = h ++ PReset :: b /\ h' = b ++ h2).
      { clear -E. revert h1 E. induction h as [|x h IH]; intros h1 E.
        - destruct h1 as [|y h1]; [left; exists []; reflexivity|]. right. injection E as <- E. exists h1. auto.
        - destruct h1 as [|y h1]; [left; now exists (x :: h)|]. injection E as <- E. destruct (IH h1 E) as [[t ->]|[b [-> ->]]]; [left; now exists t|right; exists b; auto]. }
      destruct C as [[t ->]|[b [-> ->]]].
      + destruct (Z_le_gt_dec (Z.of_nat (length (since h1))) 2147483647) as [L|L]; [exact L|]. exfalso. apply D. apply C78_undefined_iff. exists h1, t. split; [reflexivity|lia].
      + rewrite S. apply (H b h2). reflexivity.
  Qed.
  (** as intended - collecting statistics is always defined - refuted: 2147483648 ordinary optimizations and no reset (at 1 kHz: after less than 25 days) *)
  Theorem C78_always_defined_refuted : ~ (forall h, p_run_int big low h <> UB).
  Proof.
    intros H. assert (L : forall n, length (since (repeat (POptimize 0 1 SUCCESS) n)) = n).
    { intros n. unfold since. assert (K : forall l, length (fold_left since_step (repeat (POptimize 0 1 SUCCESS) n) l) = n + length l).
      { induction n as [|n IH]; intros l; [reflexivity|]. cbn [repeat fold_left]. rewrite IH. cbn [since_step length]. lia. }
      rewrite K. cbn. lia. }
    assert (E : exists n, Z.of_nat n = 2147483648%Z) by (exists (Z.to_nat 2147483648); apply Z2Nat.id; lia). destruct E as [n En].
    apply (H (repeat (POptimize 0 1 SUCCESS) n)). apply C78_undefined_iff. exists (repeat (POptimize 0 1 SUCCESS) n), []. rewrite app_nil_r, L. split; [reflexivity|lia].
  Qed.
End Stmts.
Example C78_instance : p_run_int 9 0 [POptimize 0 1 SUCCESS; PThrown 2; POptimize 3 5 ERROR; PReset; POptimize 6 7 SUCCESS] = Ok (p_run 9 0 [POptimize 6 7 SUCCESS]).
Proof.
  apply (C78_reset_helps 9 0 [POptimize 0 1 SUCCESS; PThrown 2; POptimize 3 5 ERROR] [POptimize 6 7 SUCCESS]).
  - intros E. apply C78_undefined_iff in E. destruct E as (h1 & h2 & Eh & L). assert (length (since h1) <= length h1).
    { clear. unfold since. assert (K : forall l, length (fold_left since_step h1 l) <= length h1 + length l) by (induction h1 as [|e h1 IH]; intros l; [reflexivity|]; cbn [fold_left length]; specialize (IH (since_step l e)); destruct e; cbn [since_step length] in *; lia).
      specialize (K []). cbn in K. lia. }
    apply (f_equal (@length _)) in Eh. rewrite app_length in Eh. cbn in Eh. lia.
  - intros h1 h2 Eh. assert (length (since h1) <= length h1).
    { clear. unfold since. assert (K : forall l, length (fold_left since_step h1 l) <= length h1 + length l) by (induction h1 as [|e h1 IH]; intros l; [reflexivity|]; cbn [fold_left length]; specialize (IH (since_step l e)); destruct e; cbn [since_step length] in *; lia).
      specialize (K []). cbn in K. lia. }
    apply (f_equal (@length _)) in Eh. rewrite app_length in Eh. cbn in Eh. lia.
Qed.
