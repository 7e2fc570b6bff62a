(** Concrete programs with several controllers: the hypotheses of C59-C62 are met, and the intended behaviour of copies is refuted. *)
From Coq Require Import Bool Arith ZArith Lia String Reals QArith Qcanon List.
From Verif Require Import Scalar Sums Mat Slice Builder LMPC SpecLMPC NLMap NLFun NLMPC Logger Profiler Wit WitNL PropLMPC1 World SpecWorld PropWorld PropWorld2 PropWorld3.
Import ListNotations.
Local Open Scope nat_scope.

Definition c_le : lenv := mkLE false false 1%R 3%R.
Definition c_bad : lenv := mkLE false true 4%R 9%R.
Definition c_ne : nenv := mkNE ["Cost value: "%string] 5%R 6%R.
Definition big1 : R := 1000%R. Definition low1 : R := 0%R.
Notation run := (w_run big1 low1).
(** a linear and a non-linear controller, configured and used in turn *)
Definition p_ops : list (wop Qc) :=
  [WNewL ex_d qj qej; WNewN nd 2 1 false qj; WPrefix 0 "plant A"]
  ++ map (fun o => WL 0 o c_le) ex_ops ++ map (fun o => WN 1 o c_ne) n_ops
  ++ [WLevel 1 L_ALERT; WL 0 (LOptimize (qv [2]%Z) (qv [1]%Z) ANoSolution) c_le; WN 1 n_opt_op c_ne;
      WL 0 (LSetStateBounds (qe [0]%Z) (qe [1]%Z) (mkSlice 2 1)) c_le; WGetStats 0; WL 0 (LOptimize (qv [2]%Z) (qv [1]%Z) ANoSolution) c_bad; WGetResult 0; WDelete 0; WGetResult 1].
Definition ok (f : wfin Qc) : bool := match f with FOk _ _ => true | _ => false end.
Lemma ok_run f : ok f = true -> exists w vs, f = FOk w vs. Proof. destruct f; try discriminate. eauto. Qed.
Lemma p_ok : ok (run w_init p_ops) = true. Proof. vm_compute. reflexivity. Qed.
(** C59 and C60: the hypotheses hold of a program in which both controllers are configured, solve, are refused a call and are destroyed *)
Example C59_C60_instance : copy_free p_ops /\ Forall (fun op => writes op = false) p_ops /\ (exists w vs, run w_init p_ops = FOk w vs) /\
  length (alone 0 0 p_ops) = 17 /\ length (alone 1 0 p_ops) = 14.
Proof.
  refine (conj _ (conj _ (conj (ok_run _ p_ok) (conj _ _)))).
  - unfold copy_free, p_ops. repeat (apply Forall_app; split); repeat (constructor; [reflexivity|]); try constructor.
  - unfold p_ops. repeat (apply Forall_app; split); repeat (constructor; [reflexivity|]); try constructor.
  - vm_compute. reflexivity.
  - vm_compute. reflexivity.
Qed.
(** and an execution that goes wrong because of one of them: linear parameters given to the non-linear controller *)
Definition p_ub : list (wop Qc) := p_ops ++ [WN 1 (NSetParams NPLinear) c_ne].
Definition is_ub (f : wfin Qc) : bool := match f with FUB => true | _ => false end.
Lemma is_ub_run f : is_ub f = true -> f = FUB. Proof. destruct f; try discriminate. reflexivity. Qed.
Example C59_undefined_instance : run w_init p_ub = FUB /\ run w_init (alone 1 0 p_ub) = FUB /\ exists w vs, run w_init (alone 0 0 p_ub) = FOk w vs.
Proof. refine (conj _ (conj _ _)); [apply is_ub_run|apply is_ub_run|apply ok_run]; vm_compute; reflexivity. Qed.
(** what the two controllers wrote: the prefix set on the first, the level set on the second *)
Definition texts (f : wfin Qc) : string := match f with FOk w _ => text 0 (w_out w) | _ => ""%string end.
Example C62_instance : texts (run w_init p_ops) = "[MPC++] Mapping assignment done[MPC++ plant A] The prediction horizon slice is out of bounds[MPC++ plant A] Unable to solve "%string /\
  level_of p_ops = L_ALERT /\ prefix_of p_ops = "plant A"%string.
Proof. vm_compute. auto. Qed.

(** C61: a copy is not an independent controller *)
Definition y_cfg : list (wop Qc) := WNewN nd 2 1 false qj :: map (fun o => WN 0 o c_ne) n_ops ++ [WCopy 0].
Definition y_use : list (wop Qc) := [WGetResult 0; WN 1 n_opt_op c_ne; WGetResult 0].
Definition codes (f : wfin Qc) : list (option Z) := match f with FOk _ vs => map (fun v => match v with VResult r => Some (r_code r) | _ => None end) vs | _ => [] end.
Lemma y_codes : skipn 12 (codes (run w_init (y_cfg ++ y_use))) = [Some 0%Z; None; Some 1%Z]. Proof. vm_compute. reflexivity. Qed.
Lemma y_ok : ok (run w_init (y_cfg ++ y_use)) = true. Proof. vm_compute. reflexivity. Qed.
Theorem C61_copy_independent_refuted :
  ~ (forall cfg use w vs, run w_init (cfg ++ [WCopy 0] ++ [WGetResult 0] ++ use ++ [WGetResult 0]) = FOk w vs -> length (filter constructs cfg) = 1 -> Forall (fun op => concerns 1 2 op = true) use ->
       exists r, nth_error vs (length cfg + 1) = Some r /\ nth_error vs (length cfg + 2 + length use) = Some r).
Proof.
  intros H. destruct (ok_run _ y_ok) as (w & vs & E).
  assert (C : skipn 12 (map (fun v => match v with VResult r => Some (r_code r) | _ => None end) vs) = [Some 0%Z; None; Some 1%Z]) by (pose proof y_codes as Y; rewrite E in Y; exact Y).
  destruct (H (WNewN nd 2 1 false qj :: map (fun o => WN 0 o c_ne) n_ops) [WN 1 n_opt_op c_ne] w vs) as (r & A & B).
  - rewrite <- E. apply f_equal. reflexivity.
  - reflexivity.
  - repeat constructor.
  - change (nth_error vs 12 = Some r) in A. change (nth_error vs 14 = Some r) in B.
    apply (map_nth_error (fun v => match v with VResult r => Some (r_code r) | _ => None end)) in A, B.
    rewrite <- (firstn_skipn 12 (map _ vs)), C in A, B.
    assert (L : length (firstn 12 (map (fun v : wret Qc => match v with VResult r => Some (r_code r) | _ => None end) vs)) = 12).
    { apply firstn_length_le. destruct (Nat.le_gt_cases 12 (length (map (fun v : wret Qc => match v with VResult r => Some (r_code r) | _ => None end) vs))) as [G|G]; [exact G|]. rewrite skipn_all2 in C by lia. discriminate C. }
    rewrite nth_error_app2 in A, B by (rewrite L; lia). rewrite L in A, B. cbn in A, B. congruence.
Qed.
(** the hypotheses of the theorems about copies: both uses run, and deleting either leaves the other unusable *)
Example C61_instance : (exists w vs, run w_init (y_cfg ++ y_use) = FOk w vs) /\ Forall (plain_use 0) y_use /\ Forall (plain_use 1) y_use /\
  (exists w vs, run w_init (y_cfg ++ y_use ++ [WDelete 0; WGetStats 1]) = FOk w vs) /\ run w_init (y_cfg ++ y_use ++ [WDelete 0; WGetResult 1]) = FUB /\ run w_init (y_cfg ++ y_use ++ [WDelete 0; WDelete 1]) = FUB.
Proof.
  refine (conj _ (conj _ (conj _ (conj _ (conj _ _))))); [apply ok_run; vm_compute; reflexivity| | |apply ok_run; vm_compute; reflexivity|apply is_ub_run; vm_compute; reflexivity|apply is_ub_run; vm_compute; reflexivity];
    repeat (constructor; [split; [reflexivity|split; discriminate]|]); constructor.
Qed.
(** assignment between two non-linear controllers, and destruction of a linear one *)
Example C61_leak_instance : copy_free [WNewN nd 2 1 false qj; WNewN nd 2 1 false qj; WNewL ex_d qj qej] /\
  (exists w vs, run w_init ([WNewN nd 2 1 false qj; WNewN nd 2 1 false qj; WNewL ex_d qj qej] ++ [WAssign 0 1; WDelete 2]) = FOk w vs).
Proof. split; [repeat constructor|apply ok_run; vm_compute; reflexivity]. Qed.

(** C62: a refused call that answers false, at a level that admits errors, and writes nothing *)
Definition z_ops : list (wop Qc) := [WNewN nd 2 1 false qj; WLevel 0 L_ALERT].
Lemma z_ok : ok (run w_init z_ops) = true. Proof. vm_compute. reflexivity. Qed.
Lemma z_ok2 : ok (run w_init (z_ops ++ [WN 0 (NSetDynamics n_f (q 0) false) c_ne])) = true. Proof. vm_compute. reflexivity. Qed.
Theorem C62_every_refusal_reported_refuted :
  ~ (forall ops w vs i o e w1, run w_init ops = FOk w vs -> level_of ops = L_ALERT -> w_step big1 low1 w (WN i o e) = WOk w1 (VRet (RBool false)) -> exists x xs, written ops w w1 (x :: xs)).
Proof.
  intros H. destruct (ok_run _ z_ok) as (w & vs & E).
  assert (R1 : exists w1, w_step big1 low1 w (WN 0 (NSetDynamics n_f (q 0) false) c_ne) = WOk w1 (VRet (RBool false))).
  { pose proof z_ok2 as O. rewrite (run_app big1 low1), E in O. cbn [w_run] in O.
    destruct (w_step big1 low1 w (WN 0 (NSetDynamics n_f (q 0) false) c_ne)) as [| |w1 v] eqn:Es; try discriminate O. exists w1. f_equal.
    cbn [w_step] in Es. destruct (ctl w 0) as [[k [[|d ni ne dyn junk s] b]]|]; try discriminate Es. destruct (_ && _); [discriminate Es|]. cbn [n_step] in Es. apply speak_inv in Es. tauto. }
  destruct R1 as [w1 E1]. destruct (H z_ops w vs 0 _ c_ne w1 E eq_refl E1) as (x & xs & new & A & B & _).
  destruct (C62_nonlinear_setters big1 low1 z_ops w vs 0 _ c_ne w1 _ E E1 ltac:(discriminate)) as (_ & _ & K & _). destruct (K ltac:(unfold refused_dynamics; eauto)) as [_ K2]. rewrite (K2 ltac:(discriminate)) in A.
  assert (N : new = []) by (apply (app_inv_head (w_out w)); rewrite app_nil_r; congruence). rewrite N in B. cbn [text lines] in B. unfold header in B. destruct (String.eqb (prefix_of z_ops) ""); discriminate B.
Qed.
