(** Property C64: the constraints the linear controller hands to the solver are exact in IEEE double arithmetic. *)
From Coq Require Import Bool Arith ZArith List Lia QArith Qcanon Qpower.
From Coq Require Import Floats.SpecFloat.
From Verif Require Import Scalar Sums Mat Slice Csc CscProof Builder LMPC SpecLMPC SpecQP LMPCRef PropLMPC1 Wit Double PropDouble SpecExact Exact.
Import ListNotations.
Local Open Scope nat_scope.

(** the rational number a finite double denotes: +-m * 2^e (NaN and infinities, which denote none, are sent to 0 and excluded below) *)
Definition dval (x : dbl) : Qc :=
  match x with
  | S754_finite s m e => Q2Qc (inject_Z (if s then Zneg m else Zpos m) * Qpower 2 e)
  | _ => Q2Qc 0
  end.
(** a finite double *)
Definition fin_double (x : dbl) : Prop := is_fin x = true /\ is_double x = true.

Lemma Q2Qc_0 (a : Q) : Q2Qc a = Q2Qc 0 -> (a == 0)%Q.
Proof. intros H. apply Q2Qc_eq_iff in H. exact H. Qed.
Lemma dval_0 x : dval x = s0 <-> is_fin x = false \/ is_zero x = true.
Proof.
  destruct x as [s|s| |s m e]; cbn [dval is_fin is_zero is_nan is_inf negb andb]; split; auto; intros H.
  - exfalso. change (s0 : Qc) with (Q2Qc 0) in H. apply Q2Qc_0 in H. apply Qmult_integral in H. destruct H as [H|H].
    + destruct s; unfold Qeq in H; cbn in H; discriminate H.
    + revert H. apply Qpower_not_0. intros H. unfold Qeq in H. cbn in H. discriminate H.
  - destruct H as [H|H]; discriminate H.
Qed.
Lemma dval_zero x : is_zero x = true -> dval x = s0. Proof. intros H. apply dval_0. auto. Qed.
Lemma fin_zero x : is_zero x = true -> fin_double x. Proof. destruct x; intros H; try discriminate H. split; reflexivity. Qed.
Lemma dval_1 : dval s1 = s1. Proof. apply Qc_is_canon. vm_compute. reflexivity. Qed.
Lemma dval_opp x : dval (sopp x) = sopp (dval x).
Proof.
  destruct x as [s|s| |s m e]; try (apply Qc_is_canon; vm_compute; reflexivity).
  change (Q2Qc (inject_Z (if negb s then Zneg m else Zpos m) * Qpower 2 e) = Qcopp (Q2Qc (inject_Z (if s then Zneg m else Zpos m) * Qpower 2 e))).
  unfold Qcopp. apply Q2Qc_eq_iff. cbn [this Q2Qc]. rewrite Qred_correct. generalize (Qpower 2 e). intros a. destruct s; cbn [negb].
  - setoid_replace (inject_Z (Zpos m)) with (- inject_Z (Zneg m))%Q by reflexivity. ring.
  - setoid_replace (inject_Z (Zneg m)) with (- inject_Z (Zpos m))%Q by reflexivity. ring.
Qed.
Lemma fin_opp x : fin_double x -> fin_double (sopp x).
Proof. intros [A B]. destruct x as [s|s| |s m e]; split; assumption. Qed.
Lemma dsame_val x y : dsame x y -> dval x = dval y.
Proof. intros [->|[A B]]; [reflexivity|]. now rewrite (dval_zero x A), (dval_zero y B). Qed.
Lemma dsame_fin x y : dsame x y -> fin_double y -> fin_double x.
Proof. intros [->|[A B]] H; [exact H|now apply fin_zero]. Qed.
Lemma dmul_zero_fin_r x y : is_fin x = true -> is_zero y = true -> is_zero (smul x y) = true.
Proof. destruct x, y; cbn; congruence. Qed.
Lemma fin_val0 x : fin_double x -> dval x = s0 -> is_zero x = true.
Proof. intros [A _] H. apply dval_0 in H. destruct H as [H|H]; [congruence|exact H]. Qed.

Lemma V0 : fin_double s0 /\ dval s0 = s0. Proof. split; [split; reflexivity|reflexivity]. Qed.
Lemma V1 : fin_double s1 /\ dval s1 = s1. Proof. split; [split; reflexivity|exact dval_1]. Qed.
Lemma Vopp x : fin_double x -> fin_double (sopp x) /\ dval (sopp x) = sopp (dval x).
Proof. intros H. split; [now apply fin_opp|apply dval_opp]. Qed.
Lemma Vmul0 x y : fin_double x -> fin_double y -> dval x = s0 \/ dval y = s0 -> fin_double (smul x y) /\ dval (smul x y) = s0.
Proof.
  intros Hx Hy H. assert (Z : is_zero (smul x y) = true).
  { destruct H as [H|H]; [apply dmul_zero_fin; [now apply fin_val0|apply Hy]|apply dmul_zero_fin_r; [apply Hx|now apply fin_val0]]. }
  split; [now apply fin_zero|now apply dval_zero].
Qed.
Lemma Vmul1 y : fin_double y -> fin_double (smul s1 y) /\ dval (smul s1 y) = dval y.
Proof. intros H. rewrite dmul_one by apply H. auto. Qed.
Lemma Vadd0 x y : fin_double x -> fin_double y -> dval x = s0 \/ dval y = s0 -> fin_double (sadd x y) /\ dval (sadd x y) = sadd (dval x) (dval y).
Proof.
  intros Hx Hy [H|H].
  - pose proof (dadd_zero_l x y (fin_val0 x Hx H)) as D. split; [exact (dsame_fin _ _ D Hy)|]. rewrite (dsame_val _ _ D), H. symmetry. apply Qcplus_0_l.
  - pose proof (dadd_zero_r x y (fin_val0 y Hy H)) as D. split; [exact (dsame_fin _ _ D Hx)|]. rewrite (dsame_val _ _ D), H. symmetry. apply Qcplus_0_r.
Qed.
Lemma Vdrop x : kept x = false -> dval x = s0.
Proof.
  unfold kept, sabs. destruct x as [s|s| |s m e]; intros H; try reflexivity. exfalso. destruct s; vm_compute in H; discriminate H.
Qed.

(** C64 *)
Theorem C64_constraints_exact junk ejunk d (s : lmpc dbl) h p x0 u0 (z : nat -> Qc) :
  0 < d_ph d -> reached junk ejunk d s h -> g_plant (cfg_run h) = Some p -> sized x0 (d_nx d) 1 -> sized u0 (d_nu d) 1 ->
  (* every number that enters the constraints is a finite double *)
  constraints_good fin_double d p (cfg_run h) ->
  (forall j, j < d_nx d -> fin_double (vec x0 j)) -> (forall j, j < d_nu d -> fin_double (vec u0 j)) ->
  (* no measured disturbance acts: each product of an entry of Bd or Dd with a disturbance has a zero factor (the default) *)
  (forall k i j, k < d_ph d -> i < d_nx d -> j < d_ndu d -> is_zero (g_Bd (cfg_run h) i j) = true \/ is_zero (g_d (cfg_run h) k j) = true) ->
  (forall k i j, k < d_ph d -> i < d_ny d -> j < d_ndu d -> is_zero (g_Dd (cfg_run h) i j) = true \/ is_zero (g_d (cfg_run h) k j) = true) ->
  (* then the rows computed in double arithmetic, read as exact rational numbers, are the constraints of the problem the user's doubles denote *)
  qp_feasible (call_map dval (l_call d s x0 u0)) z <->
  admissible d (plant_map dval p) (cfg_map dval (cfg_run h)) (fun j => dval (vec x0 j)) (fun j => dval (vec u0 j)) (z_state d z) (z_cmd d z) /\
  z_tail d (fun j => dval (vec u0 j)) z.
Proof.
  intros P H Hp X U C GX GU HB HD. pose proof (reached_R _ _ _ _ _ P H) as HR.
  apply (exact_feasible dval fin_double V0 V1 Vopp Vmul0 Vmul1 Vadd0 Vdrop junk (fun _ _ => s0) ejunk (fun _ _ => PInf) d P s _ p x0 u0 HR Hp X U C GX GU).
  - intros k i j Hk Hi Hj. destruct (HB k i j Hk Hi Hj) as [E|E]; [left|right]; now apply dval_zero.
  - intros k i j Hk Hi Hj. destruct (HD k i j Hk Hi Hj) as [E|E]; [left|right]; now apply dval_zero.
Qed.

(** *** Instance: x+ = 0.1 x + u, |x| <= 0.3 from step 1 on the horizon of 2, output bound 0.7, previous command 0.1 (all rounded to doubles) *)
Definition tenth (n : Z) : dbl := sdiv (dz n) (dz 10).
Definition e_d : dims := mkDims 1 1 1 1 2 1.
Definition e_ops : list (lop dbl) :=
  [LSetModel (dvec [tenth 1]) (dvec [s1]) (dvec [s1]);
   LSetStateBounds (mconst 1 1 (Fin (tenth (-3)))) (mconst 1 1 (Fin (tenth 3))) (mkSlice (-1) (-1));
   LSetOutputBounds (mconst 1 1 MInf) (mconst 1 1 (Fin (tenth 7))) (mkSlice (-1) (-1));
   LSetDisturbances (dvec [tenth 1]) (dvec [s0])].
Definition play_s (ops : list (lop dbl)) : lmpc dbl := match l_play dj lw_ej e_d (l_init dj lw_ej e_d) ops with Ok (s, _) => s | UB => l_init dj lw_ej e_d end.
Definition play_h (ops : list (lop dbl)) : list (lop dbl * ret dbl) := match l_play dj lw_ej e_d (l_init dj lw_ej e_d) ops with Ok (_, h) => h | UB => [] end.
Lemma play_reached ops : Forall (op_sized e_d) ops -> Forall op_proper ops ->
  is_ok (l_play dj lw_ej e_d (l_init dj lw_ej e_d) ops) = true -> reached dj lw_ej e_d (play_s ops) (play_h ops).
Proof.
  intros H1 H2 H3. exists ops. refine (conj H1 (conj H2 _)). unfold play_s, play_h.
  destruct (l_play dj lw_ej e_d (l_init dj lw_ej e_d) ops) as [[s h]|]; [reflexivity|discriminate H3].
Qed.
Ltac d_sized := repeat (apply Forall_cons; [cbn [op_sized]; repeat split; reflexivity|]); apply Forall_nil.
Ltac d_proper := repeat (apply Forall_cons; [unfold op_proper; cbn [slice_of]; first [exact I|left; reflexivity]|]); apply Forall_nil.
Definition e_p : plant dbl := mkPlant (ent (dvec [tenth 1])) (ent (dvec [s1])) (ent (dvec [s1])).
Definition e_x0 : mat dbl := dvec [tenth 2].
Definition e_u0 : mat dbl := dvec [tenth 1].
(** x0 = 0.2, u(-1) = 0.1, x1 = 0.1 * 0.2 + u, u = 0.1, x2 = 0.1 x1 + 0.1, increments 0, 0 *)
Definition e_z (b : Qc) (k : nat) : Qc :=
  let a := dval (tenth 1) in let u := dval (tenth 1) in let x := dval (tenth 2) in
  let x1 := (a * x + u + b)%Qc in
  nth k [x; u; x1; u; (a * x1 + u + b)%Qc; u; Q2Qc 0; Q2Qc 0] (Q2Qc 0).
Definition feas_b (ops : list (lop dbl)) (z : nat -> Qc) : bool := feasible_b (call_map dval (l_call e_d (play_s ops) e_x0 e_u0)) z.
Lemma e_feasible : feas_b e_ops (e_z (Q2Qc 0)) = true. Proof. vm_compute. reflexivity. Qed.
Lemma e_infeasible : feas_b e_ops (e_z (Q2Qc (1 # 100000000000000000000))) = false. Proof. vm_compute. reflexivity. Qed.
Ltac small := repeat match goal with H : ?i < S ?n |- _ => destruct i as [|i]; [clear H|apply Nat.succ_lt_mono in H] | H : ?i < 0 |- _ => exfalso; exact (Nat.nlt_0_r _ H) end.
Example C64_instance :
  reached dj lw_ej e_d (play_s e_ops) (play_h e_ops) /\ g_plant (cfg_run (play_h e_ops)) = Some e_p /\
  constraints_good fin_double e_d e_p (cfg_run (play_h e_ops)) /\
  (forall k j, is_zero (g_d (cfg_run (play_h e_ops)) k j) = true) /\
  (* the exact trajectory is feasible; one that is off by 1e-20 is not *)
  qp_feasible (call_map dval (l_call e_d (play_s e_ops) e_x0 e_u0)) (e_z (Q2Qc 0)) /\
  ~ qp_feasible (call_map dval (l_call e_d (play_s e_ops) e_x0 e_u0)) (e_z (Q2Qc (1 # 100000000000000000000))).
Proof.
  refine (conj _ (conj _ (conj _ (conj _ (conj _ _))))).
  - apply play_reached; [d_sized|d_proper|vm_compute; reflexivity].
  - reflexivity.
  - split; cbn [e_d d_nx d_nu d_ny d_ndu d_ph]; unfold allm; intros; small; vm_compute; auto.
  - intros k j. reflexivity.
  - apply feasible_b_ok. exact e_feasible.
  - intros H. apply feasible_b_ok in H. pose proof e_infeasible as H'. unfold feas_b in H'. rewrite H' in H. discriminate H.
Qed.

(** FINDING: with a measured disturbance the rows are not exact: Bd * d is rounded (0.1 * 0.1 here), and a bound plus the offset Dd * d would be too.  The
    solver's problem is that of a slightly different plant. *)
Definition r_ops : list (lop dbl) := e_ops ++ [LSetExoMat (mconst 1 2 (tenth 1))].
Definition r_b : Qc := dval (smul (tenth 1) (tenth 1)).
Lemma r_feasible_b : feas_b r_ops (e_z r_b) = true. Proof. vm_compute. reflexivity. Qed.
Definition r_eq_b : bool := Qc_eq_bool (e_z r_b 2)
  (sadd (sadd (ssum 1 (fun l => smul (pl_A (plant_map dval e_p) 0 l) (z_state e_d (e_z r_b) 0 l))) (ssum 1 (fun l => smul (pl_B (plant_map dval e_p) 0 l) (z_cmd e_d (e_z r_b) 0 l))))
     (ssum 1 (fun l => smul (g_Bd (cfg_map dval (cfg_run (play_h r_ops))) 0 l) (g_d (cfg_map dval (cfg_run (play_h r_ops))) 0 l)))).
Lemma r_eq : r_eq_b = false. Proof. vm_compute. reflexivity. Qed.
Theorem C64_disturbance_not_exact_refuted :
  ~ (forall junk ejunk d (s : lmpc dbl) h p x0 u0 (z : nat -> Qc),
       0 < d_ph d -> reached junk ejunk d s h -> g_plant (cfg_run h) = Some p -> sized x0 (d_nx d) 1 -> sized u0 (d_nu d) 1 ->
       constraints_good fin_double d p (cfg_run h) ->
       (forall j, j < d_nx d -> fin_double (vec x0 j)) -> (forall j, j < d_nu d -> fin_double (vec u0 j)) ->
       qp_feasible (call_map dval (l_call d s x0 u0)) z ->
       admissible d (plant_map dval p) (cfg_map dval (cfg_run h)) (fun j => dval (vec x0 j)) (fun j => dval (vec u0 j)) (z_state d z) (z_cmd d z)).
Proof.
  intros H. assert (A : admissible e_d (plant_map dval e_p) (cfg_map dval (cfg_run (play_h r_ops))) (fun j => dval (vec e_x0 j)) (fun j => dval (vec e_u0 j))
                          (z_state e_d (e_z r_b)) (z_cmd e_d (e_z r_b))).
  { apply (H dj lw_ej e_d (play_s r_ops) (play_h r_ops) e_p e_x0 e_u0).
    - cbn. lia.
    - apply play_reached; [d_sized|d_proper|vm_compute; reflexivity].
    - reflexivity.
    - split; reflexivity.
    - split; reflexivity.
    - split; cbn [e_d d_nx d_nu d_ny d_ndu d_ph]; unfold allm; intros; small; vm_compute; auto.
    - cbn [e_d d_nx]. intros. small. vm_compute. auto.
    - cbn [e_d d_nu]. intros. small. vm_compute. auto.
    - apply feasible_b_ok. exact r_feasible_b. }
  destruct A as ((_ & T) & _). specialize (T 0 0 (le_n_S 0 1 (Nat.le_0_l 1)) (le_n 1)).
  assert (E : r_eq_b = true). { unfold r_eq_b. unfold Qc_eq_bool. destruct (Qc_eq_dec _ _) as [_|N]; [reflexivity|]. exfalso. exact (N T). }
  rewrite r_eq in E. discriminate E.
Qed.
Print Assumptions C64_constraints_exact. Print Assumptions C64_disturbance_not_exact_refuted. Print Assumptions C64_instance.
