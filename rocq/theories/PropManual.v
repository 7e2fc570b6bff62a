(** Property C83: the linear problem of the manual and the one the controller solves (vocabulary: SpecManual.v). *)
From Coq Require Import Bool Arith ZArith List Lia QArith Qcanon Ring Field.
From Verif Require Import Scalar Sums Mat Slice Csc CscProof Builder BuilderEnt LMPC SpecLMPC SpecQP LMPCRef PropLMPC1 Wit PropLMPC3 PropLMPC4 SpecManual.
Import ListNotations.
Local Open Scope nat_scope.

Section Manual.
  Context {F : Type} {SO : ScalarOps F} {SL : ScalarLaws F}.
  Add Field SFman : (@s_field F SO SL).
  Variables (junk : nat -> nat -> F) (ejunk : nat -> nat -> ext F) (d : dims).
  Notation nx := (d_nx d). Notation nu := (d_nu d). Notation ndu := (d_ndu d).
  Notation ny := (d_ny d). Notation ph := (d_ph d). Notation ch := (d_ch d).
  Notation reached := (reached junk ejunk d). Notation step := (l_step junk ejunk d).
  Implicit Types (m : manual F) (p : plant F) (c : cfg F).

  Lemma ma_output m p c x : configured d m p c -> output_disturbance_constant d m -> forall i j, i <= ph -> 0 < ph -> j < ny -> output d p c x i j = ma_y d m x i j.
  Proof.
    intros K D i j Hi P Hj. unfold output, ma_y. f_equal.
    - apply ssum_ext. intros l Hl. now rewrite (cn_C d m p c K).
    - transitivity (ssum ndu (fun l => ma_Dd m j l * ma_d m (stp i) l)%S).
      + apply ssum_ext. intros l Hl. rewrite (cn_Dd d m p c K), (cn_d d m p c K) by (assumption || (unfold stp; lia)). reflexivity.
      + destruct i as [|i]; [reflexivity|]. cbn [stp Nat.pred]. apply D; [lia|exact Hj].
  Qed.
  Lemma held_frozen (um : nat -> F) (u : nat -> nat -> F) : held d u <-> frozen d um u.
  Proof.
    split; intros H.
    - intros i j Hi Hp Hj. destruct i as [|i]; [lia|]. cbn [ucmd]. rewrite (H (S i) j) by assumption. destruct (Nat.eq_dec i ch) as [->|N]; [reflexivity|]. symmetry. apply H; (lia || exact Hj).
    - intros k j Hk Hp Hj. induction k as [|k IH]; [lia|]. rewrite (H (S k) j) by assumption. cbn [ucmd]. destruct (Nat.eq_dec k ch) as [->|N]; [reflexivity|]. apply IH; lia.
  Qed.
  Lemma dcmd_ma (um : nat -> F) (u : nat -> nat -> F) k j : dcmd um u k j = ma_du um u k j.
  Proof. destruct k; reflexivity. Qed.
  (** a problem of the manual without scalar constraint and with a constant disturbance on the outputs: the controller's problem is the manual's, with two
      more requirements - the last command is within the input bounds, and the commands after step ch are held - and with a cost that differs by a constant *)
  Theorem C83_same_problem m p c x0 um x u : 0 < ph -> configured d m p c -> no_scalar m -> output_disturbance_constant d m ->
    (admissible d p c x0 um x u <-> ma_feasible d m x0 x u /\ last_allowed d m um /\ held d u) /\
    tracking_cost d p c um x u = (ma_cost d m um x u + ssum nu (fun j => ma_Wu m j * sq (um j - ma_ur m j)))%S.
  Proof.
    intros P K [Sl Sh] D. assert (SP : forall i, i <= ph -> stp i < ph) by (intros; unfold stp; lia). split; [split|].
    - intros ((T0 & T) & Xo & Yo & Uo & Fr & _). refine (conj (conj (conj T0 _) (conj (conj _ (conj _ _)) _)) (conj _ (proj2 (held_frozen um u) Fr))).
      + intros k j Hk Hj. rewrite T by assumption. f_equal; [f_equal|]; apply ssum_ext; intros l Hl.
        * now rewrite (cn_A d m p c K).
        * now rewrite (cn_B d m p c K).
        * now rewrite (cn_Bd d m p c K), (cn_d d m p c K).
      + intros k j Hk Hj. destruct (cn_x d m p c K (stp k) j (SP k Hk) Hj) as [<- <-]. now apply Xo.
      + intros k j Hk Hj. destruct (cn_y d m p c K (stp k) j (SP k Hk) Hj) as [<- <-]. rewrite <- (ma_output m p c x K D) by assumption. now apply Yo.
      + intros k j Hk Hj. destruct (cn_u d m p c K (Nat.min (S k) (ph - 1)) j ltac:(lia) Hj) as [<- <-]. exact (Uo (S k) j Hk Hj).
      + intros k Hk. rewrite Sl, Sh. split; exact I.
      + intros j Hj. destruct (cn_u d m p c K (Nat.min 0 (ph - 1)) j ltac:(lia) Hj) as [<- <-]. exact (Uo 0 j ltac:(lia) Hj).
    - intros (((T0 & T) & (Xo & Yo & Uo) & _) & La & He). refine (conj (conj T0 _) (conj _ (conj _ (conj _ (conj (proj1 (held_frozen um u) He) _))))).
      + intros k j Hk Hj. rewrite T by assumption. f_equal; [f_equal|]; apply ssum_ext; intros l Hl.
        * now rewrite (cn_A d m p c K).
        * now rewrite (cn_B d m p c K).
        * now rewrite (cn_Bd d m p c K), (cn_d d m p c K).
      + intros k j Hk Hj. destruct (cn_x d m p c K (stp k) j (SP k Hk) Hj) as [-> ->]. now apply Xo.
      + intros k j Hk Hj. destruct (cn_y d m p c K (stp k) j (SP k Hk) Hj) as [-> ->]. rewrite (ma_output m p c x K D) by assumption. now apply Yo.
      + intros i j Hi Hj. destruct (cn_u d m p c K (Nat.min i (ph - 1)) j ltac:(lia) Hj) as [-> ->]. destruct i as [|i]; [now apply La|]. cbn [ucmd]. apply Uo; (lia || exact Hj).
      + intros i Hi. destruct (cn_s d m p c K (stp i) (SP i Hi)) as [-> ->]. rewrite Sl, Sh. split; exact I.
    - unfold tracking_cost, ma_cost.
      assert (E1 : ssum (ph + 1) (fun i => ssum ny (fun j => g_wy c (stp i) j * sq (output d p c x i j - g_yr c (stp i) j)))%S = ssum (ph + 1) (fun k => ssum ny (fun j => ma_Wy m j * sq (ma_y d m x k j - ma_yr m j)))%S).
      { apply ssum_ext. intros i Hi. apply ssum_ext. intros j Hj. rewrite (cn_wy d m p c K), (cn_yr d m p c K), (ma_output m p c x K D) by (assumption || lia || (apply SP; lia)). reflexivity. }
      assert (E2 : ssum (ph + 1) (fun i => ssum nu (fun j => g_wu c (stp i) j * sq (ucmd um u i j - g_ur c (stp i) j)))%S
                 = (ssum nu (fun j => ma_Wu m j * sq (um j - ma_ur m j)) + ssum ph (fun k => ssum nu (fun j => ma_Wu m j * sq (u k j - ma_ur m j))))%S).
      { replace (ph + 1) with (S ph) by lia. rewrite ssum_S_l. f_equal.
        - apply ssum_ext. intros j Hj. rewrite (cn_wu d m p c K), (cn_ur d m p c K) by (assumption || (apply SP; lia)). reflexivity.
        - apply ssum_ext. intros i Hi. apply ssum_ext. intros j Hj. rewrite (cn_wu d m p c K), (cn_ur d m p c K) by (assumption || (apply SP; lia)). reflexivity. }
      assert (E3 : ssum ph (fun i => ssum nu (fun j => g_wdu c i j * sq (dcmd um u i j - g_dur c (stp i) j)))%S = ssum ph (fun k => ssum nu (fun j => ma_Wdu m j * sq (ma_du um u k j - ma_dur m j)))%S).
      { apply ssum_ext. intros i Hi. apply ssum_ext. intros j Hj. rewrite (cn_wdu d m p c K), (cn_dur d m p c K), dcmd_ma by (assumption || (apply SP; lia)). reflexivity. }
      rewrite E1, E2, E3. ring.
  Qed.

  Implicit Types (s : lmpc F) (h : list (lop F * ret F)) (z : nat -> F).
  (** so, with the last command within the bounds, an optimum of the solver's problem is an optimum of the manual's among the command sequences that are held after
      step ch - among all of them if the control horizon reaches to the last but one step - and optimize() returns its first command and its states *)
  Theorem C83_optimum s h m p x0 u0 z : 0 < ph -> reached s h -> g_plant (cfg_run h) = Some p -> sized x0 nx 1 -> sized u0 nu 1 ->
    configured d m p (cfg_run h) -> no_scalar m -> output_disturbance_constant d m -> qp_optimal (l_call d s x0 u0) z ->
    ma_feasible d m (vec x0) (z_state d z) (z_cmd d z) /\ held d (z_cmd d z) /\
    (forall x u, ma_feasible d m (vec x0) x u -> held d u \/ ph <= ch + 1 -> (ma_cost d m (vec u0) (z_state d z) (z_cmd d z) <= ma_cost d m (vec u0) x u)%S) /\
    forall y code obj s1 r, step s (LOptimize x0 u0 (ASolution z y code obj)) = Ok (s1, RResult r) ->
      (forall j, j < nu -> vec (r_cmd r) j = z_cmd d z 0 j) /\ (forall i j, i <= ph -> j < nx -> ent (q_state (o_seq (l_o s1))) i j = z_state d z i j) /\
      (forall i j, i < ph -> j < nu -> ent (q_input (o_seq (l_o s1))) i j = z_cmd d z i j) /\ (forall i j, i <= ph -> j < ny -> ent (q_output (o_seq (l_o s1))) i j = ma_y d m (z_state d z) i j).
  Proof.
    intros P R Gp X U K Ns D O. destruct (C15_optimality_transfer junk ejunk d s h p x0 u0 z P R Gp X U O) as [A Op].
    destruct (proj1 (proj1 (C83_same_problem m p (cfg_run h) (vec x0) (vec u0) _ _ P K Ns D)) A) as (Fe & La & He).
    refine (conj Fe (conj He (conj _ _))).
    - intros x u Fx Hu. assert (Hh : held d u) by (destruct Hu as [Hu|Hu]; [exact Hu|intros k j Hk Hp; lia]).
      specialize (Op x u (proj2 (proj1 (C83_same_problem m p (cfg_run h) (vec x0) (vec u0) x u P K Ns D)) (conj Fx (conj La Hh)))).
      rewrite !(proj2 (C83_same_problem m p (cfg_run h) (vec x0) (vec u0) _ _ P K Ns D)) in Op. exact (proj1 (sle_add_cancel _ _ _) Op).
    - intros y code obj s1 r St. destruct (C14_sequences junk ejunk d s h p x0 u0 z y code obj s1 _ P R Gp X U St) as (res1 & Er1 & A1 & A2 & A3 & A4 & A5 & _). injection Er1 as <-.
      refine (conj _ (conj A1 (conj A2 _))).
      + intros j Hj. rewrite A5, A2 by (assumption || lia). reflexivity.
      + intros i j Hi Hj. rewrite A4, (ma_output m p (cfg_run h)) by assumption.
        unfold ma_y. f_equal. apply ssum_ext. intros l Hl. now rewrite A1.
  Qed.
  (** and every solution of the manual's problem (with held commands, and the last command within the bounds) is an optimum of the solver's problem *)
  Theorem C83_converse s h m p x0 u0 x u : 0 < ph -> reached s h -> g_plant (cfg_run h) = Some p -> sized x0 nx 1 -> sized u0 nu 1 ->
    configured d m p (cfg_run h) -> no_scalar m -> output_disturbance_constant d m -> last_allowed d m (vec u0) ->
    ma_feasible d m (vec x0) x u -> held d u -> (forall x' u', ma_feasible d m (vec x0) x' u' -> held d u' -> (ma_cost d m (vec u0) x u <= ma_cost d m (vec u0) x' u')%S) ->
    qp_optimal (l_call d s x0 u0) (z_of d (vec u0) x u).
  Proof.
    intros P R Gp X U K Ns D La Fx Hu Op. apply (C15_converse junk ejunk d s h p x0 u0 x u P R Gp X U).
    - apply (proj2 (proj1 (C83_same_problem m p (cfg_run h) (vec x0) (vec u0) x u P K Ns D))). auto.
    - intros x' u' A. destruct (proj1 (proj1 (C83_same_problem m p (cfg_run h) (vec x0) (vec u0) x' u' P K Ns D)) A) as (Fe & _ & He).
      rewrite !(proj2 (C83_same_problem m p (cfg_run h) (vec x0) (vec u0) _ _ P K Ns D)). apply sle_add_r. auto.
  Qed.
End Manual.

(** *** Instances: plant x' = x + u + b d, y = x + b d; weights 1, 0, 1; reference 3; the bounds are the same for all steps *)
Local Notation one := (qm 1 1 [[1%Z]]).
Definition m_of (b : Z) (xlo xhi ylo yhi ulo uhi : ext Qc) (slo shi : ext Qc) (us : Z) (dd : nat -> Qc) : manual Qc :=
  mkManual (fun _ _ => q 1) (fun _ _ => q 1) (fun _ _ => q 1) (fun _ _ => q b) (fun _ _ => q b) (fun _ => q 1) (fun _ => q 0) (fun _ => q 1) (fun _ => q 3) (fun _ => q 0) (fun _ => q 0)
    (fun _ => xlo) (fun _ => xhi) (fun _ => ylo) (fun _ => yhi) (fun _ => ulo) (fun _ => uhi) slo shi (fun _ => if (us =? 0)%Z then q 0 else q 1) (fun _ => q us) (fun k _ => dd k).
Definition m_base : list (lop Qc) := [ LSetModel one one one; LSetWeights (qv [1]%Z) (qv [0]%Z) (qv [1]%Z) slice_all; LSetRefs (qv [3]%Z) (qv [0]%Z) (qv [0]%Z) slice_all ].
Ltac conf := constructor; intros;
  repeat match goal with H : ?a < _ |- _ => is_var a; first [one_row a H | two_steps a H]; clear H end; try (split; vm_compute; reflexivity); vm_compute; reflexivity.

(** all bounds given, constant disturbance 1: x = 2, u = -1 is a rest point and the optimum *)
Definition m1_ops := m_base ++ [ LSetDisturbances one one; LSetStateBounds (qe [-9]%Z) (qe [9]%Z) slice_all; LSetOutputBounds (qe [-8]%Z) (qe [8]%Z) slice_all;
  LSetInputBounds (qe [-4]%Z) (qe [4]%Z) slice_all; LSetExo (qv [1]%Z) slice_all ].
Definition m1 := m_of 1 (Fin (q (-9))) (Fin (q 9)) (Fin (q (-8))) (Fin (q 8)) (Fin (q (-4))) (Fin (q 4)) MInf PInf 0 (fun _ => q 1).
Lemma m1_reached : reached qj qej ex_d (wS ex_d m1_ops) (wH ex_d m1_ops). Proof. w_reach. Qed.
Lemma m1_plant : g_plant (cfg_run (wH ex_d m1_ops)) = Some (wp (wH ex_d m1_ops)). Proof. apply w_plant. vm_compute. reflexivity. Qed.
Lemma m1_configured : configured ex_d m1 (wp (wH ex_d m1_ops)) (cfg_run (wH ex_d m1_ops)).
Proof. conf. Qed.
Lemma m1_rest : rest_point ex_d (wp (wH ex_d m1_ops)) (cfg_run (wH ex_d m1_ops)) (vec (qv [2]%Z)) (vec (qv [-1]%Z)).
Proof.
  refine (conj _ (conj _ (conj _ (conj _ (conj _ (conj _ (conj _ _))))))).
  - intros k j Hk Hj; two_steps k Hk; one_row j Hj; apply qc_eq; vm_compute; reflexivity.
  - intros k j Hk Hj; right; two_steps k Hk; one_row j Hj; apply qc_eq; vm_compute; reflexivity.
  - intros k j Hk Hj; left; two_steps k Hk; one_row j Hj; apply qc_eq; vm_compute; reflexivity.
  - intros k j Hk Hj; right; two_steps k Hk; one_row j Hj; apply qc_eq; vm_compute; reflexivity.
  - intros k j Hk Hj; two_steps k Hk; one_row j Hj; apply within_b_ok; vm_compute; reflexivity.
  - intros k j Hk Hj; two_steps k Hk; one_row j Hj; apply within_b_ok; vm_compute; reflexivity.
  - intros k j Hk Hj; two_steps k Hk; one_row j Hj; apply within_b_ok; vm_compute; reflexivity.
  - intros k Hk; two_steps k Hk; apply within_b_ok; vm_compute; reflexivity.
Qed.
Definition m1_z : nat -> Qc := z_of ex_d (vec (qv [-1]%Z)) (fun _ => vec (qv [2]%Z)) (fun _ => vec (qv [-1]%Z)).
Example C83_instance : 0 < d_ph ex_d /\ reached qj qej ex_d (wS ex_d m1_ops) (wH ex_d m1_ops) /\ g_plant (cfg_run (wH ex_d m1_ops)) = Some (wp (wH ex_d m1_ops)) /\
  configured ex_d m1 (wp (wH ex_d m1_ops)) (cfg_run (wH ex_d m1_ops)) /\ no_scalar m1 /\ output_disturbance_constant ex_d m1 /\ last_allowed ex_d m1 (vec (qv [-1]%Z)) /\
  qp_optimal (l_call ex_d (wS ex_d m1_ops) (qv [2]%Z) (qv [-1]%Z)) m1_z /\
  is_ok (l_step qj qej ex_d (wS ex_d m1_ops) (LOptimize (qv [2]%Z) (qv [-1]%Z) (ASolution m1_z (fun _ => q 0) 1 (Fin (q 0))))) = true.
Proof.
  refine (conj _ (conj m1_reached (conj m1_plant (conj m1_configured (conj (conj eq_refl eq_refl) (conj _ (conj _ (conj _ _)))))))).
  - cbn; lia.
  - intros k j _ _. reflexivity.
  - intros j Hj. one_row j Hj. apply within_b_ok. vm_compute. reflexivity.
  - refine (C55_rest_is_optimal qj qej ex_d (wS ex_d m1_ops) (wH ex_d m1_ops) (wp (wH ex_d m1_ops)) (qv [2]%Z) (qv [-1]%Z) ltac:(cbn; lia) m1_reached m1_plant ltac:(repeat split) ltac:(repeat split) _ m1_rest).
    refine (conj _ (conj _ _)); intros k j Hk Hj; two_steps k Hk; one_row j Hj; vm_compute; reflexivity.
  - vm_compute. reflexivity.
Qed.

(** *** and the differences are real *)
Ltac traj := refine (conj _ _); [intros j Hj; one_row j Hj; apply qc_eq; vm_compute; reflexivity | intros k j Hk Hj; two_steps k Hk; one_row j Hj; apply qc_eq; vm_compute; reflexivity].
Ltac withins := apply within_b_ok; vm_compute; reflexivity.
(** (1) the input bounds also apply to the last command handed to optimize(): outside them the solver's problem has no solution, whatever the manual's has *)
Definition m2_ops := m_base ++ [ LSetInputBounds (qe [-4]%Z) (qe [4]%Z) slice_all ].
Definition m2 := m_of 0 MInf PInf MInf PInf (Fin (q (-4))) (Fin (q 4)) MInf PInf 0 (fun _ => q 0).
Theorem C83_last_command_refuted :
  ~ (forall d s h m p (x0 u0 : mat Qc), 0 < d_ph d -> reached qj qej d s h -> g_plant (cfg_run h) = Some p -> sized x0 (d_nx d) 1 -> sized u0 (d_nu d) 1 ->
       configured d m p (cfg_run h) -> no_scalar m -> output_disturbance_constant d m ->
       (exists x u, ma_feasible d m (vec x0) x u /\ held d u) -> exists z, qp_feasible (l_call d s x0 u0) z).
Proof.
  intros H.
  assert (P : 0 < d_ph ex_d) by (cbn; lia).
  assert (R : reached qj qej ex_d (wS ex_d m2_ops) (wH ex_d m2_ops)) by w_reach.
  assert (G : g_plant (cfg_run (wH ex_d m2_ops)) = Some (wp (wH ex_d m2_ops))) by (apply w_plant; vm_compute; reflexivity).
  assert (K : configured ex_d m2 (wp (wH ex_d m2_ops)) (cfg_run (wH ex_d m2_ops))) by conf.
  assert (X : sized (qv [0]%Z) (d_nx ex_d) 1) by (repeat split). assert (U : sized (qv [5]%Z) (d_nu ex_d) 1) by (repeat split).
  destruct (H ex_d _ _ m2 _ (qv [0]%Z) (qv [5]%Z) P R G X U K (conj eq_refl eq_refl) ltac:(intros k j _ _; reflexivity)) as [z Hz].
  - exists (fun _ _ => q 0), (fun _ _ => q 0). refine (conj (conj _ (conj (conj _ (conj _ _)) _)) _).
    + traj.
    + intros k j _ _. split; exact I.
    + intros k j _ _. split; exact I.
    + intros k j Hk Hj. withins.
    + intros k Hk. split; exact I.
    + intros k j _ _ _. reflexivity.
  - destruct (proj1 (C01_feasible_iff_admissible qj qej ex_d _ _ _ _ _ z P R G X U) Hz) as [(_ & _ & _ & Uo & _) _].
    refine (within_dec_false _ _ _ _ (Uo 0 0 ltac:(cbn; lia) ltac:(cbn; lia))). vm_compute. reflexivity.
Qed.
(** (2) the scalar constraint pairs the state of a step with the command before it: a point the solver may return can violate the manual's *)
Definition m3_ops := m_base ++ [ LSetScalar (Fin (q (-20))) (Fin (q 1)) (qv [1]%Z) (qv [-1]%Z) slice_all ].
Definition m3 := m_of 0 MInf PInf MInf PInf MInf PInf (Fin (q (-20))) (Fin (q 1)) (-1) (fun _ => q 0).
Theorem C83_scalar_refuted :
  ~ (forall d s h m p (x0 u0 : mat Qc) z, 0 < d_ph d -> reached qj qej d s h -> g_plant (cfg_run h) = Some p -> sized x0 (d_nx d) 1 -> sized u0 (d_nu d) 1 ->
       configured d m p (cfg_run h) -> output_disturbance_constant d m -> qp_feasible (l_call d s x0 u0) z -> ma_scalar d m (z_state d z) (z_cmd d z)).
Proof.
  intros H.
  refine (within_dec_false _ _ _ _ (H ex_d (wS ex_d m3_ops) (wH ex_d m3_ops) m3 (wp (wH ex_d m3_ops)) (qv [0]%Z) (qv [0]%Z)
    (z_of ex_d (qf [0]%Z) (fun i _ => qf [0; -2; -2]%Z i) (fun i _ => qf [-2; 0]%Z i)) _ _ _ _ _ _ _ _ 0 _)).
  - vm_compute. reflexivity.
  - cbn; lia.
  - w_reach.
  - apply w_plant; vm_compute; reflexivity.
  - repeat split.
  - repeat split.
  - conf.
  - intros k j _ _. reflexivity.
  - apply feasible_b_ok. vm_compute. reflexivity.
  - cbn; lia.
Qed.
(** (3) the output of step k is computed with the disturbance of step k-1: with a disturbance that varies, the manual's output bounds can be violated *)
Definition m4_ops := m_base ++ [ LSetDisturbances one one; LSetOutputBounds (qe [-8]%Z) (qe [3]%Z) slice_all; LSetExoMat (qm 1 2 [[0; 1]]%Z) ].
Definition m4 := m_of 1 MInf PInf (Fin (q (-8))) (Fin (q 3)) MInf PInf MInf PInf 0 (qf [0; 1]%Z).
Theorem C83_output_disturbance_refuted :
  ~ (forall d s h m p (x0 u0 : mat Qc) z, 0 < d_ph d -> reached qj qej d s h -> g_plant (cfg_run h) = Some p -> sized x0 (d_nx d) 1 -> sized u0 (d_nu d) 1 ->
       configured d m p (cfg_run h) -> no_scalar m -> qp_feasible (l_call d s x0 u0) z -> ma_bounds d m (z_state d z) (z_cmd d z)).
Proof.
  intros H.
  refine (within_dec_false _ _ _ _ (proj1 (proj2 (H ex_d (wS ex_d m4_ops) (wH ex_d m4_ops) m4 (wp (wH ex_d m4_ops)) (qv [0]%Z) (qv [0]%Z)
    (z_of ex_d (qf [0]%Z) (fun i _ => qf [0; 3; 0]%Z i) (fun i _ => qf [3; -4]%Z i)) _ _ _ _ _ _ _ _)) 1 0 _ _)).
  - vm_compute. reflexivity.
  - cbn; lia.
  - w_reach.
  - apply w_plant; vm_compute; reflexivity.
  - repeat split.
  - repeat split.
  - conf.
  - split; reflexivity.
  - apply feasible_b_ok. vm_compute. reflexivity.
  - cbn; lia.
  - cbn; lia.
Qed.
Print Assumptions C83_same_problem. Print Assumptions C83_optimum. Print Assumptions C83_converse. Print Assumptions C83_last_command_refuted. Print Assumptions C83_scalar_refuted. Print Assumptions C83_output_disturbance_refuted.
