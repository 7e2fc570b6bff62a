(** Property C93: what raising a weight of the linear controller does to its plan. *)
From Coq Require Import Bool Arith ZArith List Lia QArith Qcanon Ring Field.
From Verif Require Import Scalar Sums Mat Slice Csc CscProof Builder BuilderEnt LMPC SpecLMPC SpecQP SpecCert LMPCRef LQP LRows LUniq Wit PropLMPC1 PropLMPC2 PropLMPC3 PropLMPC4 PropLMPC5 SpecLoop PropLoop SpecMeta PropMeta SpecStab PropStab SpecTune.
Import ListNotations.
Local Open Scope nat_scope.

Section Tune.
  Context {F : Type} {SO : ScalarOps F} {SL : ScalarLaws F}.
  Add Field SFtune : (@s_field F SO SL).
  Variables (junk : nat -> nat -> F) (ejunk : nat -> nat -> ext F) (d : dims).
  Notation nx := (d_nx d). Notation nu := (d_nu d). Notation ndu := (d_ndu d).
  Notation ny := (d_ny d). Notation ph := (d_ph d).
  Notation reached := (SpecLMPC.reached junk ejunk d).
  Implicit Types (s : lmpc F) (h : list (lop F * ret F)) (p : plant F) (z : nat -> F) (c : cfg F).

  Definition with_weights c c' : cfg F := set_weights c (g_wy c') (g_wu c') (g_wdu c').
  Lemma retuned_data k a c c' : retuned d k a c c' -> same_data d (with_weights c c') c'.
  Proof. intros R. refine (conj (rt_model _ _ _ _ _ R) (conj _ (conj (rt_mult _ _ _ _ _ R) (conj (rt_refs _ _ _ _ _ R) (conj (rt_dist _ _ _ _ _ R) (conj (rt_xb _ _ _ _ _ R) (conj (rt_yb _ _ _ _ _ R) (conj (rt_ub _ _ _ _ _ R) (rt_sb _ _ _ _ _ R))))))))). repeat split. Qed.
  Lemma retuned_admissible k a p p' c c' x0 um x u : 0 < ph -> g_plant c = Some p -> g_plant c' = Some p' -> retuned d k a c c' -> (admissible d p c x0 um x u <-> admissible d p' c' x0 um x u).
  Proof.
    intros P G G' R. split; intros A.
    - exact (relaxed_admissible d p p' (with_weights c c') c' x0 um x u P G G' (same_relaxed d _ _ (retuned_data _ _ _ _ R)) A).
    - assert (S' : same_data d c' (with_weights c c')).
      { destruct (retuned_data _ _ _ _ R) as ((M1 & M2 & M3) & _ & (N1 & N2) & (R1 & R2 & R3) & D & (X1 & X2) & (Y1 & Y2) & (U1 & U2) & (S1 & S2)).
        unfold same_data, same_model, same_weights, same_mult, same_refs, same_dist, same_xb, same_yb, same_ub, same_sb.
        repeat apply conj; try (intros i j Hi Hj; symmetry; auto; fail); try (intros i Hi; symmetry; auto; fail); try (intros i j Hi Hj; reflexivity).
        unfold same_plant in *. cbn [g_plant with_weights set_weights] in *. destruct (g_plant c), (g_plant c'); try contradiction; try exact I.
        destruct M1 as (H1 & H2 & H3). refine (conj _ (conj _ _)); intros i j Hi Hj; symmetry; auto. }
      exact (relaxed_admissible d p' p c' (with_weights c c') x0 um x u P G' G (same_relaxed d _ _ S') A).
  Qed.
  Lemma share_sum p c um x u : tracking_cost d p c um x u = (share d OnOutputs p c um x u + share d OnCommands p c um x u + share d OnIncrements p c um x u)%S.
  Proof. reflexivity. Qed.
  Lemma share_scaled k a p c c' um x u : 0 < ph -> retuned d k a c c' -> forall q, share d q p (with_weights c c') um x u =
    match k, q with OnOutputs, OnOutputs | OnCommands, OnCommands | OnIncrements, OnIncrements => (a * share d q p c um x u)%S | _, _ => share d q p c um x u end.
  Proof.
    intros P R. pose proof (rt_wy _ _ _ _ _ R) as WY. pose proof (rt_wu _ _ _ _ _ R) as WU. pose proof (rt_wdu _ _ _ _ _ R) as WD.
    assert (SP : forall i, i < ph + 1 -> stp i < ph) by (intros; unfold stp; lia).
    assert (SX : forall n m (b : bool) (w w' v : nat -> nat -> F), (forall i j, i < n -> j < m -> w' i j = if b then (a * w i j)%S else w i j) ->
      ssum n (fun i => ssum m (fun j => (w' i j * v i j)%S)) = (if b then (a * ssum n (fun i => ssum m (fun j => w i j * v i j)))%S else ssum n (fun i => ssum m (fun j => (w i j * v i j)%S)))).
    { intros n m b w w' v E. destruct b; [rewrite <- ssum_mul_l|]; apply ssum_ext; intros i Hi; [rewrite <- ssum_mul_l|]; apply ssum_ext; intros j Hj; rewrite E by assumption; [ring|reflexivity]. }
    intros q. destruct q; unfold share; cbn [g_wy g_wu g_wdu g_yr g_ur g_dur with_weights set_weights].
    - pose proof (fun (b : bool) (W : forall i j, i < ph -> j < ny -> g_wy c' i j = if b then (a * g_wy c i j)%S else g_wy c i j) => SX (ph + 1) ny b (fun i j => g_wy c (stp i) j) (fun i j => g_wy c' (stp i) j) (fun i j => sq (output d p c x i j - g_yr c (stp i) j))%S (fun i j Hi Hj => W _ _ (SP i Hi) Hj)) as E.
      destruct k; [exact (E true WY)|exact (E false WY)|exact (E false WY)].
    - pose proof (fun (b : bool) (W : forall i j, i < ph -> j < nu -> g_wu c' i j = if b then (a * g_wu c i j)%S else g_wu c i j) => SX (ph + 1) nu b (fun i j => g_wu c (stp i) j) (fun i j => g_wu c' (stp i) j) (fun i j => sq (ucmd um u i j - g_ur c (stp i) j))%S (fun i j Hi Hj => W _ _ (SP i Hi) Hj)) as E.
      destruct k; [exact (E false WU)|exact (E true WU)|exact (E false WU)].
    - pose proof (fun b W => SX ph nu b (g_wdu c) (g_wdu c') (fun i j => sq (dcmd um u i j - g_dur c (stp i) j))%S W) as E.
      destruct k; [exact (E false WD)|exact (E false WD)|exact (E true WD)].
  Qed.
  (** two linear functions of the weight cross the right way *)
  Lemma tune_ineq (a o e o' e' : F) : (s1 < a)%S -> (o + e <= o' + e')%S -> (o' + a * e' <= o + a * e)%S -> (e' <= e)%S /\ (o <= o')%S.
  Proof.
    intros La A B.
    assert (E : (e' <= e)%S).
    { pose proof (sle_add _ _ _ _ A B) as S. apply sle_sub_0 in S.
      assert (S1 : (s0 <= (a - 1) * (e - e'))%S) by (replace ((a - 1) * (e - e'))%S with (o' + e' + (o + a * e) - (o + e + (o' + a * e')))%S by ring; exact S).
      destruct (sle_total e' e) as [L|L]; [exact L|].
      assert (La0 : (s0 <= a - 1)%S) by (apply (proj1 (sle_sub_0 _ _)); now apply slt_le).
      assert (L0 : (s0 <= e' - e)%S) by (now apply (proj1 (sle_sub_0 _ _))).
      pose proof (smul_nonneg _ _ La0 L0) as S2.
      assert (Z : ((a - 1) * (e' - e) = 0)%S).
      { apply sle_antisym; [|exact S2]. apply sle_sub_0. replace (0 - (a - 1) * (e' - e))%S with ((a - 1) * (e - e'))%S by ring. exact S1. }
      apply smul_integral in Z. destruct Z as [Z|Z].
      - exfalso. assert (a = s1) by (transitivity (a - 1 + 1)%S; [ring|rewrite Z; ring]). subst a. apply slt_nle in La. apply La. apply sle_refl.
      - assert (e' = e) as -> by (transitivity (e' - e + e)%S; [ring|rewrite Z; ring]). apply sle_refl. }
    split; [exact E|]. apply (sle_add_cancel _ _ e). apply (sle_trans _ (o' + e')%S); [exact A|]. apply sle_add; [apply sle_refl|exact E].
  Qed.
  (** C93: raising one kind of weights: the terms with that kind of weight get smaller or stay, those with the others get larger or stay - measured with the old weights. *)
  Theorem C93_tuning k a s h p s' h' p' x0 u0 z z' :
    0 < ph -> (s1 < a)%S -> reached s h -> reached s' h' -> g_plant (cfg_run h) = Some p -> g_plant (cfg_run h') = Some p' -> retuned d k a (cfg_run h) (cfg_run h') ->
    sized x0 nx 1 -> sized u0 nu 1 -> qp_optimal (l_call d s x0 u0) z -> qp_optimal (l_call d s' x0 u0) z' ->
    (share d k p (cfg_run h) (vec u0) (z_state d z') (z_cmd d z') <= share d k p (cfg_run h) (vec u0) (z_state d z) (z_cmd d z))%S /\
    (other_shares d k p (cfg_run h) (vec u0) (z_state d z) (z_cmd d z) <= other_shares d k p (cfg_run h) (vec u0) (z_state d z') (z_cmd d z'))%S.
  Proof.
    intros P La R R' G G' RT X U O O'.
    destruct (C15_optimality_transfer junk ejunk d s h p x0 u0 z P R G X U O) as [A Op]. destruct (C15_optimality_transfer junk ejunk d s' h' p' x0 u0 z' P R' G' X U O') as [A' Op'].
    pose proof (Op _ _ (proj2 (retuned_admissible k a p p' _ _ _ _ _ _ P G G' RT) A')) as I1. pose proof (Op' _ _ (proj1 (retuned_admissible k a p p' _ _ _ _ _ _ P G G' RT) A)) as I2.
    destruct (retuned_data _ _ _ _ RT) as (M & W & _ & Rf & D & _).
    rewrite !(same_cost d p p' (with_weights (cfg_run h) (cfg_run h')) (cfg_run h')) in I2 by assumption.
    rewrite !share_sum in I1, I2. rewrite !(share_scaled k a p _ _ _ _ _ P RT) in I2. clear - SL La I1 I2.
    apply (tune_ineq a _ _ _ _ La); destruct k; unfold other_shares;
      match goal with
      | |- (?l <= ?r)%S => first [ exact I1 | exact I2
        | (match type of I1 with (?l1 <= ?r1)%S => replace l with l1 by ring; replace r with r1 by ring end; exact I1)
        | (match type of I2 with (?l1 <= ?r1)%S => replace l with l1 by ring; replace r with r1 by ring end; exact I2) ]
      end.
  Qed.
End Tune.

(** *** Concrete case: one state, one command, one step; the last command is 4, commands and increments weigh 1, then increments weigh 3: the planned command goes from 2 to 3. *)
Local Notation one := (qm 1 1 [[1%Z]]).
Definition u_d : dims := mkDims 1 1 0 1 1 1.
Definition u_ops (w : Z) : list (lop Qc) := [ LSetModel one one one; LSetWeights (qv [0]%Z) (qv [1]%Z) (qv [w]%Z) slice_all ].
Notation u_s w := (wS u_d (u_ops w)).
Notation u_h w := (wH u_d (u_ops w)).
Definition u_call w := l_call u_d (u_s w) (qv [0]%Z) (qv [4]%Z).
Definition u_z (u : Z) : nat -> Qc := qf [0; 4; u; u; u - 4]%Z.
Definition u_y (u : Z) : nat -> Qc := qf [0; 4 + u; 0; u]%Z.
Lemma u_reached w : In w [1; 3]%Z -> SpecLMPC.reached qj qej u_d (u_s w) (u_h w) /\ g_plant (cfg_run (u_h w)) = Some (wp (u_h w)) /\ weights_nonneg u_d (cfg_run (u_h w)).
Proof.
  intros [<-|[<-|[]]]; (refine (conj _ (conj _ _)); [w_reach|apply w_plant; vm_compute; reflexivity|]);
    (refine (conj _ (conj _ _)); intros k j Hk Hj; (destruct k as [|k]; [|cbn in Hk; lia]); (destruct j as [|j]; [|cbn in Hj; lia]); vm_compute; reflexivity).
Qed.
Lemma u_optimal w u : In (w, u) [(1, 2); (3, 3)]%Z -> qp_optimal (u_call w) (u_z u).
Proof.
  intros I. assert (Iw : In w [1; 3]%Z) by (destruct I as [E|[E|[]]]; injection E as <- <-; [now left|right; now left]). destruct (u_reached w Iw) as (R & G & W).
  assert (K : kkt s0 s0 (u_call w) (u_z u) (fun r => qp_row (u_call w) r (u_z u)) (u_y u)) by (destruct I as [E|[E|[]]]; injection E as <- <-; apply kkt_b_ok; vm_compute; reflexivity).
  apply (LCert.kkt_optimal _ (weights_convex qj qej u_d _ _ (qv [0]%Z) (qv [4]%Z) ltac:(cbn; lia) R ltac:(repeat split) ltac:(repeat split) W) _ _ _ K).
Qed.
Ltac u_cmp j Hj := destruct j as [|j]; [|cbn in Hj; lia].
Lemma u_ext (a b : ext Qc) : match a, b with Fin x, Fin y => sleb x y && sleb y x | PInf, PInf | MInf, MInf => true | _, _ => false end = true -> a = b.
Proof. destruct a, b; try discriminate; try reflexivity. intros H. f_equal. now apply qc_eq. Qed.
Ltac u_eq := (apply qc_eq; vm_compute; reflexivity) || (apply u_ext; vm_compute; reflexivity).
Example C93_instance : retuned u_d OnIncrements (q 3) (cfg_run (u_h 1)) (cfg_run (u_h 3)) /\ (s1 < q 3)%S /\
  SpecLMPC.reached qj qej u_d (u_s 1) (u_h 1) /\ SpecLMPC.reached qj qej u_d (u_s 3) (u_h 3) /\ qp_optimal (u_call 1) (u_z 2) /\ qp_optimal (u_call 3) (u_z 3) /\
  share u_d OnIncrements (wp (u_h 1)) (cfg_run (u_h 1)) (vec (qv [4]%Z)) (z_state u_d (u_z 2)) (z_cmd u_d (u_z 2)) = q 4 /\
  share u_d OnIncrements (wp (u_h 1)) (cfg_run (u_h 1)) (vec (qv [4]%Z)) (z_state u_d (u_z 3)) (z_cmd u_d (u_z 3)) = q 1.
Proof.
  destruct (u_reached 1 ltac:(now left)) as (R & _). destruct (u_reached 3 ltac:(right; now left)) as (R' & _).
  refine (conj _ (conj _ (conj R (conj R' (conj (u_optimal 1 2 _) (conj (u_optimal 3 3 _) (conj _ _))))))); [|vm_compute; reflexivity|now left|right; now left|apply qc_eq; vm_compute; reflexivity|apply qc_eq; vm_compute; reflexivity].
  constructor.
  - refine (conj _ (conj _ _)); [rewrite !w_plant by (vm_compute; reflexivity); refine (conj _ (conj _ _)); intros i j Hi Hj; u_cmp i Hi; u_cmp j Hj; u_eq|intros i j _ Hj; cbn in Hj; lia|intros i j _ Hj; cbn in Hj; lia].
  - split; intros j Hj; u_cmp j Hj; u_eq.
  - refine (conj _ (conj _ _)); intros i j Hi Hj; u_cmp i Hi; u_cmp j Hj; u_eq.
  - intros i j _ Hj; cbn in Hj; lia.
  - split; intros i j Hi Hj; u_cmp i Hi; u_cmp j Hj; u_eq.
  - split; intros i j Hi Hj; u_cmp i Hi; u_cmp j Hj; u_eq.
  - split; intros i j Hi Hj; u_cmp i Hi; u_cmp j Hj; u_eq.
  - split; intros i Hi; u_cmp i Hi; u_eq.
  - intros i j Hi Hj; u_cmp i Hi; u_cmp j Hj; u_eq.
  - intros i j Hi Hj; u_cmp i Hi; u_cmp j Hj; u_eq.
  - intros i j Hi Hj; u_cmp i Hi; u_cmp j Hj; u_eq.
Qed.
Print Assumptions C93_tuning.
