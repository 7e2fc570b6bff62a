(** Property C87: reaching a point of rest by the end of the horizon makes the closed loop stable. *)
From Coq Require Import Bool Arith ZArith List Lia QArith Qcanon Ring Field.
From Verif Require Import Scalar Sums Mat Slice Csc CscProof Builder BuilderEnt LMPC SpecLMPC SpecQP SpecCert LMPCRef LQP LRows LUniq Wit PropLMPC1 PropLMPC2 PropLMPC3 PropLMPC4 PropLMPC5 SpecLoop PropLoop SpecMeta PropMeta SpecStab.
Import ListNotations.
Local Open Scope nat_scope.

Section Stab.
  Context {F : Type} {SO : ScalarOps F} {SL : ScalarLaws F}.
  Add Field SFstab : (@s_field F SO SL).
  Variables (junk : nat -> nat -> F) (ejunk : nat -> nat -> ext F) (d : dims).
  Notation nx := (d_nx d). Notation nu := (d_nu d). Notation ndu := (d_ndu d).
  Notation ny := (d_ny d). Notation ph := (d_ph d). Notation ch := (d_ch d).
  Notation reached := (SpecLMPC.reached junk ejunk d).
  Notation step := (l_step junk ejunk d).
  Notation run := (control_run junk ejunk d).
  Notation good_loop := (SpecStab.good_loop d).
  Implicit Types (s : lmpc F) (h : list (lop F * ret F)) (p : plant F) (z : nat -> F).

  Lemma within_point (a v : F) : within (Fin a) (Fin a) v -> v = a.
  Proof. intros [H1 H2]. cbn in H1, H2. now apply sle_antisym. Qed.

  Lemma ucmd_pos (m : nat -> F) v n j : 0 < n -> ucmd m v n j = v (n - 1) j.
  Proof. intros H. destruct n as [|n]; [lia|]. cbn [ucmd]. now replace (S n - 1) with n by lia. Qed.
  Section Shift.
    Variables (p : plant F) (c : cfg F) (xs us : nat -> F) (x0 um : nat -> F) (x u : nat -> nat -> F).
    Hypotheses (RR : reaches_rest d p c xs us) (Ad : admissible d p c x0 um x u).
    Let P : 2 <= ph := ar_ph _ _ _ _ _ (rr_asks _ _ _ _ _ RR).
    Lemma end_x j : j < nx -> x ph j = xs j.
    Proof. intros Hj. destruct Ad as (_ & BX & _). pose proof (BX ph j (le_n _) Hj) as B. replace (stp ph) with (ph - 1) in B by (unfold stp; lia). destruct (rr_xe _ _ _ _ _ RR j Hj) as [E1 E2]. rewrite E1, E2 in B. now apply within_point. Qed.
    Lemma end_u j : j < nu -> u (ph - 1) j = us j.
    Proof. intros Hj. destruct Ad as (_ & _ & _ & BU & _). pose proof (BU ph j (le_n _) Hj) as B. rewrite Nat.min_r in B by lia. destruct (rr_ue _ _ _ _ _ RR j Hj) as [E1 E2]. rewrite E1, E2 in B.
      apply within_point in B. rewrite ucmd_pos in B by lia. exact B. Qed.
    Lemma end_u2 j : j < nu -> u (ph - 2) j = us j.
    Proof. intros Hj. destruct Ad as (_ & _ & _ & BU & _). pose proof (BU (ph - 1) j ltac:(lia) Hj) as B. rewrite Nat.min_r in B by lia. destruct (rr_ue _ _ _ _ _ RR j Hj) as [E1 E2]. rewrite E1, E2 in B.
      apply within_point in B. rewrite ucmd_pos in B by lia. replace (ph - 1 - 1) with (ph - 2) in B by lia. exact B. Qed.
    (** the plan moved on by one step, then rest *)
    Definition next_x (i : nat) : nat -> F := if i <? ph then x (S i) else xs.
    Definition next_u (i : nat) : nat -> F := if i <? ph - 1 then u (S i) else us.
    Lemma nx_lt i : i < ph -> next_x i = x (S i).
    Proof. intros Hi. unfold next_x. destruct (Nat.ltb_spec i ph); [reflexivity|lia]. Qed.
    Lemma nx_end : next_x ph = xs.
    Proof. unfold next_x. destruct (Nat.ltb_spec ph ph); [lia|reflexivity]. Qed.
    Lemma nu_lt i : i < ph - 1 -> next_u i = u (S i).
    Proof. intros Hi. unfold next_u. destruct (Nat.ltb_spec i (ph - 1)); [reflexivity|lia]. Qed.
    Lemma nu_end : next_u (ph - 1) = us.
    Proof. unfold next_u. destruct (Nat.ltb_spec (ph - 1) (ph - 1)); [lia|reflexivity]. Qed.
    Lemma dist_k (M : nat -> nat -> F) k j : k < ph -> ssum ndu (fun l => (M j l * g_d c k l)%S) = ssum ndu (fun l => (M j l * g_d c 0 l)%S).
    Proof. intros Hk. apply ssum_ext. intros l Hl. now rewrite (ar_d _ _ _ _ _ (rr_asks _ _ _ _ _ RR) k l Hk Hl). Qed.
    Lemma out_k (v : nat -> nat -> F) i j : i <= ph -> output d p c v i j = out_now d p c 0 (v i) j.
    Proof. intros Hi. unfold output, out_now. f_equal. apply dist_k. unfold stp. lia. Qed.
    Lemma out_xs (v : nat -> F) j : (forall l, l < nx -> v l = xs l) -> out_now d p c 0 v j = out_now d p c 0 xs j.
    Proof. intros E. unfold out_now. f_equal. apply ssum_ext. intros l Hl. now rewrite E. Qed.
    Lemma u_in k j : k < ph -> j < nu -> within (g_ulo c 0 j) (g_uhi c 0 j) (u k j).
    Proof.
      intros Hk Hj. destruct (Nat.lt_ge_cases (S k) (ph - 1)) as [L|L].
      - destruct Ad as (_ & _ & _ & BU & _). pose proof (BU (S k) j ltac:(lia) Hj) as B. rewrite Nat.min_l in B by lia. destruct (ar_ub _ _ _ _ _ (rr_asks _ _ _ _ _ RR) (S k) j L Hj) as [<- <-]. exact B.
      - destruct (Nat.eq_dec k (ph - 1)) as [->|N]; [rewrite end_u by exact Hj|replace k with (ph - 2) by lia; rewrite end_u2 by exact Hj]; now apply (ar_us _ _ _ _ _ (rr_asks _ _ _ _ _ RR)).
    Qed.
    Lemma x_in k j : k < ph -> j < nx -> within (g_xlo c 0 j) (g_xhi c 0 j) (x (S k) j).
    Proof.
      intros Hk Hj. destruct (Nat.lt_ge_cases k (ph - 1)) as [L|L].
      - destruct Ad as (_ & BX & _). pose proof (BX (S k) j ltac:(lia) Hj) as B. change (stp (S k)) with k in B. destruct (ar_xb _ _ _ _ _ (rr_asks _ _ _ _ _ RR) k j L Hj) as [<- <-]. exact B.
      - replace (S k) with ph by lia. rewrite end_x by exact Hj. now apply (ar_xs _ _ _ _ _ (rr_asks _ _ _ _ _ RR)).
    Qed.
    Lemma point_in (a : F) : within (Fin a) (Fin a) a.
    Proof. split; apply sle_refl. Qed.
    Variables (x1 u1 : nat -> F).
    Hypotheses (E1 : forall j, j < nx -> x1 j = x 1 j) (E2 : forall j, j < nu -> u1 j = u 0 j).
    Lemma next_ucmd i j : i < ph -> j < nu -> ucmd u1 next_u i j = ucmd um u (S i) j.
    Proof. intros Hi Hj. destruct i as [|i]; cbn [ucmd]; [now apply E2|]. now rewrite nu_lt by lia. Qed.
    Lemma next_ucmd_end j : j < nu -> ucmd u1 next_u ph j = us j.
    Proof. intros Hj. rewrite ucmd_pos by lia. now rewrite nu_end. Qed.
    Lemma next_admissible : admissible d p c x1 u1 next_x next_u.
    Proof.
      destruct Ad as ((T0 & T1) & BX & BY & BU & Fz & BS). refine (conj (conj _ _) (conj _ (conj _ (conj _ (conj _ _))))).
      - intros j Hj. rewrite nx_lt by lia. symmetry. now apply E1.
      - intros k j Hk Hj. rewrite (nx_lt k Hk). rewrite (dist_k (g_Bd c)) by exact Hk. destruct (Nat.eq_dec k (ph - 1)) as [->|N].
        + replace (S (ph - 1)) with ph by lia. rewrite nx_end, nu_end. rewrite <- (ar_rest _ _ _ _ _ (rr_asks _ _ _ _ _ RR) j Hj) at 1. unfold next_state. f_equal. f_equal. apply ssum_ext. intros l Hl. now rewrite end_x.
        + rewrite nx_lt, nu_lt by lia. rewrite (T1 (S k) j) by lia. now rewrite (dist_k (g_Bd c)) by lia.
      - intros i j Hi Hj. destruct (Nat.eq_dec i ph) as [->|N].
        + rewrite nx_end. replace (stp ph) with (ph - 1) by (unfold stp; lia). destruct (rr_xe _ _ _ _ _ RR j Hj) as [-> ->]. apply point_in.
        + rewrite nx_lt by lia. destruct (ar_xb _ _ _ _ _ (rr_asks _ _ _ _ _ RR) (stp i) j ltac:(unfold stp; lia) Hj) as [-> ->]. apply x_in; [lia|exact Hj].
      - intros i j Hi Hj. rewrite out_k by exact Hi. destruct (ar_yb _ _ _ _ _ (rr_asks _ _ _ _ _ RR) (stp i) j ltac:(unfold stp; lia) Hj) as [-> ->].
        assert (B : forall k, k < ph -> within (g_ylo c 0 j) (g_yhi c 0 j) (out_now d p c 0 (x (S k)) j)).
        { intros k Hk. pose proof (BY (S k) j ltac:(lia) Hj) as B. rewrite out_k in B by lia. change (stp (S k)) with k in B. destruct (ar_yb _ _ _ _ _ (rr_asks _ _ _ _ _ RR) k j Hk Hj) as [<- <-]. exact B. }
        destruct (Nat.eq_dec i ph) as [->|N]; [|rewrite nx_lt by lia; apply B; lia]. rewrite nx_end. specialize (B (ph - 1) ltac:(lia)). replace (S (ph - 1)) with ph in B by lia. rewrite (out_xs (x ph)) in B by (intros; now apply end_x). exact B.
      - intros i j Hi Hj. destruct (Nat.lt_ge_cases i (ph - 1)) as [L|L].
        + rewrite Nat.min_l by lia. destruct (ar_ub _ _ _ _ _ (rr_asks _ _ _ _ _ RR) i j L Hj) as [-> ->]. rewrite next_ucmd by (lia || exact Hj). cbn [ucmd]. apply u_in; [lia|exact Hj].
        + rewrite Nat.min_r by lia. destruct (rr_ue _ _ _ _ _ RR j Hj) as [-> ->]. destruct (Nat.eq_dec i ph) as [->|N]; [rewrite next_ucmd_end by exact Hj; apply point_in|].
          replace i with (ph - 1) by lia. rewrite next_ucmd by (lia || exact Hj). cbn [ucmd]. rewrite end_u by exact Hj. apply point_in.
      - intros i j Hi Hi' Hj. rewrite next_ucmd by (lia || exact Hj). cbn [ucmd]. destruct (Nat.eq_dec i (ph - 1)) as [->|N]; [rewrite nu_end, end_u by exact Hj; reflexivity|]. rewrite nu_lt by lia. apply (Fz (S i) j); lia.
      - intros i Hi. destruct (ar_sb _ _ _ _ _ (rr_asks _ _ _ _ _ RR) (stp i) ltac:(unfold stp; lia)) as [-> ->].
        assert (B : forall k, k < ph -> within (g_slo c 0) (g_shi c 0) (ssum nx (fun l => g_sX c l * x (S k) l) + ssum nu (fun l => g_sU c l * u k l))%S).
        { intros k Hk. pose proof (BS (S k) ltac:(lia)) as B. cbn [ucmd] in B. change (stp (S k)) with k in B. destruct (ar_sb _ _ _ _ _ (rr_asks _ _ _ _ _ RR) k Hk) as [<- <-]. exact B. }
        destruct (Nat.eq_dec i ph) as [->|N].
        + eapply within_eq; [reflexivity|reflexivity| |exact (B (ph - 1) ltac:(lia))]. rewrite nx_end. replace (S (ph - 1)) with ph by lia. f_equal; apply ssum_ext; intros l Hl; [now rewrite end_x|now rewrite next_ucmd_end, end_u].
        + eapply within_eq; [reflexivity|reflexivity| |exact (B i ltac:(lia))]. rewrite nx_lt by lia. f_equal. apply ssum_ext; intros l Hl. rewrite next_ucmd by (lia || exact Hl). reflexivity.
    Qed.
    (** the cost is that of the plan without its first period *)
    Lemma first_out (Y Y' : nat -> F) : (forall i, i < ph -> Y' i = Y (S i)) -> Y' ph = s0 -> (ssum (ph + 1) Y' + Y O = ssum (ph + 1) Y)%S.
    Proof.
      intros H0 H1. replace (ph + 1) with (S ph) by lia. rewrite (ssum_S_l ph Y). cbn [ssum]. rewrite H1, (ssum_ext ph Y' (fun i => Y (S i)) H0). ring.
    Qed.
    Lemma next_cost : (tracking_cost d p c u1 next_x next_u + period_cost d p c x0 um (u O) = tracking_cost d p c um x u)%S.
    Proof.
      destruct Ad as ((T0 & _) & _). unfold tracking_cost, period_cost.
      assert (SP : forall i, i < ph + 1 -> stp i < ph) by (intros; unfold stp; lia).
      assert (R0 := ar_ref _ _ _ _ _ (rr_asks _ _ _ _ _ RR) 0 ltac:(lia)). destruct R0 as [RY0 RU0].
      assert (CY : forall (v : nat -> nat -> F), ssum (ph + 1) (fun i => ssum ny (fun j => g_wy c (stp i) j * sq (output d p c v i j - g_yr c (stp i) j))%S)
                 = ssum (ph + 1) (fun i => ssum ny (fun j => g_wy c 0 j * sq (out_now d p c 0 (v i) j - g_yr c 0 j))%S)).
      { intros v. apply ssum_ext. intros i Hi. apply ssum_ext. intros j Hj. rewrite out_k by lia. destruct (ar_w _ _ _ _ _ (rr_asks _ _ _ _ _ RR) _ (SP i Hi)) as [W _]. destruct (ar_ref _ _ _ _ _ (rr_asks _ _ _ _ _ RR) _ (SP i Hi)) as [R _]. now rewrite W, R, RY0. }
      assert (CU : forall (m : nat -> F) (v : nat -> nat -> F), ssum (ph + 1) (fun i => ssum nu (fun j => g_wu c (stp i) j * sq (ucmd m v i j - g_ur c (stp i) j))%S)
                 = ssum (ph + 1) (fun i => ssum nu (fun j => g_wu c 0 j * sq (ucmd m v i j - g_ur c 0 j))%S)).
      { intros m v. apply ssum_ext. intros i Hi. apply ssum_ext. intros j Hj. destruct (ar_w _ _ _ _ _ (rr_asks _ _ _ _ _ RR) _ (SP i Hi)) as [_ W]. destruct (ar_ref _ _ _ _ _ (rr_asks _ _ _ _ _ RR) _ (SP i Hi)) as [_ R]. now rewrite (proj1 (W j Hj)), (proj1 (R j Hj)), (proj1 (RU0 j Hj)). }
      assert (CD : forall (m : nat -> F) (v : nat -> nat -> F), ssum ph (fun i => ssum nu (fun j => g_wdu c i j * sq (dcmd m v i j - g_dur c (stp i) j))%S)
                 = ssum ph (fun i => ssum nu (fun j => g_wdu c 0 j * sq (v i j - ucmd m v i j))%S)).
      { intros m v. apply ssum_ext. intros i Hi. apply ssum_ext. intros j Hj. destruct (ar_w _ _ _ _ _ (rr_asks _ _ _ _ _ RR) i Hi) as [_ W]. destruct (ar_ref _ _ _ _ _ (rr_asks _ _ _ _ _ RR) (stp i) ltac:(apply SP; lia)) as [_ R].
        rewrite (proj2 (W j Hj)), (proj2 (R j Hj)). unfold dcmd, sq. ring. }
      rewrite !CY, !CU, !CD.
      set (Y := fun i => ssum ny (fun j => g_wy c 0 j * sq (out_now d p c 0 (x i) j - g_yr c 0 j))%S). set (Y' := fun i => ssum ny (fun j => g_wy c 0 j * sq (out_now d p c 0 (next_x i) j - g_yr c 0 j))%S).
      set (U := fun i => ssum nu (fun j => g_wu c 0 j * sq (ucmd um u i j - g_ur c 0 j))%S). set (U' := fun i => ssum nu (fun j => g_wu c 0 j * sq (ucmd u1 next_u i j - g_ur c 0 j))%S).
      set (D := fun i => ssum nu (fun j => g_wdu c 0 j * sq (u i j - ucmd um u i j))%S). set (D' := fun i => ssum nu (fun j => g_wdu c 0 j * sq (next_u i j - ucmd u1 next_u i j))%S).
      assert (HY : (ssum (ph + 1) Y' + Y O = ssum (ph + 1) Y)%S).
      { apply first_out; unfold Y, Y'; [intros i Hi; now rewrite nx_lt by exact Hi|]. rewrite nx_end. apply ssum_zero. intros j Hj. rewrite (RY0 j Hj). unfold sq. ring. }
      assert (HU : (ssum (ph + 1) U' + U O = ssum (ph + 1) U)%S).
      { apply first_out; unfold U, U'; [intros i Hi; apply ssum_ext; intros j Hj; now rewrite next_ucmd|]. apply ssum_zero. intros j Hj. rewrite next_ucmd_end by exact Hj. rewrite (proj1 (RU0 j Hj)). unfold sq. ring. }
      assert (HD : (ssum ph D' + D O = ssum ph D)%S).
      { pose proof P as P2. replace ph with (S (ph - 1)) by lia. rewrite (ssum_S_l (ph - 1) D). cbn [ssum]. assert (D' (ph - 1) = s0) as ->.
        - unfold D'. apply ssum_zero. intros j Hj. rewrite nu_end, next_ucmd by (lia || exact Hj). cbn [ucmd]. rewrite end_u by exact Hj. unfold sq. ring.
        - rewrite (ssum_ext (ph - 1) D' (fun i => D (S i))); [ring|]. intros i Hi. unfold D', D. apply ssum_ext. intros j Hj. rewrite nu_lt, next_ucmd by (lia || exact Hj). reflexivity. }
      rewrite <- HY, <- HU, <- HD.
      replace (ssum ny (fun j => g_wy c 0 j * sq (out_now d p c 0 x0 j - g_yr c 0 j))%S) with (Y 0).
      2: { unfold Y. apply ssum_ext. intros j Hj. f_equal. f_equal. f_equal. unfold out_now. f_equal. apply ssum_ext. intros l Hl. now rewrite T0. }
      unfold U, D. cbn [ucmd]. ring.
    Qed.
  End Shift.

  Lemma cost_ext p c um X X' U U' : (forall i a, i <= ph -> a < nx -> X i a = X' i a) -> (forall i a, i < ph -> a < nu -> U i a = U' i a) ->
    tracking_cost d p c um X U = tracking_cost d p c um X' U'.
  Proof.
    intros EX EU. assert (Eu : forall i a, i <= ph -> a < nu -> ucmd um U i a = ucmd um U' i a) by (intros [|i] a Hi Ha; [reflexivity|cbn [ucmd]; apply EU; lia]).
    unfold tracking_cost. f_equal; [f_equal|]; apply ssum_ext; intros i Hi; apply ssum_ext; intros j Hj.
    - assert (output d p c X i j = output d p c X' i j) as ->; [|reflexivity]. unfold output. f_equal. apply ssum_ext. intros l Hl. now rewrite EX by lia.
    - now rewrite Eu by lia.
    - unfold dcmd. now rewrite Eu, EU by lia.
  Qed.
  Lemma period_cost_ext p c x um u u' : (forall j, j < nu -> u j = u' j) -> period_cost d p c x um u = period_cost d p c x um u'.
  Proof. intros E. unfold period_cost. f_equal. apply ssum_ext. intros j Hj. now rewrite E. Qed.
  Lemma same_relaxed c c' : same_data d c c' -> relaxed d c c'.
  Proof.
    intros (M & W & Mu & R & D & (X1 & X2) & (Y1 & Y2) & (U1 & U2) & (S1 & S2)). constructor; try assumption.
    - intros k j Hk Hj v. now rewrite (X1 k j Hk Hj), (X2 k j Hk Hj).
    - intros k j Hk Hj v. now rewrite (Y1 k j Hk Hj), (Y2 k j Hk Hj).
    - intros k j Hk Hj v. now rewrite (U1 k j Hk Hj), (U2 k j Hk Hj).
    - intros k Hk v. now rewrite (S1 k Hk), (S2 k Hk).
  Qed.
  Lemma first_state p c x0 um x u x1 u1 : 0 < ph -> admissible d p c x0 um x u -> (forall j, j < nu -> u1 j = u 0 j) ->
    (forall j, j < nx -> x1 j = next_state d p c 0 x0 u1 j) -> forall j, j < nx -> x1 j = x 1 j.
  Proof.
    intros P ((T0 & T1) & _) E2 E1 j Hj. rewrite E1 by exact Hj. rewrite (T1 0 j P Hj). unfold next_state. f_equal. f_equal; apply ssum_ext; intros l Hl; [now rewrite T0|now rewrite E2].
  Qed.

  (** *** C87: one period. Any feasible plan, moved on by one step, is feasible for the next period and costs less by exactly the cost of this period. *)
  Theorem C87_next_problem s h p x0 u0 z s' h' p' x1 u1 xs us :
    reached s h -> reached s' h' -> g_plant (cfg_run h) = Some p -> g_plant (cfg_run h') = Some p' -> same_data d (cfg_run h) (cfg_run h') ->
    sized x0 nx 1 -> sized u0 nu 1 -> sized x1 nx 1 -> sized u1 nu 1 ->
    reaches_rest d p (cfg_run h) xs us -> qp_feasible (l_call d s x0 u0) z ->
    (forall j, j < nu -> vec u1 j = z_cmd d z 0 j) -> (forall j, j < nx -> vec x1 j = next_state d p (cfg_run h) 0 (vec x0) (vec u1) j) ->
    exists z', qp_feasible (l_call d s' x1 u1) z' /\
      (tracking_cost d p' (cfg_run h') (vec u1) (z_state d z') (z_cmd d z') + period_cost d p (cfg_run h) (vec x0) (vec u0) (vec u1)
       = tracking_cost d p (cfg_run h) (vec u0) (z_state d z) (z_cmd d z))%S.
  Proof.
    intros R R' G G' SD X U X1 U1 RR Q E2 E1. pose proof (ar_ph _ _ _ _ _ (rr_asks _ _ _ _ _ RR)) as P2. assert (P : 0 < ph) by lia.
    destruct (proj1 (C01_feasible_iff_admissible junk ejunk d s h p x0 u0 z P R G X U) Q) as [A T].
    pose proof (first_state _ _ _ _ _ _ _ _ P A E2 E1) as E1'.
    pose proof (next_admissible _ _ _ _ _ _ _ _ RR A _ _ E1' E2) as A'.
    apply (relaxed_admissible d p p' (cfg_run h) (cfg_run h') _ _ _ _ P G G' (same_relaxed _ _ SD)) in A'.
    destruct (C01_admissible_represented junk ejunk d s' h' p' x1 u1 _ _ P R' G' X1 U1 A') as (Q' & ZX & ZU). eexists. split; [exact Q'|].
    rewrite (cost_ext _ _ _ _ _ _ _ ZX ZU). destruct SD as (M & W & _ & Rf & D & _). rewrite (same_cost d p p' (cfg_run h) (cfg_run h')) by assumption.
    rewrite (period_cost_ext _ _ _ _ _ _ E2). exact (next_cost _ _ _ _ _ _ _ _ RR A _ E2).
  Qed.
  (** the optimal cost decreases by at least the cost of the period *)
  Theorem C87_optimal_cost_decreases s h p x0 u0 z s' h' p' x1 u1 z' xs us :
    reached s h -> reached s' h' -> g_plant (cfg_run h) = Some p -> g_plant (cfg_run h') = Some p' -> same_data d (cfg_run h) (cfg_run h') ->
    sized x0 nx 1 -> sized u0 nu 1 -> sized x1 nx 1 -> sized u1 nu 1 ->
    reaches_rest d p (cfg_run h) xs us -> qp_feasible (l_call d s x0 u0) z ->
    (forall j, j < nu -> vec u1 j = z_cmd d z 0 j) -> (forall j, j < nx -> vec x1 j = next_state d p (cfg_run h) 0 (vec x0) (vec u1) j) ->
    qp_optimal (l_call d s' x1 u1) z' ->
    (tracking_cost d p' (cfg_run h') (vec u1) (z_state d z') (z_cmd d z') + period_cost d p (cfg_run h) (vec x0) (vec u0) (vec u1)
     <= tracking_cost d p (cfg_run h) (vec u0) (z_state d z) (z_cmd d z))%S.
  Proof.
    intros R R' G G' SD X U X1 U1 RR Q E2 E1 O. pose proof (ar_ph _ _ _ _ _ (rr_asks _ _ _ _ _ RR)) as P2. assert (P : 0 < ph) by lia.
    destruct (C87_next_problem s h p x0 u0 z s' h' p' x1 u1 xs us R R' G G' SD X U X1 U1 RR Q E2 E1) as (zc & Qc & <-).
    apply sle_add_r. destruct (C15_optimality_transfer junk ejunk d s' h' p' x1 u1 z' P R' G' X1 U1 O) as [_ Op]. apply Op.
    exact (proj1 (proj1 (C01_feasible_iff_admissible junk ejunk d s' h' p' x1 u1 zc P R' G' X1 U1) Qc)).
  Qed.

  (** *** closed loop *)
  Lemma run_last s h x u ps pe : run s h x u (ps ++ [pe]) -> x = pe_next pe /\ u = r_cmd (pe_res pe).
  Proof.
    intros H. remember (ps ++ [pe]) as l eqn:El. induction H as [x u X U|s h x u ps' op s' r H IH Hs Hp N E|s h x u ps' p a s' res x' H IH Hp E X' EN].
    - destruct ps; discriminate El.
    - auto.
    - apply app_inj_tail in El. destruct El as [_ <-]. split; reflexivity.
  Qed.
  (** an optimal period: its plan is admissible, cheapest, and begins with the command *)
  Lemma optimal_period s h x u ps pe : 0 < ph -> run s h x u ps -> In pe ps -> solved_optimally pe ->
    admissible d (pe_plant pe) (pe_cfg pe) (vec (pe_x pe)) (vec (pe_u pe)) (fun k j => ent (q_state (pe_seq pe)) k j) (fun k j => ent (q_input (pe_seq pe)) k j) /\
    (forall X U, admissible d (pe_plant pe) (pe_cfg pe) (vec (pe_x pe)) (vec (pe_u pe)) X U -> (pe_planned d pe <= tracking_cost d (pe_plant pe) (pe_cfg pe) (vec (pe_u pe)) X U)%S) /\
    (forall j, j < nu -> vec (r_cmd (pe_res pe)) j = ent (q_input (pe_seq pe)) 0 j).
  Proof.
    intros P H I (z & y & code & obj & Ea & Ho). destruct (run_in _ _ _ _ _ _ _ _ _ P H I) as (s0' & h0 & s1 & R0 & X & U & Ec & Hp & El & E & Es & EN).
    rewrite Ea in E. rewrite El in Ho. destruct (C14_sequences junk ejunk d s0' h0 _ _ _ z y code obj s1 _ P R0 Hp X U E) as (res & Er & A1 & A2 & _ & _ & A5 & _ & _ & _ & A6).
    injection Er as <-. specialize (A6 (proj1 Ho)). rewrite <- Es in *. rewrite Ec in *. refine (conj A6 (conj _ A5)). intros X' U' A'.
    unfold pe_planned. rewrite Ec. rewrite (cost_ext _ _ _ _ _ _ _ A1 A2). exact (proj2 (C15_optimality_transfer junk ejunk d s0' h0 _ _ _ z P R0 Hp X U Ho) X' U' A').
  Qed.
  Lemma total_app l l' : total (l ++ l') = (total l + total l')%S.
  Proof. induction l as [|a l IH]; cbn [app total]; [ring|rewrite IH; ring]. Qed.

  Lemma run_plant s h x u ps pe : 0 < ph -> run s h x u ps -> In pe ps -> g_plant (pe_cfg pe) = Some (pe_plant pe) /\
    (forall j, j < nx -> vec (pe_next pe) j = next_state d (pe_plant pe) (pe_cfg pe) 0 (vec (pe_x pe)) (vec (r_cmd (pe_res pe))) j).
  Proof. intros P H I. destruct (run_in _ _ _ _ _ _ _ _ _ P H I) as (s0' & h0 & s1 & _ & _ & _ & Ec & Hp & _ & _ & _ & EN). rewrite Ec in *. auto. Qed.

  (** the plan of an optimal period, moved on *)
  Lemma plan_moves_on s h x u ps pe xs us : run s h x u ps -> In pe ps -> solved_optimally pe -> reaches_rest d (pe_plant pe) (pe_cfg pe) xs us ->
    exists X U, admissible d (pe_plant pe) (pe_cfg pe) (vec (pe_next pe)) (vec (r_cmd (pe_res pe))) X U /\
      (tracking_cost d (pe_plant pe) (pe_cfg pe) (vec (r_cmd (pe_res pe))) X U + pe_spent d pe = pe_planned d pe)%S.
  Proof.
    intros H I So RR. pose proof (ar_ph _ _ _ _ _ (rr_asks _ _ _ _ _ RR)) as P2. assert (P : 0 < ph) by lia.
    destruct (optimal_period _ _ _ _ _ _ P H I So) as (A & _ & A5). destruct (run_plant _ _ _ _ _ _ P H I) as [_ EN].
    pose proof (first_state _ _ _ _ _ _ _ _ P A A5 EN) as E1.
    eexists. eexists. split; [exact (next_admissible _ _ _ _ _ _ _ _ RR A _ _ E1 A5)|].
    unfold pe_spent, pe_planned. rewrite (period_cost_ext _ _ _ _ _ _ A5). exact (next_cost _ _ _ _ _ _ _ _ RR A _ A5).
  Qed.
  Lemma loop_cost s h x u ps : forall xs us, 0 < ph -> run s h x u ps -> good_loop xs us ps ->
    match ps with [] => True | pe :: _ => exists qs q, ps = qs ++ [q] /\ (total (map (pe_spent d) ps) + pe_planned d q <= pe_planned d pe + pe_spent d q)%S end.
  Proof.
    intros xs us P H. induction H as [x u X U|s h x u ps op s' r H IH Hs Hp N E|s h x u ps p a s' res x' H IH Hp E X' EN]; intros G.
    - exact I.
    - exact (IH G).
    - set (new := mkPeriod _ _ _ _ _ _ _ _ _) in *.
      assert (H1 : run s' (h ++ [(LOptimize x u a, RResult res)]) x' (r_cmd res) (ps ++ [new])) by (econstructor; eassumption).
      assert (G0 : good_loop xs us ps) by (intros pe Ip; destruct (G pe (in_or_app _ _ _ (or_introl Ip))) as (A & B & C); refine (conj A (conj B _)); intros q Iq; apply C; apply in_or_app; now left).
      specialize (IH G0). destruct ps as [|pe qs].
      + cbn [app]. exists [], new. split; [reflexivity|]. cbn [map total]. replace (pe_spent d new + s0 + pe_planned d new)%S with (pe_planned d new + pe_spent d new)%S by ring. apply sle_refl.
      + change ((pe :: qs) ++ [new]) with (pe :: (qs ++ [new])). destruct IH as (ls & q & El & Le). exists (pe :: qs), new. split; [reflexivity|].
        assert (Iq : In q (pe :: qs)) by (rewrite El; apply in_or_app; right; now left).
        assert (Iq1 : In q ((pe :: qs) ++ [new])) by (apply in_or_app; now left). assert (In1 : In new ((pe :: qs) ++ [new])) by (apply in_or_app; right; now left).
        destruct (G q Iq1) as (RR & So & SD). destruct (G new In1) as (_ & Son & _).
        rewrite El in H. destruct (run_last _ _ _ _ _ _ H) as [-> ->]. rewrite <- El in H.
        destruct (plan_moves_on _ _ _ _ _ _ _ _ H Iq So RR) as (Xc & Uc & Ac & Ec).
        destruct (run_plant _ _ _ _ _ _ P H Iq) as [Gq _]. pose proof (SD new In1) as SDn.
        apply (relaxed_admissible d (pe_plant q) (pe_plant new) (pe_cfg q) (pe_cfg new) _ _ _ _ P Gq Hp (same_relaxed _ _ SDn)) in Ac.
        destruct (optimal_period _ _ _ _ _ _ P H1 In1 Son) as (_ & Op & _). specialize (Op Xc Uc Ac).
        destruct SDn as (M & W & _ & Rf & D & _). rewrite (same_cost d (pe_plant q) (pe_plant new) (pe_cfg q) (pe_cfg new)) in Op by assumption.
        change (vec (pe_u new)) with (vec (r_cmd (pe_res q))) in Op.
        change (pe :: qs ++ [new]) with ((pe :: qs) ++ [new]). rewrite map_app, total_app. cbn [map total] in *.
        set (T := (pe_spent d pe + total (map (pe_spent d) qs))%S) in *. set (tc := tracking_cost _ _ _ _ Xc Uc) in *.
        replace (T + (pe_spent d new + s0) + pe_planned d new)%S with (T + pe_planned d new + pe_spent d new)%S by ring. apply sle_add_r.
        apply (proj1 (sle_add_cancel _ _ (pe_spent d q))). refine (sle_trans _ _ _ _ Le). rewrite <- Ec.
        replace (T + pe_planned d new + pe_spent d q)%S with (T + pe_spent d q + pe_planned d new)%S by ring. replace (T + (tc + pe_spent d q))%S with (T + pe_spent d q + tc)%S by ring.
        now apply sle_add_l.
  Qed.
  Lemma sum_sq_nonneg n (w v : nat -> F) : (forall j, j < n -> (s0 <= w j)%S) -> (s0 <= ssum n (fun j => w j * sq (v j)))%S.
  Proof. intros W. apply ssum_nonneg. intros j Hj. apply smul_nonneg; [now apply W|apply ssq_nonneg]. Qed.
  Lemma add_nonneg (a b : F) : (s0 <= a)%S -> (s0 <= b)%S -> (s0 <= a + b)%S.
  Proof. intros A B. replace s0 with (s0 + s0 : F)%S by ring. now apply sle_add. Qed.
  Lemma spent_nonneg pe : 0 < ph -> weights_nonneg d (pe_cfg pe) -> (s0 <= pe_spent d pe)%S.
  Proof.
    intros P (W1 & W2 & W3). unfold pe_spent, period_cost. apply add_nonneg; [apply add_nonneg|]; apply sum_sq_nonneg; intros j Hj; [now apply W1|now apply W2|now apply W3].
  Qed.

  (** C87: over any number of periods, the cost paid is at most the optimal cost of the first problem *)
  Theorem C87_closed_loop s h x u pe qs xs us :
    run s h x u (pe :: qs) -> good_loop xs us (pe :: qs) -> (forall q, In q (pe :: qs) -> weights_nonneg d (pe_cfg q)) ->
    (total (map (pe_spent d) (pe :: qs)) <= pe_planned d pe)%S.
  Proof.
    intros H G W. destruct (G pe (or_introl eq_refl)) as (RR & _). pose proof (ar_ph _ _ _ _ _ (rr_asks _ _ _ _ _ RR)) as P2. assert (P : 0 < ph) by lia. clear RR.
    destruct (loop_cost _ _ _ _ _ xs us P H G) as (ls & q & El & Le). assert (Iq : In q (pe :: qs)) by (rewrite El; apply in_or_app; right; now left).
    destruct (G q Iq) as (RR & So & _). destruct (plan_moves_on _ _ _ _ _ _ _ _ H Iq So RR) as (Xc & Uc & _ & Ec). destruct (W q Iq) as (W1 & W2 & W3).
    pose proof (cost_nonneg d (pe_plant q) (pe_cfg q) (vec (r_cmd (pe_res q))) W1 W2 W3 P Xc Uc) as N. rewrite <- Ec in Le.
    apply (proj1 (sle_add_cancel _ _ (pe_spent d q))). refine (sle_trans _ _ _ _ Le). set (T := total _). set (tc := tracking_cost _ _ _ _ Xc Uc) in *.
    replace (T + (tc + pe_spent d q))%S with (T + pe_spent d q + tc)%S by ring. replace (T + pe_spent d q)%S with (T + pe_spent d q + s0)%S at 1 by ring. now apply sle_add_l.
  Qed.
  (** hence the tracking error dies out: at most planned / e periods cost e or more *)
  Theorem C87_errors_die_out s h x u pe qs xs us e :
    run s h x u (pe :: qs) -> good_loop xs us (pe :: qs) -> (forall q, In q (pe :: qs) -> weights_nonneg d (pe_cfg q)) ->
    (snat (length (filter (fun q => sleb e (pe_spent d q)) (pe :: qs))) * e <= pe_planned d pe)%S.
  Proof.
    intros H G W. refine (sle_trans _ _ _ _ (C87_closed_loop _ _ _ _ _ _ _ _ H G W)). destruct (G pe (or_introl eq_refl)) as (RR & _). pose proof (ar_ph _ _ _ _ _ (rr_asks _ _ _ _ _ RR)) as P2. assert (P : 0 < ph) by lia.
    clear H G RR. induction (pe :: qs) as [|q l IH]; cbn [filter map total length]; [replace (snat 0 * e)%S with (s0 : F) by (cbn; ring); apply sle_refl|].
    assert (IH' := IH (fun q' Iq => W q' (or_intror Iq))). destruct (sleb e (pe_spent d q)) eqn:Es.
    - cbn [length]. rewrite snat_S. replace ((snat (length (filter (fun q => sleb e (pe_spent d q)) l)) + s1) * e)%S with (e + snat (length (filter (fun q => sleb e (pe_spent d q)) l)) * e)%S by ring. apply sle_add; [exact Es|exact IH'].
    - replace (snat (length (filter (fun q => sleb e (pe_spent d q)) l)) * e)%S with (s0 + snat (length (filter (fun q => sleb e (pe_spent d q)) l)) * e)%S by ring. apply sle_add; [apply spent_nonneg; [exact P|apply W; now left]|exact IH'].
  Qed.
  (** and the controller never runs out of solutions: after every period the next problem has one *)
  Theorem C87_always_solvable s h x u qs q xs us p : run s h x u (qs ++ [q]) -> good_loop xs us (qs ++ [q]) ->
    g_plant (cfg_run h) = Some p -> same_data d (pe_cfg q) (cfg_run h) -> exists z, qp_feasible (l_call d s x u) z.
  Proof.
    intros H G Gp SD. assert (Iq : In q (qs ++ [q])) by (apply in_or_app; right; now left). destruct (G q Iq) as (RR & So & _). pose proof (ar_ph _ _ _ _ _ (rr_asks _ _ _ _ _ RR)) as P2. assert (P : 0 < ph) by lia.
    destruct (plan_moves_on _ _ _ _ _ _ _ _ H Iq So RR) as (Xc & Uc & Ac & _). destruct (run_plant _ _ _ _ _ _ P H Iq) as [Gq _].
    apply (relaxed_admissible d (pe_plant q) p (pe_cfg q) (cfg_run h) _ _ _ _ P Gq Gp (same_relaxed _ _ SD)) in Ac.
    destruct (run_reached _ _ _ _ _ _ _ _ P H) as (R & X & U). destruct (run_last _ _ _ _ _ _ H) as [-> ->].
    destruct (C01_admissible_represented junk ejunk d s h p _ _ _ _ P R Gp X U Ac) as (Q' & _). eauto.
  Qed.
End Stab.

(** *** Instance: x+ = x + u, ph = ch = 3, all weights 1, target x = 2, |x| <= 10, |u| <= 4, and at the last step x = 2, u = 0. From x = 5 with last command 1 the command
    is -3 and the plant at 2; then the command is 0 and the plant stays. *)
Section Forced.
  Context {F : Type} {SO : ScalarOps F} {SL : ScalarLaws F}.
  Add Field SFforced : (@s_field F SO SL).
  Lemma opt_of_unique junk ejunk (d : dims) (s : lmpc F) h p x0 u0 z : 0 < d_ph d -> SpecLMPC.reached junk ejunk d s h -> g_plant (cfg_run h) = Some p -> sized x0 (d_nx d) 1 -> sized u0 (d_nu d) 1 ->
    qp_feasible (l_call d s x0 u0) z ->
    (forall X U X' U', admissible d p (cfg_run h) (vec x0) (vec u0) X U -> admissible d p (cfg_run h) (vec x0) (vec u0) X' U' ->
       tracking_cost d p (cfg_run h) (vec u0) X U = tracking_cost d p (cfg_run h) (vec u0) X' U') ->
    qp_optimal (l_call d s x0 u0) z.
  Proof.
    intros P R G X U Q Un. split; [exact Q|]. intros z' Q'. destruct (C02_cost_is_tracking_cost junk ejunk d s h p x0 u0 P R G X U) as [K C].
    destruct (proj1 (C01_feasible_iff_admissible junk ejunk d s h p x0 u0 z P R G X U) Q) as [A T]. destruct (proj1 (C01_feasible_iff_admissible junk ejunk d s h p x0 u0 z' P R G X U) Q') as [A' T'].
    pose proof (C z T) as E. pose proof (C z' T') as E'. rewrite (Un _ _ _ _ A A'), <- E' in E.
    assert (H : qp_cost (l_call d s x0 u0) z = qp_cost (l_call d s x0 u0) z'); [|rewrite H; apply sle_refl].
    set (a := qp_cost _ z) in *. set (b := qp_cost _ z') in *. replace a with ((s2 * a + K - K) / s2)%S by (field; apply s2_neq_0). rewrite E. field. apply s2_neq_0.
  Qed.
  Definition rd : dims := mkDims 1 1 0 1 3 3.
  Lemma forced (p : plant F) c xs us x0 um X U : pl_A p 0 0 = s1 -> pl_B p 0 0 = s1 -> reaches_rest rd p c xs us -> admissible rd p c x0 um X U ->
    (X 0 0 = x0 0 /\ X 1 0 = (xs O - us O - us O)%S /\ X 2 0 = (xs O - us O)%S /\ X 3 0 = xs 0 /\ U 0 0 = (xs O - us O - us O - x0 O)%S /\ U 1 0 = us 0 /\ U 2 0 = us 0)%nat.
  Proof.
    intros PA PB RR A. pose proof (end_x rd p c xs us x0 um X U RR A 0 ltac:(cbn; lia)) as E3. pose proof (end_u rd p c xs us x0 um X U RR A 0 ltac:(cbn; lia)) as E2. pose proof (end_u2 rd p c xs us x0 um X U RR A 0 ltac:(cbn; lia)) as E1.
    cbn [d_ph rd Nat.sub] in E1, E2, E3. destruct A as ((T0 & T1) & _). pose proof (T0 0 ltac:(cbn; lia)) as H0.
    assert (T : forall k, k < 3 -> X (S k) 0 = (X k O + U k O)%S).
    { intros k Hk. rewrite (T1 k 0 Hk ltac:(cbn; lia)). cbn [d_nx d_nu d_ndu rd ssum]. rewrite PA, PB. ring. }
    pose proof (T 2 ltac:(lia)) as A2. pose proof (T 1 ltac:(lia)) as A1. pose proof (T 0 ltac:(lia)) as A0.
    assert (X2 : X 2 0 = (xs O - us O)%S) by (rewrite <- E3, A2, E2; ring). assert (X1 : X 1 0 = (xs O - us O - us O)%S) by (rewrite <- X2, A1, E1; ring).
    repeat apply conj; try assumption. rewrite <- X1, A0, H0. ring.
  Qed.
  Lemma forced_cost (p : plant F) c xs us x0 um X U X' U' : pl_A p 0 0 = s1 -> pl_B p 0 0 = s1 -> reaches_rest rd p c xs us -> admissible rd p c x0 um X U -> admissible rd p c x0 um X' U' ->
    tracking_cost rd p c um X U = tracking_cost rd p c um X' U'.
  Proof.
    intros PA PB RR A A'. destruct (forced _ _ _ _ _ _ _ _ PA PB RR A) as (B0 & B1 & B2 & B3 & V0 & V1 & V2). destruct (forced _ _ _ _ _ _ _ _ PA PB RR A') as (C0 & C1 & C2 & C3 & W0 & W1 & W2).
    apply cost_ext; cbn [d_ph d_nx d_nu rd]; intros i a Hi Ha; (destruct a as [|a]; [|lia]); destruct i as [|[|[|[|i]]]]; try lia; congruence.
  Qed.
End Forced.
Lemma same_data_refl (d : dims) (c : cfg Qc) : same_data d c c.
Proof. unfold same_data, same_model, same_plant. repeat apply conj; try (intros i j Hi Hj; reflexivity); try (intros j Hj; reflexivity). destruct (g_plant c); [|exact I]. repeat apply conj; intros i j Hi Hj; reflexivity. Qed.
Local Notation one := (qm 1 1 [[1%Z]]).
Definition st_ops : list (lop Qc) :=
  [ LSetModel one one one; LSetWeights (qv [1]%Z) (qv [1]%Z) (qv [1]%Z) slice_all; LSetRefs (qv [2]%Z) (qv [0]%Z) (qv [0]%Z) slice_all;
    LSetStateBoundsMat (qme 1 3 [[-10; -10; 2]]%Z) (qme 1 3 [[10; 10; 2]]%Z); LSetInputBoundsMat (qme 1 3 [[-4; -4; 0]]%Z) (qme 1 3 [[4; 4; 0]]%Z) ].
Notation st_s := (wS rd st_ops). Notation st_h := (wH rd st_ops).
Lemma st_reached : SpecLMPC.reached qj qej rd st_s st_h. Proof. w_reach. Qed.
Lemma st_plant : g_plant (cfg_run st_h) = Some (wp st_h). Proof. apply w_plant. vm_compute. reflexivity. Qed.
Definition ext_eqb (a b : ext Qc) : bool := match a, b with Fin x, Fin y => sleb x y && sleb y x | PInf, PInf | MInf, MInf => true | _, _ => false end.
Lemma ext_eqb_ok a b : ext_eqb a b = true -> a = b.
Proof. destruct a, b; try discriminate; try reflexivity. cbn. intros H. f_equal. now apply qc_eq. Qed.
Ltac three k Hk := destruct k as [|[|[|k]]]; [| | |cbn in Hk; lia].
Ltac two k Hk := destruct k as [|[|k]]; [| |cbn in Hk; lia].
Lemma st_rest : reaches_rest rd (wp st_h) (cfg_run st_h) (qf [2]%Z) (qf [0]%Z).
Proof.
  constructor; [constructor| |].
  - cbn. lia.
  - intros j Hj. one_row j Hj. apply qc_eq. vm_compute. reflexivity.
  - intros k j _ Hj. cbn in Hj. lia.
  - intros k Hk. three k Hk; (split; intros j Hj; one_row j Hj; try split; apply qc_eq; vm_compute; reflexivity).
  - intros k Hk. three k Hk; (split; intros j Hj; one_row j Hj; try split; apply qc_eq; vm_compute; reflexivity).
  - intros k j Hk Hj. one_row j Hj. two k Hk; split; apply ext_eqb_ok; vm_compute; reflexivity.
  - intros k j Hk Hj. one_row j Hj. two k Hk; split; apply ext_eqb_ok; vm_compute; reflexivity.
  - intros k j Hk Hj. one_row j Hj. three k Hk; split; apply ext_eqb_ok; vm_compute; reflexivity.
  - intros k Hk. three k Hk; split; apply ext_eqb_ok; vm_compute; reflexivity.
  - intros j Hj. one_row j Hj. apply within_b_ok. vm_compute. reflexivity.
  - intros j Hj. one_row j Hj. apply within_b_ok. vm_compute. reflexivity.
  - intros j Hj. one_row j Hj. split; apply ext_eqb_ok; vm_compute; reflexivity.
  - intros j Hj. one_row j Hj. split; apply ext_eqb_ok; vm_compute; reflexivity.
Qed.
Lemma st_weights : weights_nonneg rd (cfg_run st_h).
Proof. refine (conj _ (conj _ _)); intros k j Hk Hj; one_row j Hj; three k Hk; vm_compute; reflexivity. Qed.
Definition st_z1 : nat -> Qc := z_of rd (qf [1]%Z) (fun i _ => qf [5; 2; 2; 2]%Z i) (fun i _ => qf [-3; 0; 0]%Z i).
Definition st_z2 : nat -> Qc := z_of rd (qf [-3]%Z) (fun i _ => qf [2; 2; 2; 2]%Z i) (fun i _ => qf [0; 0; 0]%Z i).
Lemma st_A : pl_A (wp st_h) 0 0 = s1 /\ pl_B (wp st_h) 0 0 = s1. Proof. split; apply qc_eq; vm_compute; reflexivity. Qed.
Lemma st_optimal s h x u z : SpecLMPC.reached qj qej rd s h -> cfg_run h = cfg_run st_h -> sized x 1 1 -> sized u 1 1 -> qp_feasible (l_call rd s x u) z -> qp_optimal (l_call rd s x u) z.
Proof.
  intros R E X U Q. assert (P : 0 < d_ph rd) by (cbn; lia). pose proof st_plant as G. rewrite <- E in G.
  apply (opt_of_unique qj qej rd s h (wp st_h) x u z P R G X U Q). rewrite E. intros Xa Ua Xb Ub A B. exact (forced_cost _ _ _ _ _ _ _ _ _ _ (proj1 st_A) (proj2 st_A) st_rest A B).
Qed.
Definition st_step (s : lmpc Qc) x u z := l_step qj qej rd s (LOptimize x u (ASolution z (fun _ => q 0) 1%Z (Fin (q 0)))).
(** two periods *)
Example C87_instance : exists s h x u pe1 pe2, control_run qj qej rd s h x u [pe1; pe2] /\ good_loop rd (qf [2]%Z) (qf [0]%Z) [pe1; pe2] /\
  (forall q, In q [pe1; pe2] -> weights_nonneg rd (pe_cfg q)) /\ vec (pe_x pe1) 0 = q 5 /\ vec (pe_u pe1) 0 = q 1 /\ vec (r_cmd (pe_res pe1)) 0 = q (-3) /\ vec (pe_x pe2) 0 = q 2.
Proof.
  pose proof (w_run rd st_ops (qv [5]%Z) (qv [1]%Z) ltac:(repeat split) ltac:(repeat split) ltac:(all_sized) ltac:(all_proper) ltac:(reflexivity) ltac:(vm_compute; reflexivity)) as R0.
  pose proof st_plant as G. assert (P : 0 < d_ph rd) by (cbn; lia).
  destruct (ret_res_ok (st_step st_s (qv [5]%Z) (qv [1]%Z) st_z1) ltac:(vm_compute; reflexivity)) as (s1 & r1 & E1).
  assert (C1 : vec (r_cmd r1) 0 = q (-3)).
  { pose proof (step_res qj qej rd _ _ _ _ _ _ E1) as <-. assert (B : match st_step st_s (qv [5]%Z) (qv [1]%Z) st_z1 with Ok (s', _) => sleb (vec (r_cmd (o_res (l_o s'))) 0) (q (-3)) && sleb (q (-3)) (vec (r_cmd (o_res (l_o s'))) 0) | UB => false end = true) by (vm_compute; reflexivity).
    rewrite E1 in B. apply qc_eq. exact B. }
  assert (B : match st_step st_s (qv [5]%Z) (qv [1]%Z) st_z1 with
              | Ok (s', RResult r) => let x' := after rd (wp st_h) (cfg_run st_h) (qv [5]%Z) (r_cmd r) in ret_res (st_step s' x' (r_cmd r) st_z2) && feasible_b (l_call rd s' x' (r_cmd r)) st_z2 | _ => false end = true) by (vm_compute; reflexivity).
  rewrite E1 in B. cbn zeta in B.
  set (p := wp st_h) in *. set (c := cfg_run st_h) in *. set (x1 := after rd p c (qv [5]%Z) (r_cmd r1)) in *.
  pose proof (next_period rd _ _ _ _ _ p c _ s1 r1 R0 eq_refl G E1) as R1. fold x1 in R1.
  apply andb_true_iff in B. destruct B as [B2 Q2]. apply ret_res_ok in B2. destruct B2 as (s2 & r2 & E2). set (x2 := after rd p c x1 (r_cmd r2)).
  pose proof (next_period rd _ _ _ _ _ p c _ s2 r2 R1 (cfg_same _ _ _ _ _) G E2) as R2. fold x2 in R2.
  assert (X1 : vec x1 0 = q 2) by (unfold x1, after, vec at 1; cbn [ent]; unfold next_state; cbn [d_nu d_nx d_ndu rd ssum]; rewrite C1; apply qc_eq; vm_compute; reflexivity).
  assert (S1 : qp_optimal (l_call rd st_s (qv [5]%Z) (qv [1]%Z)) st_z1).
  { apply (st_optimal _ st_h); [exact st_reached|reflexivity|repeat split|repeat split|apply feasible_b_ok; vm_compute; reflexivity]. }
  destruct (run_reached _ _ _ _ _ _ _ _ P R1) as (Rs1 & X1s & U1s).
  assert (S2 : qp_optimal (l_call rd s1 x1 (r_cmd r1)) st_z2).
  { apply (st_optimal _ _ _ _ _ Rs1 (cfg_same _ _ _ _ _) X1s U1s). now apply feasible_b_ok. }
  cbn [app] in R2. eexists _, _, _, _, _, _. refine (conj R2 (conj _ (conj _ (conj _ (conj _ (conj _ _)))))); cbn [pe_x pe_u pe_res].
  - intros pe Ip. destruct Ip as [<-|[<-|[]]].
    + refine (conj st_rest (conj _ _)); [exists st_z1, (fun _ => q 0), 1%Z, (Fin (q 0)); exact (conj eq_refl S1)|]. intros q0 [<-|[<-|[]]]; apply same_data_refl.
    + refine (conj st_rest (conj _ _)); [exists st_z2, (fun _ => q 0), 1%Z, (Fin (q 0)); exact (conj eq_refl S2)|]. intros q0 [<-|[<-|[]]]; apply same_data_refl.
  - intros q0 [<-|[<-|[]]]; exact st_weights.
  - reflexivity.
  - reflexivity.
  - exact C1.
  - exact X1.
Qed.
