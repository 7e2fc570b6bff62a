(** Property C91: the principle of optimality. What is left of an optimal plan after its first period is optimal for the controller with one step less to go. *)
From Coq Require Import Bool Arith ZArith List Lia QArith Qcanon Ring Field.
From Verif Require Import Scalar Sums Mat Slice Csc CscProof Builder BuilderEnt LMPC SpecLMPC SpecQP SpecCert LMPCRef LQP LRows LUniq Wit PropLMPC1 PropLMPC2 PropLMPC3 PropLMPC4 PropLMPC5 SpecLoop PropLoop SpecMeta PropMeta SpecTail.
Import ListNotations.
Local Open Scope nat_scope.

Section Tail.
  Context {F : Type} {SO : ScalarOps F} {SL : ScalarLaws F}.
  Add Field SFtail : (@s_field F SO SL).
  Implicit Types (s : lmpc F) (h : list (lop F * ret F)) (p : plant F) (z : nat -> F) (d : dims).

  (** the cost, stage by stage *)
  Definition st_y d p (c : cfg F) (x : nat -> nat -> F) (i : nat) : F := ssum (d_ny d) (fun j => g_wy c (stp i) j * sq (output d p c x i j - g_yr c (stp i) j))%S.
  Definition st_u d (c : cfg F) (um : nat -> F) (u : nat -> nat -> F) (i : nat) : F := ssum (d_nu d) (fun j => g_wu c (stp i) j * sq (ucmd um u i j - g_ur c (stp i) j))%S.
  Definition st_du d (c : cfg F) (um : nat -> F) (u : nat -> nat -> F) (i : nat) : F := ssum (d_nu d) (fun j => g_wdu c i j * sq (dcmd um u i j - g_dur c (stp i) j))%S.
  Definition head d p c um x u : F := (st_y d p c x 0 + st_y d p c x 1 + st_u d c um u 0 + st_u d c um u 1 + st_du d c um u 0)%S.
  Definition rest d p c um x u : F := (ssum (d_ph d - 1) (fun i => st_y d p c x (S (S i))) + ssum (d_ph d - 1) (fun i => st_u d c um u (S (S i))) + ssum (d_ph d - 1) (fun i => st_du d c um u (S i)))%S.
  Lemma cost_split d p c um x u : 2 <= d_ph d -> tracking_cost d p c um x u = (head d p c um x u + rest d p c um x u)%S.
  Proof.
    intros P. change (tracking_cost d p c um x u) with (ssum (d_ph d + 1) (st_y d p c x) + ssum (d_ph d + 1) (st_u d c um u) + ssum (d_ph d) (st_du d c um u))%S.
    unfold head, rest. remember (d_ph d - 1) as n eqn:En. replace (d_ph d + 1) with (S (S n)) by lia. replace (d_ph d) with (S n) by lia.
    rewrite !ssum_S_l. cbn beta. ring.
  Qed.
  Definition head' d p c um x u : F := (st_y d p c x 0 + st_u d c um u 0)%S.
  Definition rest' d p c um x u : F := (ssum (d_ph d) (fun i => st_y d p c x (S i)) + ssum (d_ph d) (fun i => st_u d c um u (S i)) + ssum (d_ph d) (fun i => st_du d c um u i))%S.
  Lemma cost_split' d p c um x u : tracking_cost d p c um x u = (head' d p c um x u + rest' d p c um x u)%S.
  Proof.
    change (tracking_cost d p c um x u) with (ssum (d_ph d + 1) (st_y d p c x) + ssum (d_ph d + 1) (st_u d c um u) + ssum (d_ph d) (st_du d c um u))%S.
    unfold head', rest'. replace (d_ph d + 1) with (S (d_ph d)) by lia. rewrite !ssum_S_l. change (fun i => st_du d c um u i) with (st_du d c um u). ring.
  Qed.

  Variables (junk : nat -> nat -> F) (ejunk : nat -> nat -> ext F) (d : dims).
  Notation nx := (d_nx d). Notation nu := (d_nu d). Notation ndu := (d_ndu d).
  Notation ny := (d_ny d). Notation ph := (d_ph d). Notation ch := (d_ch d).
  Notation d' := (shorter d).

  Section Shift.
    Variables (p p' : plant F) (c c' : cfg F) (x0 um : nat -> F) (x u : nat -> nat -> F).
    Hypotheses (P : 2 <= ph) (C1 : 1 <= ch) (Gp : g_plant c = Some p) (Gp' : g_plant c' = Some p') (CT : continues d c c') (Ad : admissible d p c x0 um x u).
    Let PE : same_plant d (Some p) (Some p').
    Proof. pose proof (ct_model _ _ _ CT) as (H & _). now rewrite Gp, Gp' in H. Qed.
    Lemma dyn_same (v w : nat -> F) k j : S k < ph -> j < nx ->
      (ssum nx (fun l => pl_A p' j l * v l) + ssum nu (fun l => pl_B p' j l * w l) + ssum ndu (fun l => g_Bd c' j l * g_d c' k l))%S
      = (ssum nx (fun l => pl_A p j l * v l) + ssum nu (fun l => pl_B p j l * w l) + ssum ndu (fun l => g_Bd c j l * g_d c (S k) l))%S.
    Proof.
      intros Hk Hj. destruct PE as (MA & MB & _). pose proof (ct_model _ _ _ CT) as (_ & MD & _). f_equal; [f_equal|]; apply ssum_ext; intros l Hl.
      - now rewrite (MA j l Hj Hl).
      - now rewrite (MB j l Hj Hl).
      - now rewrite (MD j l Hj Hl), (ct_d _ _ _ CT k l Hk Hl).
    Qed.
    (** the output of step k+1 of the long horizon is that of step k of the short one *)
    Lemma out_same (X X' : nat -> nat -> F) i j : S i < ph -> j < ny -> (forall l, l < nx -> X' (S i) l = X (S (S i)) l) -> output d' p' c' X' (S i) j = output d p c X (S (S i)) j.
    Proof.
      intros Hi Hj E. destruct PE as (_ & _ & MC). pose proof (ct_model _ _ _ CT) as (_ & _ & MD). unfold output. cbn [d_nx d_ndu shorter stp Nat.pred]. f_equal; apply ssum_ext; intros l Hl.
      - now rewrite (MC j l Hj Hl), E.
      - now rewrite (MD j l Hj Hl), (ct_d _ _ _ CT i l Hi Hl).
    Qed.
    Variables (x1 u1 : nat -> F).
    Hypotheses (E1 : forall j, j < nx -> x1 j = x 1 j) (E2 : forall j, j < nu -> u1 j = u 0 j).
    (** a plan of the short horizon, preceded by the first period of the long one *)
    Variables (X' U' : nat -> nat -> F).
    Definition long_x (i : nat) : nat -> F := match i with O => x 0 | S k => X' k end.
    Definition long_u (i : nat) : nat -> F := match i with O => u 0 | S k => U' k end.
    Lemma long_ucmd i j : j < nu -> ucmd um long_u (S i) j = ucmd u1 U' i j.
    Proof. intros Hj. destruct i as [|i]; cbn [ucmd long_u]; [symmetry; now apply E2|reflexivity]. Qed.
    Hypothesis (Ad' : admissible d' p' c' x1 u1 X' U').
    Lemma long_admissible : admissible d p c x0 um long_x long_u.
    Proof.
      destruct Ad as ((T0 & T1) & BX & BY & BU & Fz & BS). destruct Ad' as ((T0' & T1') & BX' & BY' & BU' & Fz' & BS'). unfold state_ok, output_ok, input_ok, frozen, scalar_ok in *. cbn [d_nx d_nu d_ndu d_ny d_ph d_ch shorter] in *.
      assert (X1 : forall j, j < nx -> long_x 1 j = x 1 j) by (intros j Hj; cbn [long_x]; now rewrite (T0' j Hj), E1).
      refine (conj (conj _ _) (conj _ (conj _ (conj _ (conj _ _))))).
      - exact T0.
      - intros [|k] j Hk Hj.
        + rewrite X1 by exact Hj. exact (T1 0 j Hk Hj).
        + cbn [long_x long_u]. rewrite (T1' k j) by (lia || exact Hj). apply dyn_same; [exact Hk|exact Hj].
      - intros [|[|i]] j Hi Hj.
        + exact (BX 0 j Hi Hj).
        + rewrite X1 by exact Hj. exact (BX 1 j Hi Hj).
        + pose proof (BX' (S i) j ltac:(lia) Hj) as B. cbn [stp Nat.pred] in B |- *. destruct (ct_xb _ _ _ CT i j ltac:(lia) Hj) as [<- <-]. exact B.
      - intros [|[|i]] j Hi Hj.
        + exact (BY 0 j Hi Hj).
        + pose proof (BY 1 j Hi Hj) as B. assert (output d p c long_x 1 j = output d p c x 1 j) as ->; [|exact B]. unfold output. f_equal. apply ssum_ext. intros l Hl. now rewrite X1.
        + pose proof (BY' (S i) j ltac:(lia) Hj) as B. rewrite (out_same long_x X') in B by (lia || exact Hj || reflexivity). cbn [stp Nat.pred] in B |- *. destruct (ct_yb _ _ _ CT i j ltac:(lia) Hj) as [<- <-]. exact B.
      - intros [|i] j Hi Hj.
        + exact (BU 0 j Hi Hj).
        + rewrite long_ucmd by exact Hj. pose proof (BU' i j ltac:(lia) Hj) as B. destruct (ct_ub _ _ _ CT (Nat.min i (ph - 1 - 1)) j ltac:(lia) Hj) as [E3 E4]. rewrite E3, E4 in B.
          replace (Nat.min (S i) (ph - 1)) with (S (Nat.min i (ph - 1 - 1))) by lia. exact B.
      - intros [|i] j Hi Hi' Hj; [lia|]. rewrite long_ucmd by exact Hj. cbn [long_u]. apply Fz'; lia || exact Hj.
      - assert (SM : forall k v w, S k < ph -> within (g_slo c' k) (g_shi c' k) (ssum nx (fun l => g_sX c' l * v l) + ssum nu (fun l => g_sU c' l * w l))%S ->
                       within (g_slo c (S k)) (g_shi c (S k)) (ssum nx (fun l => g_sX c l * v l) + ssum nu (fun l => g_sU c l * w l))%S).
        { intros k v w Hk B. destruct (ct_sb _ _ _ CT k Hk) as [E3 E4]. rewrite E3, E4 in B. destruct (ct_mult _ _ _ CT) as [MX MU]. eapply within_eq; [reflexivity|reflexivity| |exact B].
          f_equal; apply ssum_ext; intros l Hl; [now rewrite (MX l Hl)|now rewrite (MU l Hl)]. }
        intros [|[|i]] Hi.
        + exact (BS 0 Hi).
        + eapply within_eq; [reflexivity|reflexivity| |exact (BS 1 Hi)]. f_equal. apply ssum_ext. intros l Hl. now rewrite X1.
        + exact (SM i _ _ ltac:(lia) (BS' (S i) ltac:(lia))).
    Qed.
    Lemma long_head : head d p c um long_x long_u = head d p c um x u.
    Proof.
      assert (X1 : forall j, j < nx -> long_x 1 j = x 1 j) by (intros j Hj; cbn [long_x]; rewrite (proj1 (proj1 Ad') j Hj); now apply E1).
      unfold head. assert (st_y d p c long_x 1 = st_y d p c x 1) as ->; [|reflexivity].
      unfold st_y. apply ssum_ext. intros j Hj. assert (output d p c long_x 1 j = output d p c x 1 j) as ->; [|reflexivity]. unfold output. f_equal. apply ssum_ext. intros l Hl. now rewrite X1.
    Qed.
  End Shift.

  (** the two costs differ by what the first period decides *)
  Lemma rest_same p p' c c' um u1 x u X' U' : 2 <= ph -> g_plant c = Some p -> g_plant c' = Some p' -> continues d c c' -> steady_increments d c ->
    (forall i j, i < ph -> j < nx -> X' i j = x (S i) j) -> (forall i j, S i < ph -> j < nu -> U' i j = u (S i) j) -> (forall j, j < nu -> u1 j = u 0 j) ->
    rest' d' p' c' u1 X' U' = rest d p c um x u.
  Proof.
    intros P Gp Gp' CT SI EX EU E2. unfold rest', rest. cbn [d_ph shorter].
    assert (EC : forall i j, i < ph -> j < nu -> ucmd u1 U' i j = ucmd um u (S i) j) by (intros [|i] j Hi Hj; cbn [ucmd]; [now apply E2|apply EU; [lia|exact Hj]]).
    f_equal; [f_equal|]; apply ssum_ext; intros i Hi; apply ssum_ext; intros j Hj; cbn [d_ny d_nu shorter stp Nat.pred] in Hj |- *.
    - rewrite (out_same p p' c c' Gp Gp' CT x X') by (lia || exact Hj || (intros; apply EX; lia)).
      rewrite (ct_wy _ _ _ CT), (ct_yr _ _ _ CT) by (lia || exact Hj). reflexivity.
    - rewrite EC by (lia || exact Hj). rewrite (ct_wu _ _ _ CT), (ct_ur _ _ _ CT) by (lia || exact Hj). reflexivity.
    - unfold dcmd. rewrite EC, EU by (lia || exact Hj). rewrite (ct_wdu _ _ _ CT) by (lia || exact Hj). rewrite (ct_dur _ _ _ CT) by (try exact Hj; unfold stp; lia).
      assert (g_dur c (S (stp i)) j = g_dur c i j) as ->; [|reflexivity]. destruct i as [|i]; [now apply SI|reflexivity].
  Qed.
  Lemma first_state' p c x0 um x u x1 u1 : 0 < ph -> admissible d p c x0 um x u -> (forall j, j < nu -> u1 j = u 0 j) ->
    (forall j, j < nx -> x1 j = next_state d p c 0 x0 u1 j) -> forall j, j < nx -> x1 j = x 1 j.
  Proof.
    intros P ((T0 & T1) & _) E2 E1 j Hj. rewrite E1 by exact Hj. rewrite (T1 0 j P Hj). unfold next_state. f_equal. f_equal; apply ssum_ext; intros l Hl; [now rewrite T0|now rewrite E2].
  Qed.
  (** the plan without its first period obeys the constraints of the short horizon *)
  Lemma tail_admissible p p' c c' x0 um x u x1 u1 : 2 <= ph -> 1 <= ch -> g_plant c = Some p -> g_plant c' = Some p' -> continues d c c' -> steady_start d c ->
    admissible d p c x0 um x u -> (forall j, j < nx -> x1 j = x 1 j) -> (forall j, j < nu -> u1 j = u 0 j) ->
    admissible d' p' c' x1 u1 (fun i => x (S i)) (fun i => u (S i)).
  Proof.
    intros P C1 Gp Gp' CT ST ((T0 & T1) & BX & BY & BU & Fz & BS) E1 E2.
    assert (EC : forall i j, j < nu -> ucmd u1 (fun i => u (S i)) i j = ucmd um u (S i) j) by (intros [|i] j Hj; [cbn [ucmd]; now apply E2|reflexivity]).
    assert (MP := proj1 (ct_model _ _ _ CT)). rewrite Gp, Gp' in MP. destruct MP as (_ & _ & MC). pose proof (ct_model _ _ _ CT) as (_ & _ & MD).
    refine (conj (conj _ _) (conj _ (conj _ (conj _ (conj _ _))))); unfold state_ok, output_ok, input_ok, frozen, scalar_ok in *; cbn [d_nx d_nu d_ndu d_ny d_ph d_ch shorter].
    - intros j Hj. symmetry. now apply E1.
    - intros k j Hk Hj. rewrite (T1 (S k) j) by (lia || exact Hj). symmetry. apply (dyn_same p p' c c' Gp Gp' CT); lia || exact Hj.
    - intros [|i] j Hi Hj; cbn [stp Nat.pred].
      + destruct (ct_xb _ _ _ CT 0 j ltac:(lia) Hj) as [-> ->]. destruct (ss_xb _ _ ST j Hj) as [-> ->]. exact (BX 1 j ltac:(lia) Hj).
      + destruct (ct_xb _ _ _ CT i j ltac:(lia) Hj) as [-> ->]. exact (BX (S (S i)) j ltac:(lia) Hj).
    - intros [|i] j Hi Hj; cbn [stp Nat.pred].
      + destruct (ct_yb _ _ _ CT 0 j ltac:(lia) Hj) as [-> ->]. destruct (ss_yb _ _ ST j Hj) as [-> ->].
        eapply within_eq; [reflexivity|reflexivity| |exact (BY 1 j ltac:(lia) Hj)]. unfold output. cbn [d_nx d_ndu shorter stp Nat.pred]. f_equal; apply ssum_ext; intros l Hl.
        * now rewrite (MC j l Hj Hl).
        * now rewrite (MD j l Hj Hl), (ct_d _ _ _ CT 0 l), (ss_d _ _ ST l) by (lia || exact Hl).
      + destruct (ct_yb _ _ _ CT i j ltac:(lia) Hj) as [-> ->]. rewrite (out_same p p' c c' Gp Gp' CT x) by (lia || exact Hj || reflexivity). exact (BY (S (S i)) j ltac:(lia) Hj).
    - intros i j Hi Hj. rewrite EC by exact Hj. destruct (ct_ub _ _ _ CT (Nat.min i (ph - 1 - 1)) j ltac:(lia) Hj) as [-> ->].
      replace (S (Nat.min i (ph - 1 - 1))) with (Nat.min (S i) (ph - 1)) by lia. exact (BU (S i) j ltac:(lia) Hj).
    - intros i j Hi Hi' Hj. rewrite EC by exact Hj. cbn [d_ph d_ch d_nu shorter] in *. exact (Fz (S i) j ltac:(lia) ltac:(lia) Hj).
    - assert (SM : forall k v w w', S k < ph -> (forall l, l < nu -> w' l = w l) -> within (g_slo c (S k)) (g_shi c (S k)) (ssum nx (fun l => g_sX c l * v l) + ssum nu (fun l => g_sU c l * w l))%S ->
                     within (g_slo c' k) (g_shi c' k) (ssum nx (fun l => g_sX c' l * v l) + ssum nu (fun l => g_sU c' l * w' l))%S).
      { intros k v w w' Hk Ew B. destruct (ct_sb _ _ _ CT k Hk) as [-> ->]. destruct (ct_mult _ _ _ CT) as [MX MU]. eapply within_eq; [reflexivity|reflexivity| |exact B].
        f_equal; apply ssum_ext; intros l Hl; [now rewrite (MX l Hl)|now rewrite (MU l Hl), Ew]. }
      intros [|i] Hi; cbn [stp Nat.pred].
      + apply (SM 0 _ (u 0)); [lia|intros l Hl; cbn [ucmd]; now apply E2|]. destruct (ss_sb _ _ ST) as [-> ->]. exact (BS 1 ltac:(lia)).
      + apply (SM i _ (u (S i))); [lia|intros l Hl; reflexivity|]. exact (BS (S (S i)) ltac:(lia)).
  Qed.
  Lemma cost_ext' e p c um X X' U U' : (forall i a, i <= d_ph e -> a < d_nx e -> X i a = X' i a) -> (forall i a, i < d_ph e -> a < d_nu e -> U i a = U' i a) ->
    tracking_cost e p c um X U = tracking_cost e p c um X' U'.
  Proof.
    intros EX EU. assert (Eu : forall i a, i <= d_ph e -> a < d_nu e -> ucmd um U i a = ucmd um U' i a) by (intros [|i] a Hi Ha; [reflexivity|cbn [ucmd]; apply EU; lia]).
    unfold tracking_cost. f_equal; [f_equal|]; apply ssum_ext; intros i Hi; apply ssum_ext; intros j Hj.
    - assert (output e p c X i j = output e p c X' i j) as ->; [|reflexivity]. unfold output. f_equal. apply ssum_ext. intros l Hl. now rewrite EX by lia.
    - now rewrite Eu by lia.
    - unfold dcmd. now rewrite Eu, EU by lia.
  Qed.
  Lemma um_ext p c um um' x u : (forall j, j < nu -> um j = um' j) -> 0 < ph -> tracking_cost d p c um x u = tracking_cost d p c um' x u.
  Proof.
    intros E P. assert (Eu : forall i a, a < nu -> ucmd um u i a = ucmd um' u i a) by (intros [|i] a Ha; [now apply E|reflexivity]).
    unfold tracking_cost. f_equal; [f_equal|]; apply ssum_ext; intros i Hi; apply ssum_ext; intros j Hj; [now rewrite Eu|unfold dcmd; now rewrite Eu].
  Qed.
  (** under a steady start the first period costs what the two plans differ by *)
  Lemma tail_cost p p' c c' x0 um x u u1 : 2 <= ph -> g_plant c = Some p -> g_plant c' = Some p' -> continues d c c' -> steady_start d c -> steady_increments d c ->
    admissible d p c x0 um x u -> (forall j, j < nu -> u1 j = u 0 j) ->
    (tracking_cost d' p' c' u1 (fun i => x (S i)) (fun i => u (S i)) + first_cost d p c x0 um (u O))%S = tracking_cost d p c um x u.
  Proof.
    intros P Gp Gp' CT ST SI Ad E2. rewrite cost_split', cost_split by exact P.
    rewrite (rest_same p p' c c' um u1 x u (fun i => x (S i)) (fun i => u (S i)) P Gp Gp' CT SI) by (reflexivity || exact E2).
    assert (MP := proj1 (ct_model _ _ _ CT)). rewrite Gp, Gp' in MP. destruct MP as (_ & _ & MC). pose proof (ct_model _ _ _ CT) as (_ & _ & MD).
    assert (HY : st_y d' p' c' (fun i => x (S i)) 0 = st_y d p c x 1).
    { unfold st_y. cbn [d_ny shorter stp Nat.pred]. apply ssum_ext. intros j Hj. rewrite (ct_wy _ _ _ CT), (ct_yr _ _ _ CT), (ss_wy _ _ ST), (ss_yr _ _ ST) by (lia || exact Hj).
      f_equal. f_equal. f_equal. unfold output. cbn [d_nx d_ndu shorter stp Nat.pred]. f_equal; apply ssum_ext; intros l Hl; [now rewrite (MC j l Hj Hl)|].
      now rewrite (MD j l Hj Hl), (ct_d _ _ _ CT 0 l), (ss_d _ _ ST l) by (lia || exact Hl). }
    assert (HU : st_u d' c' u1 (fun i => u (S i)) 0 = st_u d c um u 1).
    { unfold st_u. cbn [d_nu shorter stp Nat.pred ucmd]. apply ssum_ext. intros j Hj. rewrite (ct_wu _ _ _ CT), (ct_ur _ _ _ CT), (ss_wu _ _ ST), (ss_ur _ _ ST) by (lia || exact Hj). now rewrite E2. }
    assert (F0 : first_cost d p c x0 um (u 0) = (st_y d p c x 0 + st_u d c um u 0 + st_du d c um u 0)%S).
    { unfold first_cost. f_equal. f_equal. unfold st_y. apply ssum_ext. intros j Hj. unfold output. cbn [stp Nat.pred]. f_equal. f_equal. f_equal. f_equal. apply ssum_ext. intros l Hl. now rewrite (proj1 (proj1 Ad) l Hl). }
    unfold head', head. rewrite HY, HU, F0. ring.
  Qed.

  Notation reached := (SpecLMPC.reached junk ejunk).
  (** *** C91. Two controllers: the second has one step less to go, and says about each of its steps what the first says about the next one. *)
  Theorem C91_tail_feasible s h p x0 u0 z s' h' p' x1 u1 :
    2 <= ph -> 1 <= ch -> reached d s h -> reached d' s' h' -> g_plant (cfg_run h) = Some p -> g_plant (cfg_run h') = Some p' ->
    continues d (cfg_run h) (cfg_run h') -> steady_start d (cfg_run h) -> steady_increments d (cfg_run h) ->
    sized x0 nx 1 -> sized u0 nu 1 -> sized x1 nx 1 -> sized u1 nu 1 -> qp_feasible (l_call d s x0 u0) z ->
    (forall j, j < nu -> vec u1 j = z_cmd d z 0 j) -> (forall j, j < nx -> vec x1 j = next_state d p (cfg_run h) 0 (vec x0) (vec u1) j) ->
    exists z', qp_feasible (l_call d' s' x1 u1) z' /\
      (forall i j, i < ph -> j < nx -> z_state d' z' i j = z_state d z (S i) j) /\ (forall k j, S k < ph -> j < nu -> z_cmd d' z' k j = z_cmd d z (S k) j) /\
      (tracking_cost d' p' (cfg_run h') (vec u1) (z_state d' z') (z_cmd d' z') + first_cost d p (cfg_run h) (vec x0) (vec u0) (vec u1)
       = tracking_cost d p (cfg_run h) (vec u0) (z_state d z) (z_cmd d z))%S.
  Proof.
    intros P C1 R R' G G' CT ST SI X U X1 U1 Q E2 E1. assert (P0 : 0 < ph) by lia. assert (P1 : 0 < d_ph d') by (cbn; lia).
    destruct (proj1 (C01_feasible_iff_admissible junk ejunk d s h p x0 u0 z P0 R G X U) Q) as [A T].
    pose proof (first_state' _ _ _ _ _ _ _ _ P0 A E2 E1) as E1'.
    pose proof (tail_admissible p p' _ _ _ _ _ _ (vec x1) (vec u1) P C1 G G' CT ST A E1' E2) as A'.
    destruct (C01_admissible_represented junk ejunk d' s' h' p' x1 u1 _ _ P1 R' G' X1 U1 A') as (Q' & ZX & ZU). eexists. split; [exact Q'|].
    refine (conj _ (conj _ _)).
    - intros i j Hi Hj. apply ZX; [cbn; lia|exact Hj].
    - intros k j Hk Hj. apply ZU; [cbn; lia|exact Hj].
    - rewrite (cost_ext' _ _ _ _ _ _ _ _ ZX ZU). rewrite <- (tail_cost p p' _ _ (vec x0) (vec u0) (z_state d z) (z_cmd d z) (vec u1) P G G' CT ST SI A E2). f_equal.
      unfold first_cost. f_equal. apply ssum_ext. intros j Hj. now rewrite E2.
  Qed.
  (** whatever solves the second problem with what is left of an optimal plan of the first solves it optimally *)
  Theorem C91_tail_optimal s h p x0 u0 z s' h' p' x1 u1 z' :
    2 <= ph -> 1 <= ch -> reached d s h -> reached d' s' h' -> g_plant (cfg_run h) = Some p -> g_plant (cfg_run h') = Some p' ->
    continues d (cfg_run h) (cfg_run h') -> steady_increments d (cfg_run h) ->
    sized x0 nx 1 -> sized u0 nu 1 -> sized x1 nx 1 -> sized u1 nu 1 -> qp_optimal (l_call d s x0 u0) z ->
    (forall j, j < nu -> vec u1 j = z_cmd d z 0 j) -> (forall j, j < nx -> vec x1 j = next_state d p (cfg_run h) 0 (vec x0) (vec u1) j) ->
    qp_feasible (l_call d' s' x1 u1) z' ->
    (forall i j, i < ph -> j < nx -> z_state d' z' i j = z_state d z (S i) j) -> (forall k j, S k < ph -> j < nu -> z_cmd d' z' k j = z_cmd d z (S k) j) ->
    qp_optimal (l_call d' s' x1 u1) z'.
  Proof.
    intros P C1 R R' G G' CT SI X U X1 U1 O E2 E1 Q' ZX ZU. assert (P0 : 0 < ph) by lia. assert (P1 : 0 < d_ph d') by (cbn; lia).
    destruct (C15_optimality_transfer junk ejunk d s h p x0 u0 z P0 R G X U O) as [A Op].
    pose proof (first_state' _ _ _ _ _ _ _ _ P0 A E2 E1) as E1'.
    split; [exact Q'|]. intros y Qy.
    destruct (proj1 (C01_feasible_iff_admissible junk ejunk d' s' h' p' x1 u1 z' P1 R' G' X1 U1) Q') as [Az Tz].
    destruct (proj1 (C01_feasible_iff_admissible junk ejunk d' s' h' p' x1 u1 y P1 R' G' X1 U1) Qy) as [Ay Ty].
    destruct (C02_cost_is_tracking_cost junk ejunk d' s' h' p' x1 u1 P1 R' G' X1 U1) as [K HK].
    apply le_half. apply (sle_add_cancel _ _ K). rewrite (HK _ Tz), (HK _ Ty).
    set (xl := long_x (z_state d z) (z_state d' y)). set (ul := long_u (z_cmd d z) (z_cmd d' y)).
    pose proof (long_admissible p p' _ _ _ _ _ _ P C1 G G' CT A (vec x1) (vec u1) E1' E2 (z_state d' y) (z_cmd d' y) Ay) as AL. fold xl ul in AL.
    pose proof (Op _ _ AL) as L. rewrite !cost_split in L by exact P.
    assert (LH : head d p (cfg_run h) (vec u0) xl ul = head d p (cfg_run h) (vec u0) (z_state d z) (z_cmd d z)) by (eapply long_head; eassumption). rewrite LH in L.
    rewrite !cost_split'.
    assert (H0 : head' d' p' (cfg_run h') (vec u1) (z_state d' z') (z_cmd d' z') = head' d' p' (cfg_run h') (vec u1) (z_state d' y) (z_cmd d' y)).
    { unfold head'. f_equal. unfold st_y. apply ssum_ext. intros j Hj. f_equal. f_equal. f_equal. unfold output. f_equal. apply ssum_ext. intros l Hl. now rewrite (proj1 (proj1 Az) l Hl), (proj1 (proj1 Ay) l Hl). }
    rewrite H0. rewrite (rest_same p p' _ _ (vec u0) (vec u1) (z_state d z) (z_cmd d z) _ _ P G G' CT SI ZX ZU E2).
    rewrite (rest_same p p' _ _ (vec u0) (vec u1) xl ul (z_state d' y) (z_cmd d' y) P G G' CT SI) by (reflexivity || exact E2).
    revert L. generalize (head d p (cfg_run h) (vec u0) (z_state d z) (z_cmd d z)) as a. generalize (rest d p (cfg_run h) (vec u0) (z_state d z) (z_cmd d z)) as b.
    generalize (rest d p (cfg_run h) (vec u0) xl ul) as e. generalize (head' d' p' (cfg_run h') (vec u1) (z_state d' y) (z_cmd d' y)) as g. intros g e b a L.
    apply (sle_add_cancel _ _ a). replace (g + b + a)%S with (g + (a + b))%S by ring. replace (g + e + a)%S with (g + (a + e))%S by ring. apply sle_add; [apply sle_refl|exact L].
  Qed.
  (** the two optimal costs differ by the cost of the first period *)
  Theorem C91_optimal_costs s h p x0 u0 z s' h' p' x1 u1 z' :
    2 <= ph -> 1 <= ch -> reached d s h -> reached d' s' h' -> g_plant (cfg_run h) = Some p -> g_plant (cfg_run h') = Some p' ->
    continues d (cfg_run h) (cfg_run h') -> steady_start d (cfg_run h) -> steady_increments d (cfg_run h) ->
    sized x0 nx 1 -> sized u0 nu 1 -> sized x1 nx 1 -> sized u1 nu 1 ->
    qp_optimal (l_call d s x0 u0) z -> (forall j, j < nu -> vec u1 j = z_cmd d z 0 j) -> (forall j, j < nx -> vec x1 j = next_state d p (cfg_run h) 0 (vec x0) (vec u1) j) ->
    qp_optimal (l_call d' s' x1 u1) z' ->
    (tracking_cost d' p' (cfg_run h') (vec u1) (z_state d' z') (z_cmd d' z') + first_cost d p (cfg_run h) (vec x0) (vec u0) (vec u1)
     = tracking_cost d p (cfg_run h) (vec u0) (z_state d z) (z_cmd d z))%S.
  Proof.
    intros P C1 R R' G G' CT ST SI X U X1 U1 O E2 E1 O'. assert (P1 : 0 < d_ph d') by (cbn; lia).
    destruct (C91_tail_feasible s h p x0 u0 z s' h' p' x1 u1 P C1 R R' G G' CT ST SI X U X1 U1 (proj1 O) E2 E1) as (zt & Qt & ZX & ZU & <-).
    pose proof (C91_tail_optimal s h p x0 u0 z s' h' p' x1 u1 zt P C1 R R' G G' CT SI X U X1 U1 O E2 E1 Qt ZX ZU) as Ot.
    f_equal. apply sle_antisym.
    - apply (proj2 (C15_optimality_transfer junk ejunk d' s' h' p' x1 u1 z' P1 R' G' X1 U1 O')).
      exact (proj1 (C15_optimality_transfer junk ejunk d' s' h' p' x1 u1 zt P1 R' G' X1 U1 Ot)).
    - apply (proj2 (C15_optimality_transfer junk ejunk d' s' h' p' x1 u1 zt P1 R' G' X1 U1 Ot)).
      exact (proj1 (C15_optimality_transfer junk ejunk d' s' h' p' x1 u1 z' P1 R' G' X1 U1 O')).
  Qed.
  Lemma continues_weights c c' : continues d c c' -> (weights_nonneg d c -> weights_nonneg d' c') /\ (1 <= ch -> commands_weighted d c -> commands_weighted d' c').
  Proof.
    intros CT. split.
    - intros (W1 & W2 & W3). refine (conj _ (conj _ _)); intros k j Hk Hj; cbn [d_ph d_ny d_nu shorter] in Hk, Hj.
      + rewrite (ct_wy _ _ _ CT) by (lia || exact Hj). apply W1; lia.
      + rewrite (ct_wu _ _ _ CT) by (lia || exact Hj). apply W2; lia.
      + rewrite (ct_wdu _ _ _ CT) by (lia || exact Hj). apply W3; lia.
    - intros C1 W k j Hk Hj. cbn [d_ph d_ch d_nu shorter] in *. rewrite (ct_wu _ _ _ CT), (ct_wdu _ _ _ CT) by (lia || exact Hj).
      destruct (W (S k) j ltac:(lia) Hj) as [H|[H|H]]; [now left|right; now left|right; right; lia].
  Qed.
  (** planning again does not change the plan *)
  Theorem C91_replanning_keeps_the_plan s h p x0 u0 z s' h' p' x1 u1 z' :
    2 <= ph -> 1 <= ch -> reached d s h -> reached d' s' h' -> g_plant (cfg_run h) = Some p -> g_plant (cfg_run h') = Some p' ->
    continues d (cfg_run h) (cfg_run h') -> steady_start d (cfg_run h) -> steady_increments d (cfg_run h) -> weights_nonneg d (cfg_run h) -> commands_weighted d (cfg_run h) ->
    sized x0 nx 1 -> sized u0 nu 1 -> sized x1 nx 1 -> sized u1 nu 1 ->
    qp_optimal (l_call d s x0 u0) z -> (forall j, j < nu -> vec u1 j = z_cmd d z 0 j) -> (forall j, j < nx -> vec x1 j = next_state d p (cfg_run h) 0 (vec x0) (vec u1) j) ->
    qp_optimal (l_call d' s' x1 u1) z' ->
    (forall k j, S k < ph -> j < nu -> z_cmd d' z' k j = z_cmd d z (S k) j) /\ (forall i j, i < ph -> j < nx -> z_state d' z' i j = z_state d z (S i) j).
  Proof.
    intros P C1 R R' G G' CT ST SI Wn W X U X1 U1 O E2 E1 O'. assert (P1 : 0 < d_ph d') by (cbn; lia).
    destruct (C91_tail_feasible s h p x0 u0 z s' h' p' x1 u1 P C1 R R' G G' CT ST SI X U X1 U1 (proj1 O) E2 E1) as (zt & Qt & ZX & ZU & _).
    pose proof (C91_tail_optimal s h p x0 u0 z s' h' p' x1 u1 zt P C1 R R' G G' CT SI X U X1 U1 O E2 E1 Qt ZX ZU) as Ot.
    destruct (continues_weights _ _ CT) as [Wn' W'].
    destruct (C54_unique_optimum junk ejunk d' s' h' p' x1 u1 z' zt P1 R' G' X1 U1 (Wn' Wn) (W' C1 W) O' Ot) as [EU EX]. cbn [d_ph d_nu d_nx shorter] in EU, EX. split.
    - intros k j Hk Hj. rewrite EU by (lia || exact Hj). now apply ZU.
    - intros i j Hi Hj. rewrite EX by (lia || exact Hj). now apply ZX.
  Qed.
  (** ... the second optimize() returns the command the first left as the next one of its sequence, and its sequences are those of the first from the second entry on *)
  Theorem C91_next_command s h p x0 u0 z y code obj s1 r1 s' h' p' x1 z' y' code' obj' s1' r1' :
    2 <= ph -> 1 <= ch -> reached d s h -> reached d' s' h' -> g_plant (cfg_run h) = Some p -> g_plant (cfg_run h') = Some p' ->
    continues d (cfg_run h) (cfg_run h') -> steady_start d (cfg_run h) -> steady_increments d (cfg_run h) -> weights_nonneg d (cfg_run h) -> commands_weighted d (cfg_run h) ->
    sized x0 nx 1 -> sized u0 nu 1 -> sized x1 nx 1 -> sized (r_cmd r1) nu 1 ->
    l_step junk ejunk d s (LOptimize x0 u0 (ASolution z y code obj)) = Ok (s1, RResult r1) -> qp_optimal (l_call d s x0 u0) z ->
    (forall j, j < nx -> vec x1 j = next_state d p (cfg_run h) 0 (vec x0) (vec (r_cmd r1)) j) ->
    l_step junk ejunk d' s' (LOptimize x1 (r_cmd r1) (ASolution z' y' code' obj')) = Ok (s1', RResult r1') -> qp_optimal (l_call d' s' x1 (r_cmd r1)) z' ->
    (forall j, j < nu -> vec (r_cmd r1') j = ent (q_input (o_seq (l_o s1))) 1 j) /\
    (forall i j, i < ph -> j < nu -> ent (q_input (o_seq (l_o s1'))) i j = ent (q_input (o_seq (l_o s1))) (S i) j) /\
    (forall i j, i < ph -> j < nx -> ent (q_state (o_seq (l_o s1'))) i j = ent (q_state (o_seq (l_o s1))) (S i) j).
  Proof.
    intros P C1 R R' G G' CT ST SI Wn W X U X1 U1 E O E1 E' O'. assert (P0 : 0 < ph) by lia. assert (P1 : 0 < d_ph d') by (cbn; lia).
    destruct (C14_sequences junk ejunk d s h p x0 u0 z y code obj s1 _ P0 R G X U E) as (res1 & Er1 & A1 & A2 & A3 & _ & A5 & _). injection Er1 as <-.
    destruct (C14_sequences junk ejunk d' s' h' p' x1 (r_cmd r1) z' y' code' obj' s1' _ P1 R' G' X1 U1 E') as (res2 & Er2 & B1 & B2 & B3 & _ & B5 & _). injection Er2 as <-.
    cbn [d_ph d_nu d_nx shorter] in B1, B2, B3, B5.
    assert (E2 : forall j, j < nu -> vec (r_cmd r1) j = z_cmd d z 0 j) by (intros j Hj; rewrite A5, A2 by (lia || exact Hj); reflexivity).
    destruct (C91_replanning_keeps_the_plan s h p x0 u0 z s' h' p' x1 (r_cmd r1) z' P C1 R R' G G' CT ST SI Wn W X U X1 U1 O E2 E1 O') as [EU EX].
    assert (S1 : forall i j, i < ph -> j < nu -> ent (q_input (o_seq (l_o s1'))) i j = ent (q_input (o_seq (l_o s1))) (S i) j).
    { intros i j Hi Hj. destruct (Nat.eq_dec (S i) ph) as [L|L].
      - replace i with (ph - 1) by lia. rewrite B3 by exact Hj. replace (S (ph - 1)) with ph by lia. rewrite A3 by exact Hj. rewrite EU by (lia || exact Hj). now replace (S (ph - 1 - 1)) with (ph - 1) by lia.
      - rewrite B2, A2 by (lia || exact Hj). apply EU; [lia|exact Hj]. }
    refine (conj _ (conj S1 _)).
    - intros j Hj. rewrite B5 by exact Hj. apply S1; [lia|exact Hj].
    - intros i j Hi Hj. rewrite B1, A1 by (lia || exact Hj). now apply EX.
  Qed.
End Tail.

Section Shrinking.
  Context {F : Type} {SO : ScalarOps F} {SL : ScalarLaws F}.
  Add Field SFshrink : (@s_field F SO SL).
  Variables (junk : nat -> nat -> F) (ejunk : nat -> nat -> ext F) (d : dims).
  Notation nx := (d_nx d). Notation nu := (d_nu d). Notation ph := (d_ph d). Notation ch := (d_ch d).
  Notation dn n := (Nat.iter n shorter d).

  Lemma iter_dims n : d_nx (dn n) = nx /\ d_nu (dn n) = nu /\ d_ndu (dn n) = d_ndu d /\ d_ny (dn n) = d_ny d /\ d_ph (dn n) = ph - n /\ d_ch (dn n) = ch - n.
  Proof. induction n as [|n (A & B & C & D & E & G)]; [change (dn 0) with d; rewrite !Nat.sub_0_r; repeat split|]. change (Nat.iter (S n) shorter d) with (shorter (dn n)). cbn [shorter d_nx d_nu d_ndu d_ny d_ph d_ch]. repeat split; try assumption; lia. Qed.
  Variables (N : nat) (s : nat -> lmpc F) (h : nat -> list (lop F * ret F)) (p : nat -> plant F) (x u : nat -> mat F) (z : nat -> nat -> F).
  Hypotheses (NP : N < ph) (NC : N <= ch) (R : shrinking_run d junk ejunk N s h p x u z).

  (** one period, in the dimensions of the whole task *)
  Lemma period_ready n : n < N -> 2 <= d_ph (dn n) /\ 1 <= d_ch (dn n) /\ reached junk ejunk (dn n) (s n) (h n) /\ reached junk ejunk (shorter (dn n)) (s (S n)) (h (S n)) /\
    sized (x n) (d_nx (dn n)) 1 /\ sized (u n) (d_nu (dn n)) 1 /\ sized (x (S n)) (d_nx (dn n)) 1 /\ sized (u (S n)) (d_nu (dn n)) 1 /\
    (forall j, j < d_nu (dn n) -> vec (u (S n)) j = z_cmd (dn n) (z n) 0 j) /\
    (forall j, j < d_nx (dn n) -> vec (x (S n)) j = next_state (dn n) (p n) (cfg_run (h n)) 0 (vec (x n)) (vec (u (S n))) j).
  Proof.
    intros Hn. destruct (iter_dims n) as (Ex & Eu & Ed & Ey & Ep & Ec). destruct (sr_reached _ _ _ _ _ _ _ _ _ _ R n ltac:(lia)) as (A1 & A2 & A3 & A4). destruct (sr_reached _ _ _ _ _ _ _ _ _ _ R (S n) Hn) as (B1 & B2 & B3 & B4).
    rewrite Ex, Eu, Ep, Ec. refine (conj _ (conj _ (conj A1 (conj B1 (conj A3 (conj A4 (conj B3 (conj B4 (conj _ _))))))))); try lia.
    - intros j Hj. rewrite (sr_given _ _ _ _ _ _ _ _ _ _ R n j Hn Hj). unfold z_cmd. now rewrite Ex, Eu.
    - intros j Hj. rewrite (sr_moves _ _ _ _ _ _ _ _ _ _ R n j Hn Hj). unfold next_state. now rewrite Ex, Eu, Ed.
  Qed.
  Lemma weights_all : weights_nonneg d (cfg_run (h 0)) -> commands_weighted d (cfg_run (h 0)) -> forall n, n <= N -> weights_nonneg (dn n) (cfg_run (h n)) /\ commands_weighted (dn n) (cfg_run (h n)).
  Proof.
    intros W0 C0. induction n as [|n IH]; intros Hn; [now split|]. destruct (IH ltac:(lia)) as [W C]. destruct (iter_dims n) as (_ & _ & _ & _ & _ & Ec).
    destruct (continues_weights (dn n) _ _ (sr_continues _ _ _ _ _ _ _ _ _ _ R n Hn)) as [W' C']. split; [exact (W' W)|apply C'; [lia|exact C]].
  Qed.
  (** C91: what is planned at the beginning is done: every later plan is what is left of the first, the commands given are its commands and the plant passes through its states *)
  Theorem C91_plan_is_kept : weights_nonneg d (cfg_run (h 0)) -> commands_weighted d (cfg_run (h 0)) ->
    (forall n k j, n <= N -> n + k < ph -> j < nu -> z_cmd d (z n) k j = z_cmd d (z 0) (n + k) j) /\
    (forall n i j, n <= N -> n + i <= ph -> j < nx -> z_state d (z n) i j = z_state d (z 0) (n + i) j) /\
    (forall n j, n < N -> j < nu -> vec (u (S n)) j = z_cmd d (z 0) n j) /\
    (forall n j, n <= N -> j < nx -> vec (x n) j = z_state d (z 0) n j).
  Proof.
    intros W0 C0.
    assert (K : forall n, n <= N -> (forall k j, n + k < ph -> j < nu -> z_cmd d (z n) k j = z_cmd d (z 0) (n + k) j) /\ (forall i j, n + i <= ph -> j < nx -> z_state d (z n) i j = z_state d (z 0) (n + i) j)).
    { induction n as [|n IH]; intros Hn; [split; reflexivity|]. destruct (IH ltac:(lia)) as [KU KX]. destruct (iter_dims n) as (Ex & Eu & Ed & Ey & Ep & Ec).
      destruct (period_ready n Hn) as (P & C1 & R1 & R2 & X & U & X1 & U1 & E2 & E1). destruct (weights_all W0 C0 n ltac:(lia)) as [Wn Wc].
      destruct (sr_reached _ _ _ _ _ _ _ _ _ _ R n ltac:(lia)) as (_ & G & _). destruct (sr_reached _ _ _ _ _ _ _ _ _ _ R (S n) Hn) as (_ & G' & _).
      destruct (C91_replanning_keeps_the_plan junk ejunk (dn n) (s n) (h n) (p n) (x n) (u n) (z n) (s (S n)) (h (S n)) (p (S n)) (x (S n)) (u (S n)) (z (S n)) P C1 R1 R2 G G'
        (sr_continues _ _ _ _ _ _ _ _ _ _ R n Hn) (proj1 (sr_steady _ _ _ _ _ _ _ _ _ _ R n Hn)) (proj2 (sr_steady _ _ _ _ _ _ _ _ _ _ R n Hn)) Wn Wc X U X1 U1 (sr_optimal _ _ _ _ _ _ _ _ _ _ R n ltac:(lia)) E2 E1 (sr_optimal _ _ _ _ _ _ _ _ _ _ R (S n) Hn)) as [A B].
      rewrite Eu, Ep in A. rewrite Ex, Ep in B. unfold z_cmd, z_state in A, B |- *. cbn [shorter d_nx d_nu] in A, B. rewrite Ex, Eu in A, B. split.
      - intros k j Hk Hj. rewrite A by (lia || exact Hj). pose proof (KU (S k) j ltac:(lia) Hj) as E. unfold z_cmd in E. rewrite E. now replace (n + S k) with (S n + k) by lia.
      - intros i j Hi Hj. rewrite B by (lia || exact Hj). pose proof (KX (S i) j ltac:(lia) Hj) as E. unfold z_state in E. rewrite E. now replace (n + S i) with (S n + i) by lia. }
    refine (conj _ (conj _ (conj _ _))).
    - intros n k j Hn. now apply K.
    - intros n i j Hn. now apply K.
    - intros n j Hn Hj. rewrite (sr_given _ _ _ _ _ _ _ _ _ _ R n j Hn Hj). rewrite (proj1 (K n ltac:(lia)) 0 j) by (lia || exact Hj). now rewrite Nat.add_0_r.
    - intros n j Hn Hj. destruct (iter_dims n) as (Ex & Eu & Ed & Ey & Ep & Ec). destruct (sr_reached _ _ _ _ _ _ _ _ _ _ R n Hn) as (A1 & A2 & A3 & A4).
      assert (T : vec (x n) j = z_state d (z n) 0 j).
      { symmetry. assert (Q : admissible (dn n) (p n) (cfg_run (h n)) (vec (x n)) (vec (u n)) (z_state (dn n) (z n)) (z_cmd (dn n) (z n))).
        { refine (proj1 (C15_optimality_transfer junk ejunk (dn n) (s n) (h n) (p n) (x n) (u n) (z n) ltac:(lia) A1 A2 _ _ (sr_optimal _ _ _ _ _ _ _ _ _ _ R n Hn))); [rewrite Ex; exact A3|rewrite Eu; exact A4]. }
        pose proof (proj1 (proj1 Q) j ltac:(lia)) as E. unfold z_state in E |- *. now rewrite Ex, Eu in E. }
      rewrite T. rewrite (proj2 (K n Hn) 0 j) by (lia || exact Hj). now rewrite Nat.add_0_r.
  Qed.
  (** C91: the cost predicted at the beginning is the cost paid, period by period, plus the cost predicted at the end *)
  Theorem C91_predicted_cost_is_paid :
    (tracking_cost d (p O) (cfg_run (h O)) (vec (u O)) (z_state d (z O)) (z_cmd d (z O))
     = ssum N (fun n => first_cost d (p n) (cfg_run (h n)) (vec (x n)) (vec (u n)) (vec (u (S n))))
       + tracking_cost (dn N) (p N) (cfg_run (h N)) (vec (u N)) (z_state d (z N)) (z_cmd d (z N)))%S.
  Proof.
    assert (K : forall n, n <= N -> (tracking_cost d (p O) (cfg_run (h O)) (vec (u O)) (z_state d (z O)) (z_cmd d (z O))
     = ssum n (fun n => first_cost d (p n) (cfg_run (h n)) (vec (x n)) (vec (u n)) (vec (u (S n))))
       + tracking_cost (dn n) (p n) (cfg_run (h n)) (vec (u n)) (z_state d (z n)) (z_cmd d (z n)))%S); [|now apply K].
    induction n as [|n IH]; intros Hn; [change (dn 0) with d; cbn [ssum]; ring|]. rewrite (IH ltac:(lia)). cbn [ssum].
    destruct (iter_dims n) as (Ex & Eu & Ed & Ey & Ep & Ec). destruct (period_ready n Hn) as (P & C1 & R1 & R2 & X & U & X1 & U1 & E2 & E1).
    destruct (sr_reached _ _ _ _ _ _ _ _ _ _ R n ltac:(lia)) as (_ & G & _). destruct (sr_reached _ _ _ _ _ _ _ _ _ _ R (S n) Hn) as (_ & G' & _).
    pose proof (C91_optimal_costs junk ejunk (dn n) (s n) (h n) (p n) (x n) (u n) (z n) (s (S n)) (h (S n)) (p (S n)) (x (S n)) (u (S n)) (z (S n)) P C1 R1 R2 G G'
        (sr_continues _ _ _ _ _ _ _ _ _ _ R n Hn) (proj1 (sr_steady _ _ _ _ _ _ _ _ _ _ R n Hn)) (proj2 (sr_steady _ _ _ _ _ _ _ _ _ _ R n Hn)) X U X1 U1 (sr_optimal _ _ _ _ _ _ _ _ _ _ R n ltac:(lia)) E2 E1 (sr_optimal _ _ _ _ _ _ _ _ _ _ R (S n) Hn)) as E.
    assert (Z1 : forall v : nat -> F, z_state (dn n) v = z_state d v) by (intros v; unfold z_state; now rewrite Ex, Eu). assert (Z2 : forall v : nat -> F, z_cmd (dn n) v = z_cmd d v) by (intros v; unfold z_cmd; now rewrite Ex, Eu).
    assert (Z3 : forall v : nat -> F, z_state (shorter (dn n)) v = z_state d v) by (intros v; exact (Z1 v)). assert (Z4 : forall v : nat -> F, z_cmd (shorter (dn n)) v = z_cmd d v) by (intros v; exact (Z2 v)).
    rewrite Z3, Z4, Z1, Z2 in E. rewrite ?Z1, ?Z2, <- E.
    assert (FC : first_cost (dn n) (p n) (cfg_run (h n)) (vec (x n)) (vec (u n)) (vec (u (S n))) = first_cost d (p n) (cfg_run (h n)) (vec (x n)) (vec (u n)) (vec (u (S n)))) by (unfold first_cost; now rewrite Ex, Eu, Ed, Ey).
    rewrite FC. change (Nat.iter (S n) shorter d) with (shorter (dn n)). ring.
  Qed.
End Shrinking.

(** *** Concrete cases: one state, one command, two steps to go; the plant adds the command to the state, and only command increments cost something. *)
Local Notation one := (qm 1 1 [[1%Z]]).
Definition t_d : dims := mkDims 1 1 0 1 2 2.
Definition t_ops (r : list Z) : list (lop Qc) :=
  [ LSetModel one one one; LSetWeights (qv [0]%Z) (qv [0]%Z) (qv [1]%Z) slice_all; LSetStateBounds (qe [-50]%Z) (qe [50]%Z) slice_all;
    LSetRefsMat (qm 1 (length r) [[0; 0]]%Z) (qm 1 (length r) [[0; 0]]%Z) (qm 1 (length r) [r]) ].
Lemma tracking_nonneg (d : dims) p (c : cfg Qc) um x u : 0 < d_ph d -> weights_nonneg d c -> (s0 <= tracking_cost d p c um x u)%S.
Proof.
  intros P (W1 & W2 & W3).
  assert (A : forall a b : Qc, (s0 <= a)%S -> (s0 <= b)%S -> (s0 <= a + b)%S).
  { intros a b Ha Hb. replace s0 with (s0 + s0 : Qc)%S by (apply (@Qcplus_0_l)). now apply sle_add. }
  unfold tracking_cost. apply A; [apply A|]; apply ssum_nonneg; intros i Hi; apply ssum_nonneg; intros j Hj; apply smul_nonneg; try apply ssq_nonneg.
  - apply W1; [unfold stp; lia|exact Hj].
  - apply W2; [unfold stp; lia|exact Hj].
  - apply W3; [exact Hi|exact Hj].
Qed.
Lemma free_is_optimal (d : dims) s h p (x0 u0 : mat Qc) z : 0 < d_ph d -> reached qj qej d s h -> g_plant (cfg_run h) = Some p -> sized x0 (d_nx d) 1 -> sized u0 (d_nu d) 1 ->
  weights_nonneg d (cfg_run h) -> qp_feasible (l_call d s x0 u0) z -> tracking_cost d p (cfg_run h) (vec u0) (z_state d z) (z_cmd d z) = s0 -> qp_optimal (l_call d s x0 u0) z.
Proof.
  intros P R G X U W Q Z. split; [exact Q|]. intros z' Q'.
  destruct (proj1 (C01_feasible_iff_admissible qj qej d s h p x0 u0 z P R G X U) Q) as [_ T]. destruct (proj1 (C01_feasible_iff_admissible qj qej d s h p x0 u0 z' P R G X U) Q') as [_ T'].
  destruct (C02_cost_is_tracking_cost qj qej d s h p x0 u0 P R G X U) as [K HK]. apply le_half. apply (sle_add_cancel _ _ K). rewrite (HK _ T), (HK _ T'), Z. now apply tracking_nonneg.
Qed.
Notation t_s r := (wS t_d (t_ops r)).
Notation t_h r := (wH t_d (t_ops r)).
Notation e_s r := (wS (shorter t_d) (t_ops r)).
Notation e_h r := (wH (shorter t_d) (t_ops r)).
(** the plans: from state 5 and last command 0 with increments a then b; from state 5+a and last command a with increment b *)
Definition t_z (a b : Z) : nat -> Qc := z_of t_d (qf [0]%Z) (fun i _ => qf [5; 5 + a; 5 + a + a + b]%Z i) (fun i _ => qf [a; a + b]%Z i).
Definition e_z (a b : Z) : nat -> Qc := z_of (shorter t_d) (qf [a]) (fun i _ => qf [5 + a; 5 + a + a + b]%Z i) (fun i _ => qf [a + b]%Z i).
Ltac step2 k Hk := destruct k as [|[|k]]; [| |cbn in Hk; lia].
Ltac comp1 j Hj := destruct j as [|j]; [|cbn in Hj; lia].
Lemma xb_ok (a b : ext Qc) : match a, b with Fin x, Fin y => sleb x y && sleb y x | PInf, PInf | MInf, MInf => true | _, _ => false end = true -> a = b.
Proof. destruct a, b; try discriminate; try reflexivity. intros H. f_equal. now apply qc_eq. Qed.
Ltac t_eq := (apply qc_eq; vm_compute; reflexivity) || (apply xb_ok; vm_compute; reflexivity).
Lemma t_continues b : In b [1; 4]%Z -> continues t_d (cfg_run (t_h [1; b]%Z)) (cfg_run (e_h [b])).
Proof.
  intros [<-|[<-|[]]]; (constructor;
  [ refine (conj _ (conj _ _)); [rewrite !w_plant by (vm_compute; reflexivity); refine (conj _ (conj _ _)); intros i j Hi Hj; comp1 i Hi; comp1 j Hj; t_eq|intros i j _ Hj; cbn in Hj; lia|intros i j _ Hj; cbn in Hj; lia]
  | split; intros j Hj; comp1 j Hj; t_eq
  | intros k j Hk Hj; destruct k as [|k]; [comp1 j Hj; t_eq|cbn in Hk; lia] ..
  | intros k j Hk Hj; cbn in Hj; lia
  | intros k j Hk Hj; (destruct k as [|k]; [|cbn in Hk; lia]); comp1 j Hj; split; t_eq
  | intros k j Hk Hj; (destruct k as [|k]; [|cbn in Hk; lia]); comp1 j Hj; split; t_eq
  | intros k j Hk Hj; (destruct k as [|k]; [|cbn in Hk; lia]); comp1 j Hj; split; t_eq
  | intros k Hk; (destruct k as [|k]; [|cbn in Hk; lia]); split; t_eq ]).
Qed.
Lemma t_steady b : In b [1; 4]%Z -> steady_start t_d (cfg_run (t_h [1; b]%Z)).
Proof.
  intros [<-|[<-|[]]]; (constructor; [intros j Hj; comp1 j Hj; t_eq ..|intros j Hj; cbn in Hj; lia|intros j Hj; comp1 j Hj; split; t_eq|intros j Hj; comp1 j Hj; split; t_eq|split; t_eq]).
Qed.
Lemma t_increments : steady_increments t_d (cfg_run (t_h [1; 1]%Z)).
Proof. intros j Hj. comp1 j Hj. t_eq. Qed.
Lemma t_weights b : In b [1; 4]%Z -> weights_nonneg t_d (cfg_run (t_h [1; b]%Z)) /\ commands_weighted t_d (cfg_run (t_h [1; b]%Z)).
Proof.
  intros [<-|[<-|[]]]; (split; [refine (conj _ (conj _ _)); intros k j Hk Hj; comp1 j Hj; step2 k Hk; vm_compute; reflexivity|intros k j Hk Hj; right; left; comp1 j Hj; step2 k Hk; vm_compute; reflexivity]).
Qed.
Lemma e_weights b : In b [1; 4]%Z -> weights_nonneg (shorter t_d) (cfg_run (e_h [b])).
Proof. intros I. apply (continues_weights t_d _ _ (t_continues b I)). apply t_weights. exact I. Qed.
Lemma t_reached b : In b [1; 4]%Z -> reached qj qej t_d (t_s [1; b]%Z) (t_h [1; b]%Z) /\ g_plant (cfg_run (t_h [1; b]%Z)) = Some (wp (t_h [1; b]%Z)) /\
  reached qj qej (shorter t_d) (e_s [b]) (e_h [b]) /\ g_plant (cfg_run (e_h [b])) = Some (wp (e_h [b])).
Proof. intros [<-|[<-|[]]]; (refine (conj _ (conj _ (conj _ _))); [w_reach|apply w_plant; vm_compute; reflexivity|w_reach|apply w_plant; vm_compute; reflexivity]). Qed.
(** the first plan makes two increments of 1, whatever the reference of the second one (finding C45); the second plan makes the increment b *)
Lemma t_optimal b : In b [1; 4]%Z -> qp_optimal (l_call t_d (t_s [1; b]%Z) (qv [5]%Z) (qv [0]%Z)) (t_z 1 1).
Proof.
  intros I. destruct (t_reached b I) as (R & G & _). refine (free_is_optimal t_d _ _ _ _ _ _ _ R G _ _ (proj1 (t_weights b I)) _ _); [cbn; lia|repeat split|repeat split| |];
    destruct I as [<-|[<-|[]]]; (apply feasible_b_ok; vm_compute; reflexivity) || (apply qc_eq; vm_compute; reflexivity).
Qed.
Lemma e_optimal b : In b [1; 4]%Z -> qp_optimal (l_call (shorter t_d) (e_s [b]) (qv [6]%Z) (qv [1]%Z)) (e_z 1 b).
Proof.
  intros I. destruct (t_reached b I) as (_ & _ & R & G). refine (free_is_optimal (shorter t_d) _ _ _ _ _ _ _ R G _ _ (e_weights b I) _ _); [cbn; lia|repeat split|repeat split| |];
    destruct I as [<-|[<-|[]]]; (apply feasible_b_ok; vm_compute; reflexivity) || (apply qc_eq; vm_compute; reflexivity).
Qed.
Lemma t_moves b : In b [1; 4]%Z -> (forall j, j < d_nu t_d -> vec (qv [1]%Z) j = z_cmd t_d (t_z 1 1) 0 j) /\
  (forall j, j < d_nx t_d -> vec (qv [6]%Z) j = next_state t_d (wp (t_h [1; b]%Z)) (cfg_run (t_h [1; b]%Z)) 0 (vec (qv [5]%Z)) (vec (qv [1]%Z)) j).
Proof. intros [<-|[<-|[]]]; (split; intros j Hj; comp1 j Hj; apply qc_eq; vm_compute; reflexivity). Qed.
(** the hypotheses of C91 are met: a run of two periods in which the state goes 5, 6, 8 with commands 1, 2 *)
Example C91_instance : 1 < d_ph t_d /\ 1 <= d_ch t_d /\
  shrinking_run t_d qj qej 1 (fun n => match n with O => t_s [1; 1]%Z | _ => e_s [1]%Z end) (fun n => match n with O => t_h [1; 1]%Z | _ => e_h [1]%Z end)
    (fun n => match n with O => wp (t_h [1; 1]%Z) | _ => wp (e_h [1]%Z) end) (fun n => qv [match n with O => 5 | _ => 6 end]%Z) (fun n => qv [match n with O => 0 | _ => 1 end]%Z)
    (fun n => match n with O => t_z 1 1 | _ => e_z 1 1 end) /\
  weights_nonneg t_d (cfg_run (t_h [1; 1]%Z)) /\ commands_weighted t_d (cfg_run (t_h [1; 1]%Z)) /\
  z_cmd t_d (t_z 1 1) 1 0 = q 2 /\ z_cmd t_d (e_z 1 1) 0 0 = q 2 /\ z_state t_d (t_z 1 1) 2 0 = q 8.
Proof.
  assert (I : In 1%Z [1; 4]%Z) by now left. destruct (t_reached 1 I) as (R & G & R' & G'). destruct (t_moves 1 I) as [M1 M2].
  refine (conj _ (conj _ (conj _ (conj (proj1 (t_weights 1 I)) (conj (proj2 (t_weights 1 I)) (conj _ (conj _ _))))))); [cbn; lia|cbn; lia| |apply qc_eq; vm_compute; reflexivity|apply qc_eq; vm_compute; reflexivity|apply qc_eq; vm_compute; reflexivity].
  constructor.
  - intros [|[|n]] Hn; [refine (conj R (conj G _)); repeat split|refine (conj R' (conj G' _)); repeat split|lia].
  - intros [|[|n]] Hn; [exact (t_optimal 1 I)|exact (e_optimal 1 I)|lia].
  - intros [|n] Hn; [exact (t_continues 1 I)|lia].
  - intros [|n] Hn; [split; [exact (t_steady 1 I)|exact t_increments]|lia].
  - intros [|n] j Hn Hj; [exact (M1 j Hj)|lia].
  - intros [|n] j Hn Hj; [exact (M2 j Hj)|lia].
Qed.
(** FINDING: without the condition on the increment references replanning may change the plan. Step i > 0 tracks the increment reference of step i-1 (finding C45), so the shifted
    controller does not track the references its predecessor tracked. *)
Theorem C91_increment_references_needed :
  ~ (forall d s h p (x0 u0 : mat Qc) z s' h' p' x1 u1 z',
       2 <= d_ph d -> 1 <= d_ch d -> reached qj qej d s h -> reached qj qej (shorter d) s' h' -> g_plant (cfg_run h) = Some p -> g_plant (cfg_run h') = Some p' ->
       continues d (cfg_run h) (cfg_run h') -> steady_start d (cfg_run h) -> weights_nonneg d (cfg_run h) -> commands_weighted d (cfg_run h) ->
       sized x0 (d_nx d) 1 -> sized u0 (d_nu d) 1 -> sized x1 (d_nx d) 1 -> sized u1 (d_nu d) 1 ->
       qp_optimal (l_call d s x0 u0) z -> (forall j, j < d_nu d -> vec u1 j = z_cmd d z 0 j) -> (forall j, j < d_nx d -> vec x1 j = next_state d p (cfg_run h) 0 (vec x0) (vec u1) j) ->
       qp_optimal (l_call (shorter d) s' x1 u1) z' ->
       forall k j, S k < d_ph d -> j < d_nu d -> z_cmd (shorter d) z' k j = z_cmd d z (S k) j).
Proof.
  intros H. assert (I : In 4%Z [1; 4]%Z) by (right; now left). destruct (t_reached 4 I) as (R & G & R' & G'). destruct (t_moves 4 I) as [M1 M2].
  specialize (H t_d (t_s [1; 4]%Z) (t_h [1; 4]%Z) (wp (t_h [1; 4]%Z)) (qv [5]%Z) (qv [0]%Z) (t_z 1 1) (e_s [4]%Z) (e_h [4]%Z) (wp (e_h [4]%Z)) (qv [6]%Z) (qv [1]%Z) (e_z 1 4)
    ltac:(cbn; lia) ltac:(cbn; lia) R R' G G' (t_continues 4 I) (t_steady 4 I) (proj1 (t_weights 4 I)) (proj2 (t_weights 4 I)) ltac:(repeat split) ltac:(repeat split) ltac:(repeat split) ltac:(repeat split)
    (t_optimal 4 I) M1 M2 (e_optimal 4 I) 0 0 ltac:(cbn; lia) ltac:(cbn; lia)).
  assert (B : sleb (z_cmd (shorter t_d) (e_z 1 4) 0 0) (z_cmd t_d (t_z 1 1) 1 0) = false) by (vm_compute; reflexivity). rewrite H in B. pose proof (sle_refl (z_cmd t_d (t_z 1 1) 1 0)) as L. unfold sle in L. congruence.
Qed.
Print Assumptions C91_tail_feasible. Print Assumptions C91_tail_optimal. Print Assumptions C91_optimal_costs. Print Assumptions C91_replanning_keeps_the_plan. Print Assumptions C91_next_command.
Print Assumptions C91_plan_is_kept. Print Assumptions C91_predicted_cost_is_paid. Print Assumptions C91_increment_references_needed.
