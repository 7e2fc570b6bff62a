(** Property C85: mixtures of solvable situations are solvable, and the optimal cost is convex (vocabulary: SpecMeta.v: mix, mix2, superposed). *)
From Coq Require Import Bool Arith ZArith List Lia QArith Qcanon Ring Field.
From Verif Require Import Scalar Sums Mat Slice Csc CscProof Builder BuilderEnt LMPC SpecLMPC SpecQP LMPCRef LQP LRows LUniq LCert Wit PropLMPC1 PropLMPC2 PropLMPC3 PropLMPC4 SpecMeta PropMeta.
Import ListNotations.
Local Open Scope nat_scope.

Section Convex.
  Context {F : Type} {SO : ScalarOps F} {SL : ScalarLaws F}.
  Add Field SFcv : (@s_field F SO SL).
  Variables (junk : nat -> nat -> F) (ejunk : nat -> nat -> ext F) (d : dims).
  Notation nx := (d_nx d). Notation nu := (d_nu d). Notation ndu := (d_ndu d).
  Notation ny := (d_ny d). Notation ph := (d_ph d). Notation ch := (d_ch d).
  Notation reached := (SpecLMPC.reached junk ejunk d).

  (** a and b are the shares of a mixture *)
  Definition shares (a b : F) : Prop := (s0 <= a)%S /\ (s0 <= b)%S /\ (a + b)%S = s1.
  (** the same bounds and scalar constraint *)
  Definition same_bounds (c c' : cfg F) : Prop := same_xb d c c' /\ same_yb d c c' /\ same_ub d c c' /\ same_sb d c c' /\ same_mult d c c'.

  Lemma mix_self a b (x : F) : shares a b -> (a * x + b * x)%S = x.
  Proof. intros (_ & _ & E). replace (a * x + b * x)%S with ((a + b) * x)%S by ring. rewrite E. ring. Qed.
  Lemma mix_le a b (x y u v : F) : shares a b -> (x <= u)%S -> (y <= v)%S -> (a * x + b * y <= a * u + b * v)%S.
  Proof. intros (A & B & _) H K. apply sle_add; now apply smul_le_l. Qed.
  Lemma within_mix a b lo hi (x y : F) : shares a b -> within lo hi x -> within lo hi y -> within lo hi (a * x + b * y)%S.
  Proof.
    intros S [L1 H1] [L2 H2]. split.
    - destruct lo as [l| |]; cbn in *; auto. rewrite <- (mix_self a b l S). now apply mix_le.
    - destruct hi as [l| |]; cbn in *; auto. rewrite <- (mix_self a b l S). now apply mix_le.
  Qed.
  Lemma sq_mix a b (x y r t : F) : shares a b -> (sq (a * x + b * y - (a * r + b * t)) <= a * sq (x - r) + b * sq (y - t))%S.
  Proof.
    intros (A & B & E). replace b with (s1 - a)%S in * by (rewrite <- E; ring).
    set (v := (x - r)%S). set (w := (y - t)%S).
    replace (a * x + (s1 - a) * y - (a * r + (s1 - a) * t))%S with (a * v + (s1 - a) * w)%S by (unfold v, w; ring).
    apply (proj2 (sle_sub_0 _ _)). replace (a * sq v + (s1 - a) * sq w - sq (a * v + (s1 - a) * w))%S with (a * ((s1 - a) * sq (v - w)))%S by (unfold sq; ring).
    apply smul_nonneg; [exact A|]. apply smul_nonneg; [exact B|]. apply ssq_nonneg.
  Qed.
  Lemma term_mix a b (w x y r t : F) : shares a b -> (s0 <= w)%S -> (w * sq (a * x + b * y - (a * r + b * t)) <= a * (w * sq (x - r)) + b * (w * sq (y - t)))%S.
  Proof.
    intros S W. replace (a * (w * sq (x - r)) + b * (w * sq (y - t)))%S with (w * (a * sq (x - r) + b * sq (y - t)))%S by ring. apply smul_le_l; [exact W|]. now apply sq_mix.
  Qed.
  Lemma sum_mix n m a b (f g h : nat -> nat -> F) : (forall i j, i < n -> j < m -> (f i j <= a * g i j + b * h i j)%S) ->
    (ssum n (fun i => ssum m (f i)) <= a * ssum n (fun i => ssum m (g i)) + b * ssum n (fun i => ssum m (h i)))%S.
  Proof.
    intros H. rewrite <- !ssum_mul_l, <- ssum_add. apply ssum_le. intros i Hi. rewrite <- !ssum_mul_l, <- ssum_add. apply ssum_le. intros j Hj. now apply H.
  Qed.

  Section Spec.
    Variables (a b : F) (p1 p2 p3 : plant F) (c1 c2 c3 : cfg F) (x01 um1 x02 um2 x03 um3 : nat -> F).
    Hypotheses (P : 0 < ph) (S : shares a b) (G1 : g_plant c1 = Some p1) (G2 : g_plant c2 = Some p2) (G3 : g_plant c3 = Some p3) (Su : superposed d a b c1 c2 c3)
      (B1 : same_bounds c1 c3) (B2 : same_bounds c2 c3)
      (HX : forall j, j < nx -> x03 j = mix a b x01 x02 j) (HU : forall j, j < nu -> um3 j = mix a b um1 um2 j).
    Let SP i : i <= ph -> stp i < ph. Proof. unfold stp. lia. Qed.
    Lemma admissible_mix x1 u1 x2 u2 : admissible d p1 c1 x01 um1 x1 u1 -> admissible d p2 c2 x02 um2 x2 u2 -> admissible d p3 c3 x03 um3 (mix2 a b x1 x2) (mix2 a b u1 u2).
    Proof using All.
      intros (T1 & X1 & Y1 & U1 & F1 & S1) (T2 & X2 & Y2 & U2 & F2 & S2).
      destruct (free_mix d a b p1 p2 p3 c1 c2 c3 x01 um1 x02 um2 x03 um3 P G1 G2 G3 Su HX HU x1 u1 x2 u2 (conj T1 F1) (conj T2 F2)) as [T3 F3].
      destruct B1 as ((XL1 & XH1) & (YL1 & YH1) & (UL1 & UH1) & (SL1 & SH1) & (MX1 & MU1)). destruct B2 as ((XL2 & XH2) & (YL2 & YH2) & (UL2 & UH2) & (SL2 & SH2) & (MX2 & MU2)).
      refine (conj T3 (conj _ (conj _ (conj _ (conj F3 _))))).
      - intros i j Hi Hj. specialize (SP i Hi). unfold mix2. apply within_mix; [exact S| |].
        + rewrite <- (XL1 (stp i) j), <- (XH1 (stp i) j) by assumption. now apply X1.
        + rewrite <- (XL2 (stp i) j), <- (XH2 (stp i) j) by assumption. now apply X2.
      - intros i j Hi Hj. rewrite (out_mix d a b p1 p2 p3 c1 c2 c3) by assumption. specialize (SP i Hi). apply within_mix; [exact S| |].
        + rewrite <- (YL1 (stp i) j), <- (YH1 (stp i) j) by assumption. now apply Y1.
        + rewrite <- (YL2 (stp i) j), <- (YH2 (stp i) j) by assumption. now apply Y2.
      - intros i j Hi Hj. rewrite (ucmd_mix d a b um1 um2 um3 HU) by exact Hj. assert (M : Nat.min i (ph - 1) < ph) by lia. apply within_mix; [exact S| |].
        + rewrite <- (UL1 _ j M Hj), <- (UH1 _ j M Hj). now apply U1.
        + rewrite <- (UL2 _ j M Hj), <- (UH2 _ j M Hj). now apply U2.
      - intros i Hi. specialize (SP i Hi).
        replace (ssum nx (fun l => g_sX c3 l * mix2 a b x1 x2 i l) + ssum nu (fun l => g_sU c3 l * ucmd um3 (mix2 a b u1 u2) i l))%S
          with (a * (ssum nx (fun l => g_sX c1 l * x1 i l) + ssum nu (fun l => g_sU c1 l * ucmd um1 u1 i l)) + b * (ssum nx (fun l => g_sX c2 l * x2 i l) + ssum nu (fun l => g_sU c2 l * ucmd um2 u2 i l)))%S.
        + apply within_mix; [exact S| |].
          * rewrite <- (SL1 (stp i)), <- (SH1 (stp i)) by assumption. now apply S1.
          * rewrite <- (SL2 (stp i)), <- (SH2 (stp i)) by assumption. now apply S2.
        + rewrite (ssum_ext nu (fun l => g_sU c3 l * ucmd um3 (mix2 a b u1 u2) i l)%S (fun l => g_sU c3 l * (a * ucmd um1 u1 i l + b * ucmd um2 u2 i l))%S)
            by (intros l Hl; now rewrite (ucmd_mix d a b um1 um2 um3 HU)).
          unfold mix2. rewrite !ssum_mix.
          rewrite (ssum_ext nx (fun l => g_sX c1 l * x1 i l)%S (fun l => g_sX c3 l * x1 i l)%S) by (intros l Hl; now rewrite (MX1 l Hl)).
          rewrite (ssum_ext nx (fun l => g_sX c2 l * x2 i l)%S (fun l => g_sX c3 l * x2 i l)%S) by (intros l Hl; now rewrite (MX2 l Hl)).
          rewrite (ssum_ext nu (fun l => g_sU c1 l * ucmd um1 u1 i l)%S (fun l => g_sU c3 l * ucmd um1 u1 i l)%S) by (intros l Hl; now rewrite (MU1 l Hl)).
          rewrite (ssum_ext nu (fun l => g_sU c2 l * ucmd um2 u2 i l)%S (fun l => g_sU c3 l * ucmd um2 u2 i l)%S) by (intros l Hl; now rewrite (MU2 l Hl)). ring.
    Qed.
    Lemma cost_mix x1 u1 x2 u2 : weights_nonneg d c3 ->
      (tracking_cost d p3 c3 um3 (mix2 a b x1 x2) (mix2 a b u1 u2) <= a * tracking_cost d p1 c1 um1 x1 u1 + b * tracking_cost d p2 c2 um2 x2 u2)%S.
    Proof using All.
      intros (WY & WU & WD). destruct (sp_w1 _ _ _ _ _ _ Su) as (Y1 & U1 & D1). destruct (sp_w2 _ _ _ _ _ _ Su) as (Y2 & U2 & D2).
      pose proof (sp_yr _ _ _ _ _ _ Su) as RY. pose proof (sp_ur _ _ _ _ _ _ Su) as RU. pose proof (sp_dur _ _ _ _ _ _ Su) as RD.
      unfold tracking_cost.
      match goal with |- ((?A + ?B + ?C) <= a * (?A1 + ?B1 + ?C1) + b * (?A2 + ?B2 + ?C2))%S =>
        replace (a * (A1 + B1 + C1) + b * (A2 + B2 + C2))%S with ((a * A1 + b * A2) + (a * B1 + b * B2) + (a * C1 + b * C2))%S by ring end.
      apply sle_add; [apply sle_add|]; apply sum_mix; intros i j Hi Hj.
      - assert (Q : stp i < ph) by (apply SP; lia). rewrite (out_mix d a b p1 p2 p3 c1 c2 c3) by (assumption || lia). rewrite (RY _ j Q Hj), (Y1 _ j Q Hj), (Y2 _ j Q Hj). unfold mix2. apply term_mix; auto.
      - assert (Q : stp i < ph) by (apply SP; lia). rewrite (ucmd_mix d a b um1 um2 um3 HU) by exact Hj. rewrite (RU _ j Q Hj), (U1 _ j Q Hj), (U2 _ j Q Hj). unfold mix2. apply term_mix; auto.
      - assert (Q : stp i < ph) by (apply SP; lia). rewrite (dcmd_mix d a b um1 um2 um3 HU) by exact Hj. rewrite (RD _ j Q Hj), (D1 _ j Hi Hj), (D2 _ j Hi Hj). unfold mix2. apply term_mix; auto.
    Qed.
  End Spec.

  Implicit Types (s : lmpc F) (h : list (lop F * ret F)) (z : nat -> F).
  (** three controllers with the same plant, weights and bounds; state, last command, references and disturbances of the third are a mixture of those of the other two: the third
      problem has a solution if the other two have *)
  Theorem C85_mixtures_are_solvable a b s1 h1 p1 x1 u1 s2 h2 p2 x2 u2 s3 h3 p3 x3 u3 :
    0 < ph -> shares a b -> reached s1 h1 -> reached s2 h2 -> reached s3 h3 ->
    g_plant (cfg_run h1) = Some p1 -> g_plant (cfg_run h2) = Some p2 -> g_plant (cfg_run h3) = Some p3 ->
    sized x1 nx 1 -> sized u1 nu 1 -> sized x2 nx 1 -> sized u2 nu 1 -> sized x3 nx 1 -> sized u3 nu 1 ->
    superposed d a b (cfg_run h1) (cfg_run h2) (cfg_run h3) -> same_bounds (cfg_run h1) (cfg_run h3) -> same_bounds (cfg_run h2) (cfg_run h3) ->
    (forall j, j < nx -> vec x3 j = mix a b (vec x1) (vec x2) j) -> (forall j, j < nu -> vec u3 j = mix a b (vec u1) (vec u2) j) ->
    (exists z, qp_feasible (l_call d s1 x1 u1) z) -> (exists z, qp_feasible (l_call d s2 x2 u2) z) -> exists z, qp_feasible (l_call d s3 x3 u3) z.
  Proof.
    intros P S R1 R2 R3 G1 G2 G3 X1 U1 X2 U2 X3 U3 Su B1 B2 HX HU [z1 F1] [z2 F2].
    destruct (proj1 (C01_feasible_iff_admissible junk ejunk d s1 h1 p1 x1 u1 z1 P R1 G1 X1 U1) F1) as [A1 _].
    destruct (proj1 (C01_feasible_iff_admissible junk ejunk d s2 h2 p2 x2 u2 z2 P R2 G2 X2 U2) F2) as [A2 _].
    pose proof (admissible_mix a b p1 p2 p3 _ _ _ _ _ _ _ _ _ P S G1 G2 G3 Su B1 B2 HX HU _ _ _ _ A1 A2) as A3.
    eexists. exact (proj1 (C01_admissible_represented junk ejunk d s3 h3 p3 x3 u3 _ _ P R3 G3 X3 U3 A3)).
  Qed.
  (** and its optimal cost is at most the mixture of the optimal costs *)
  Theorem C85_optimal_cost_convex a b s1 h1 p1 x1 u1 s2 h2 p2 x2 u2 s3 h3 p3 x3 u3 z1 z2 z3 :
    0 < ph -> shares a b -> reached s1 h1 -> reached s2 h2 -> reached s3 h3 ->
    g_plant (cfg_run h1) = Some p1 -> g_plant (cfg_run h2) = Some p2 -> g_plant (cfg_run h3) = Some p3 ->
    sized x1 nx 1 -> sized u1 nu 1 -> sized x2 nx 1 -> sized u2 nu 1 -> sized x3 nx 1 -> sized u3 nu 1 ->
    superposed d a b (cfg_run h1) (cfg_run h2) (cfg_run h3) -> same_bounds (cfg_run h1) (cfg_run h3) -> same_bounds (cfg_run h2) (cfg_run h3) -> weights_nonneg d (cfg_run h3) ->
    (forall j, j < nx -> vec x3 j = mix a b (vec x1) (vec x2) j) -> (forall j, j < nu -> vec u3 j = mix a b (vec u1) (vec u2) j) ->
    qp_optimal (l_call d s1 x1 u1) z1 -> qp_optimal (l_call d s2 x2 u2) z2 -> qp_optimal (l_call d s3 x3 u3) z3 ->
    (tracking_cost d p3 (cfg_run h3) (vec u3) (z_state d z3) (z_cmd d z3)
     <= a * tracking_cost d p1 (cfg_run h1) (vec u1) (z_state d z1) (z_cmd d z1) + b * tracking_cost d p2 (cfg_run h2) (vec u2) (z_state d z2) (z_cmd d z2))%S.
  Proof.
    intros P S R1 R2 R3 G1 G2 G3 X1 U1 X2 U2 X3 U3 Su B1 B2 W HX HU O1 O2 O3.
    destruct (C15_optimality_transfer junk ejunk d s1 h1 p1 x1 u1 z1 P R1 G1 X1 U1 O1) as [A1 _].
    destruct (C15_optimality_transfer junk ejunk d s2 h2 p2 x2 u2 z2 P R2 G2 X2 U2 O2) as [A2 _].
    destruct (C15_optimality_transfer junk ejunk d s3 h3 p3 x3 u3 z3 P R3 G3 X3 U3 O3) as [_ Op].
    eapply sle_trans; [apply Op; exact (admissible_mix a b p1 p2 p3 _ _ _ _ _ _ _ _ _ P S G1 G2 G3 Su B1 B2 HX HU _ _ _ _ A1 A2)|].
    exact (cost_mix a b p1 p2 p3 _ _ _ _ _ _ _ _ _ P S G1 G2 G3 Su B1 B2 HX HU _ _ _ _ W).
  Qed.
End Convex.

(** *** Instance: plant x' = x + u + 1, y = x + 1, references 3, 5 and their mean 4: the optima are to rest at 2, 4 and 3 *)
Local Notation one := (qm 1 1 [[1%Z]]).
Definition v_ops (yr : Z) : list (lop Qc) :=
  [ LSetModel one one one; LSetDisturbances one one; LSetStateBounds (qe [-9]%Z) (qe [9]%Z) slice_all; LSetOutputBounds (qe [-9]%Z) (qe [9]%Z) slice_all;
    LSetInputBounds (qe [-4]%Z) (qe [4]%Z) slice_all; LSetScalar (Fin (q (-20))) (Fin (q 20)) (qv [1]%Z) (qv [1]%Z) slice_all;
    LSetWeights (qv [1]%Z) (qv [0]%Z) (qv [1]%Z) slice_all; LSetRefs (qv [yr]) (qv [5]%Z) (qv [0]%Z) slice_all; LSetExo (qv [1]%Z) slice_all ].
Definition half : Qc := Q2Qc (1 # 2).
Local Notation v_s y := (wS ex_d (v_ops y)). Local Notation v_h y := (wH ex_d (v_ops y)). Local Notation v_c y := (cfg_run (wH ex_d (v_ops y))).
Lemma v_rest y x : In (y, x) [(3, 2); (5, 4); (4, 3)]%Z -> reached qj qej ex_d (v_s y) (v_h y) /\ g_plant (v_c y) = Some (wp (v_h y)) /\
  weights_nonneg ex_d (v_c y) /\ rest_point ex_d (wp (v_h y)) (v_c y) (vec (qv [x])) (vec (qv [-1]%Z)).
Proof.
  intros H. destruct H as [E|[E|[E|[]]]]; injection E as <- <-;
  (split; [w_reach|]; split; [apply w_plant; vm_compute; reflexivity|]; split;
   [refine (conj _ (conj _ _)); intros k j Hk Hj; two_steps k Hk; one_row j Hj; vm_compute; reflexivity|];
   refine (conj _ (conj _ (conj _ (conj _ (conj _ (conj _ (conj _ _)))))));
   [intros k j Hk Hj; two_steps k Hk; one_row j Hj; apply qc_eq; vm_compute; reflexivity
   |intros k j Hk Hj; right; two_steps k Hk; one_row j Hj; apply qc_eq; vm_compute; reflexivity
   |intros k j Hk Hj; left; two_steps k Hk; one_row j Hj; apply qc_eq; vm_compute; reflexivity
   |intros k j Hk Hj; right; two_steps k Hk; one_row j Hj; apply qc_eq; vm_compute; reflexivity
   |intros k j Hk Hj; two_steps k Hk; one_row j Hj; apply within_b_ok; vm_compute; reflexivity
   |intros k j Hk Hj; two_steps k Hk; one_row j Hj; apply within_b_ok; vm_compute; reflexivity
   |intros k j Hk Hj; two_steps k Hk; one_row j Hj; apply within_b_ok; vm_compute; reflexivity
   |intros k Hk; two_steps k Hk; apply within_b_ok; vm_compute; reflexivity]).
Qed.
Definition v_z (x : Z) : nat -> Qc := z_of ex_d (vec (qv [-1]%Z)) (fun _ => vec (qv [x])) (fun _ => vec (qv [-1]%Z)).
Lemma v_optimal y x : In (y, x) [(3, 2); (5, 4); (4, 3)]%Z -> qp_optimal (l_call ex_d (v_s y) (qv [x]) (qv [-1]%Z)) (v_z x).
Proof.
  intros H. destruct (v_rest y x H) as (R & G & W & Re).
  exact (C55_rest_is_optimal qj qej ex_d _ _ _ (qv [x]) (qv [-1]%Z) ltac:(cbn; lia) R G ltac:(repeat split) ltac:(repeat split) W Re).
Qed.
Definition ext_same (a b : ext Qc) : bool := match a, b with Fin x, Fin y => sleb x y && sleb y x | PInf, PInf | MInf, MInf => true | _, _ => false end.
Lemma ext_same_ok a b : ext_same a b = true -> a = b.
Proof. destruct a, b; cbn [ext_same]; try discriminate; try reflexivity. intros H. f_equal. now apply qc_eq. Qed.
Lemma v_bounds y : In y [3; 5]%Z -> same_bounds ex_d (v_c y) (v_c 4).
Proof.
  assert (K : forall (f g : nat -> nat -> ext Qc), (ext_same (f 0 0) (g 0 0) && ext_same (f 1 0) (g 1 0))%nat = true -> eqm 2 1 f g).
  { intros f g H. apply andb_true_iff in H as [H1 H2]. intros k j Hk Hj. two_steps k Hk; one_row j Hj; now apply ext_same_ok. }
  assert (K1 : forall (f g : nat -> ext Qc), (ext_same (f 0) (g 0) && ext_same (f 1) (g 1))%nat = true -> eqv 2 f g).
  { intros f g H. apply andb_true_iff in H as [H1 H2]. intros k Hk. two_steps k Hk; now apply ext_same_ok. }
  assert (K2 : forall (f g : nat -> Qc), sleb (f 0%nat) (g 0%nat) && sleb (g 0%nat) (f 0%nat) = true -> eqv 1 f g).
  { intros f g H j Hj. one_row j Hj. now apply qc_eq. }
  intros H. destruct H as [<-|[<-|[]]]; (refine (conj (conj _ _) (conj (conj _ _) (conj (conj _ _) (conj (conj _ _) (conj _ _)))));
    first [apply K; vm_compute; reflexivity | apply K1; vm_compute; reflexivity | apply K2; vm_compute; reflexivity]).
Qed.
Lemma v_superposed : superposed ex_d half half (v_c 3) (v_c 5) (v_c 4).
Proof.
  assert (K : forall n (f g : nat -> nat -> Qc), n <= 2 -> forallb (fun k => sleb (f k 0%nat) (g k 0%nat) && sleb (g k 0%nat) (f k 0%nat)) (seq 0 n) = true -> eqm n 1 f g).
  { intros n f g _ H k j Hk Hj. one_row j Hj. rewrite forallb_forall in H. apply qc_eq. apply H. apply in_seq. lia. }
  assert (G : forall y x, In (y, x) [(3, 2); (5, 4); (4, 3)]%Z -> g_plant (v_c y) = Some (wp (v_h y))) by (intros y x H; exact (proj1 (proj2 (v_rest y x H)))).
  assert (M : forall y x, In (y, x) [(3, 2); (5, 4)]%Z -> same_model ex_d (v_c y) (v_c 4)).
  { intros y x H. split; [|split].
    - rewrite (G y x) by (destruct H as [H|[H|[]]]; [left; exact H|right; left; exact H]). rewrite (G 4%Z 3%Z) by (right; right; left; exact eq_refl).
      destruct H as [H|[H|[]]]; injection H as <- <-; (refine (conj _ (conj _ _)); (apply K; [repeat constructor|vm_compute; reflexivity])).
    - destruct H as [H|[H|[]]]; injection H as <- <-; (apply K; [repeat constructor|vm_compute; reflexivity]).
    - destruct H as [H|[H|[]]]; injection H as <- <-; (apply K; [repeat constructor|vm_compute; reflexivity]). }
  constructor.
  - exact (M 3%Z 2%Z (or_introl eq_refl)).
  - exact (M 5%Z 4%Z (or_intror (or_introl eq_refl))).
  - refine (conj _ (conj _ _)); (apply K; [repeat constructor|vm_compute; reflexivity]).
  - refine (conj _ (conj _ _)); (apply K; [repeat constructor|vm_compute; reflexivity]).
  - apply K; [repeat constructor|vm_compute; reflexivity].
  - apply K; [repeat constructor|vm_compute; reflexivity].
  - apply K; [repeat constructor|vm_compute; reflexivity].
  - apply K; [repeat constructor|vm_compute; reflexivity].
Qed.
Example C85_instance : 0 < d_ph ex_d /\ shares half half /\ superposed ex_d half half (v_c 3) (v_c 5) (v_c 4) /\ same_bounds ex_d (v_c 3) (v_c 4) /\ same_bounds ex_d (v_c 5) (v_c 4) /\
  (forall j, j < 1 -> vec (qv [3]%Z) j = mix half half (vec (qv [2]%Z)) (vec (qv [4]%Z)) j) /\ (forall j, j < 1 -> vec (qv [-1]%Z) j = mix half half (vec (qv [-1]%Z)) (vec (qv [-1]%Z)) j) /\
  forall y x, In (y, x) [(3, 2); (5, 4); (4, 3)]%Z -> reached qj qej ex_d (v_s y) (v_h y) /\ g_plant (v_c y) = Some (wp (v_h y)) /\ weights_nonneg ex_d (v_c y) /\
    qp_optimal (l_call ex_d (v_s y) (qv [x]) (qv [-1]%Z)) (v_z x).
Proof.
  refine (conj _ (conj _ (conj v_superposed (conj (v_bounds 3 _) (conj (v_bounds 5 _) (conj _ (conj _ _))))))).
  - cbn; lia.
  - refine (conj _ (conj _ _)); [vm_compute; reflexivity|vm_compute; reflexivity|apply qc_eq; vm_compute; reflexivity].
  - cbn; tauto.
  - cbn; tauto.
  - intros j Hj. one_row j Hj. apply qc_eq. vm_compute. reflexivity.
  - intros j Hj. one_row j Hj. apply qc_eq. vm_compute. reflexivity.
  - intros y x H. destruct (v_rest y x H) as (R & G & W & _). exact (conj R (conj G (conj W (v_optimal y x H)))).
Qed.
Print Assumptions C85_mixtures_are_solvable. Print Assumptions C85_optimal_cost_convex.
