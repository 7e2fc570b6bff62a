(** The quadratic program handed to OSQP is the configured optimal control problem. *)
From Coq Require Import Bool Arith ZArith List Lia Ring Field.
From Verif Require Import Scalar Sums Mat Slice Csc CscProof Builder BuilderEnt BuilderRows LMPC SpecLMPC SpecQP LMPCRef.
Import ListNotations.

Section QP.
  Context {F : Type} {SO : ScalarOps F} {SL : ScalarLaws F}.
  Add Field SF4 : s_field.
  Variable junk : nat -> nat -> F.
  Variable ejunk : nat -> nat -> ext F.
  Variable d : dims.
  Notation nx := (d_nx d). Notation nu := (d_nu d). Notation ndu := (d_ndu d).
  Notation ny := (d_ny d). Notation ph := (d_ph d). Notation ch := (d_ch d).
  Notation w := (nu + nx).
  Notation N1 := ((ph + 1) * (nu + nx)).
  Local Open Scope S_scope.
  Local Open Scope nat_scope.

  Lemma within_eq (v y : F) : within (Fin v) (Fin v) y <-> y = v.
  Proof. unfold within. cbn. split; [intros [H1 H2]; now apply sle_antisym|intros ->; split; apply sle_refl]. Qed.
  Lemma within_0 (l u : ext F) v o : o = s0 -> within (eadd l o) (eadd u o) v <-> within l u v.
  Proof. intros ->. rewrite within_eadd. now replace (v - 0)%S with v by ring. Qed.
  Lemma ssum_w (f : nat -> F) : ssum w f = sadd (ssum nx f) (ssum nu (fun b => f (nx + b))).
  Proof. rewrite Nat.add_comm. apply ssum_app. Qed.
  Lemma ssum_wy (f : nat -> F) : ssum (nu + ny) f = sadd (ssum ny f) (ssum nu (fun b => f (ny + b))).
  Proof. rewrite Nat.add_comm. apply ssum_app. Qed.
  Lemma nth_vec_list {T} n (V : mat T) i dft : i < n -> nth i (vec_list n V) dft = ent V i 0.
  Proof. intros H. unfold vec_list. exact (nth_map_seq (fun i => ent V i 0) n i dft H). Qed.

  Hypothesis ph_pos : 0 < ph.
  Variables (s : lmpc F) (c : cfg F) (p : plant F) (x0 u0 : mat F).
  Hypothesis HR : R junk ejunk d s c.
  Hypothesis Hpl : g_plant c = Some p.
  Hypothesis Hx0 : sized x0 nx 1.
  Hypothesis Hu0 : sized u0 nu 1.
  Notation cl := (l_call d s x0 u0).
  Notation bb := (l_b s).
  Notation um := (vec u0).

  Lemma cprev_stp i : cprev i = stp i.
  Proof. unfold cprev, stp. destruct (Nat.eqb_spec i 0); lia. Qed.

  Lemma Gent : get_ent d bb x0 u0 (o_yref (l_o s)) (o_uref (l_o s)) (o_duref (l_o s)) (o_dist (l_o s))
                 (l_built d s x0 u0).
  Proof. apply get_ok; try assumption; [exact (rb_sz _ _ _ _ _ (r_b _ _ _ _ _ HR))|].
    exact (ro_sz _ _ _ (r_o _ _ _ _ _ HR)). Qed.
  Lemma Gb : Rb junk ejunk d (l_built d s x0 u0) c.
  Proof. now apply R_built. Qed.

  Notation pb := (b_prob (l_built d s x0 u0)).
  Lemma pA_eq : pA pb = build_A junk d (b_ss bb) (b_lim bb).
  Proof. rewrite (ge_A _ _ _ _ _ _ _ _ _ Gent). apply (rb_built _ _ _ _ _ (r_b _ _ _ _ _ HR)). Qed.
  Lemma pP_eq : pP pb = build_P d (b_ss bb) (b_w bb).
  Proof. rewrite (ge_P _ _ _ _ _ _ _ _ _ Gent). apply (rb_built _ _ _ _ _ (r_b _ _ _ _ _ HR)). Qed.

  Lemma loop_snd_sized n (body : nat -> mat F * mat F -> mat F * mat F) st r k :
    (forall i st, sized (snd st) r k -> sized (snd (body i st)) r k) ->
    sized (snd st) r k -> sized (snd (loop n body st)) r k.
  Proof. intros H1 H2. induction n; cbn [loop]; auto. Qed.
  Lemma build_P_sized ss ww : sized (build_P d ss ww) (n_var d) (n_var d).
  Proof.
    unfold build_P. apply loop_snd_sized; [|split; reflexivity].
    intros i [wE P] [H1 H2]. unfold build_P_body. destruct (i <? ph); split; assumption.
  Qed.

  Lemma cl_dims : cl_n cl = n_var d /\ cl_m cl = n_con d.
  Proof. unfold l_call. cbn [cl_n cl_m]. rewrite pA_eq, pP_eq. split; [|reflexivity].
    apply build_P_sized. Qed.

  Lemma qp_row_eq r z : r < n_con d -> qp_row cl r z = row d (pA pb) r z.
  Proof.
    intros Hr. unfold qp_row, row. rewrite (proj1 cl_dims). apply ssum_ext. intros j Hj. f_equal.
    cbn [l_call cl_A]. apply csc_full_val; rewrite pA_eq; assumption.
  Qed.
  Lemma cl_l_eq r : r < n_con d -> nth r (cl_l cl) PInf = ent (pl pb) r 0.
  Proof. intros Hr. cbn [l_call cl_l]. apply nth_vec_list. now rewrite pA_eq. Qed.
  Lemma cl_u_eq r : r < n_con d -> nth r (cl_u cl) MInf = ent (pu pb) r 0.
  Proof. intros Hr. cbn [l_call cl_u]. apply nth_vec_list. now rewrite pA_eq. Qed.

  Definition rowok (z : nat -> F) (r : nat) : Prop := within (ent (pl pb) r 0) (ent (pu pb) r 0) (row d (pA pb) r z).
  Lemma qp_feasible_rows z : qp_feasible cl z <-> forall r, r < n_con d -> rowok z r.
  Proof.
    unfold qp_feasible, row_holds, rowok. rewrite (proj2 cl_dims). split; intros H r Hr; specialize (H r Hr);
      rewrite cl_l_eq, cl_u_eq, qp_row_eq in *; assumption.
  Qed.

  (** the facts on the concrete state used below *)
  Let SZ := rb_sz _ _ _ _ _ (r_b _ _ _ _ _ HR).
  Let Sss : ss_sized d (b_ss bb) := bs_ss _ _ SZ.
  Let Sw : w_sized d (b_w bb) := bs_w _ _ SZ.
  Let Slim : lim_sized d (b_lim bb) := bs_lim _ _ SZ.
  Let RD := rb_dist _ _ _ _ _ (r_b _ _ _ _ _ HR).
  Let RO := r_o _ _ _ _ _ HR.
  Lemma Rpl : Rplant d (b_ss bb) (Some p).
  Proof. rewrite <- Hpl. apply (rb_plant _ _ _ _ _ (r_b _ _ _ _ _ HR)). Qed.

  Notation X z := (z_state d z). Notation U z := (z_cmd d z).

  (** *** equality rows *)
  Lemma eq0_x z a : a < nx -> rowok z a <-> X z 0 a = ent x0 a 0.
  Proof.
    intros Ha. pose proof (blk_lt 0 (ph + 1) w a ltac:(lia) ltac:(lia)) as B.
    unfold rowok. rewrite (ge_ul _ _ _ _ _ _ _ _ _ Gent) by lia.
    rewrite (ge_0x _ _ _ _ _ _ _ _ _ Gent) by assumption. rewrite within_eq, pA_eq, build_A_eq by lia.
    rewrite row_eq_0 by (assumption || lia). change (zx d z 0 a) with (X z 0 a). split; intros H.
    - transitivity (- (- X z 0 a))%S; [ring|]. rewrite H. ring.
    - rewrite H. reflexivity.
  Qed.
  Lemma eq0_u z a : a < nu -> rowok z (nx + a) <-> zx d z 0 (nx + a) = ent u0 a 0.
  Proof.
    intros Ha. pose proof (blk_lt 0 (ph + 1) w (nx + a) ltac:(lia) ltac:(lia)) as B.
    unfold rowok. rewrite (ge_ul _ _ _ _ _ _ _ _ _ Gent) by lia.
    rewrite (ge_0u _ _ _ _ _ _ _ _ _ Gent) by assumption. rewrite within_eq, pA_eq, build_A_eq by lia.
    rewrite row_eq_0 by (assumption || lia). split; intros H.
    - transitivity (- (- zx d z 0 (nx + a)))%S; [ring|]. rewrite H. ring.
    - rewrite H. reflexivity.
  Qed.
  Lemma eqS_u z i a : i < ph -> a < nu ->
    rowok z (S i * w + (nx + a)) <-> zx d z (S i) (nx + a) = (zx d z i (nx + a) + zdu d z i a)%S.
  Proof.
    intros Hi Ha. pose proof (blk_lt (S i) (ph + 1) w (nx + a) ltac:(lia) ltac:(lia)) as B.
    unfold rowok. rewrite (ge_ul _ _ _ _ _ _ _ _ _ Gent) by lia.
    rewrite (ge_eq _ _ _ _ _ _ _ _ _ Gent) by lia. rewrite within_eq, pA_eq, build_A_eq by lia.
    rewrite row_eq_S by (assumption || lia).
    destruct Rpl as (_ & _ & A3 & A4 & _ & B2 & _). destruct RD as (_ & D2 & _).
    rewrite ssum_w. rewrite (ssum_zero nx).
    2:{ intros b Hb. rewrite A3 by assumption. ring. }
    rewrite (ssum_ext nu _ (fun b => (delta a b * zx d z i (nx + b))%S)).
    2:{ intros b Hb. now rewrite A4. }
    rewrite ssum_delta_l by assumption.
    rewrite (ssum_ext nu _ (fun b => (delta a b * zdu d z i b)%S)).
    2:{ intros b Hb. now rewrite B2. }
    rewrite ssum_delta_l by assumption.
    rewrite (ssum_zero ndu).
    2:{ intros b Hb. rewrite D2 by assumption. ring. }
    split; intros H.
    - transitivity ((zx d z i (nx + a) + zdu d z i a) - (- zx d z (S i) (nx + a) + (0 + zx d z i (nx + a)) + zdu d z i a))%S; [ring|].
      rewrite H. ring.
    - rewrite H. ring.
  Qed.
  Lemma eqS_x z i a : i < ph -> a < nx ->
    rowok z (S i * w + a) <->
    X z (S i) a = (ssum nx (fun l => pl_A p a l * X z i l) + ssum nu (fun l => pl_B p a l * (zx d z i (nx + l) + zdu d z i l))
                   + ssum ndu (fun l => g_Bd c a l * g_d c i l))%S.
  Proof.
    intros Hi Ha. pose proof (blk_lt (S i) (ph + 1) w a ltac:(lia) ltac:(lia)) as B.
    unfold rowok. rewrite (ge_ul _ _ _ _ _ _ _ _ _ Gent) by lia.
    rewrite (ge_eq _ _ _ _ _ _ _ _ _ Gent) by lia. rewrite within_eq, pA_eq, build_A_eq by lia.
    rewrite row_eq_S by (assumption || lia).
    destruct Rpl as (A1 & A2 & _ & _ & B1 & _). destruct RD as (D1 & _).
    rewrite ssum_w.
    rewrite (ssum_ext nx _ (fun b => (pl_A p a b * X z i b)%S)).
    2:{ intros b Hb. now rewrite A1. }
    rewrite (ssum_ext nu (fun b => (ent (ssA (b_ss bb)) a (nx + b) * zx d z i (nx + b))%S) (fun b => (pl_B p a b * zx d z i (nx + b))%S)).
    2:{ intros b Hb. now rewrite A2. }
    rewrite (ssum_ext nu (fun b => (ent (ssB (b_ss bb)) a b * zdu d z i b)%S) (fun b => (pl_B p a b * zdu d z i b)%S)).
    2:{ intros b Hb. now rewrite B1. }
    rewrite (ssum_ext ndu _ (fun b => (- (g_Bd c a b * g_d c i b))%S)).
    2:{ intros b Hb. rewrite cprev_stp. rewrite D1 by assumption.
        rewrite (ro_d _ _ _ RO) by (unfold stp; lia || assumption). unfold stp. cbn [Nat.pred]. ring. }
    rewrite ssum_opp.
    rewrite (ssum_ext nu (fun l => (pl_B p a l * (_ + _))%S) (fun l => (pl_B p a l * zx d z i (nx + l) + pl_B p a l * zdu d z i l)%S)).
    2:{ intros; ring. }
    rewrite ssum_add. change (zx d z (S i) a) with (X z (S i) a).
    generalize (X z (S i) a) (ssum nx (fun b => (pl_A p a b * X z i b)%S))
      (ssum nu (fun b => (pl_B p a b * zx d z i (nx + b))%S)) (ssum nu (fun b => (pl_B p a b * zdu d z i b)%S))
      (ssum ndu (fun b => (g_Bd c a b * g_d c i b)%S)).
    intros q1 q2 q3 q4 q5. split; intros H.
    - transitivity (q2 + q3 + q4 - (- q1 + (q2 + q3) + q4))%S; [ring|]. rewrite H. ring.
    - rewrite H. ring.
  Qed.

  (** *** inequality rows *)
  Lemma ineqL : ineq_ent d MInf (minX (b_lim bb)) (minU (b_lim bb)) (minY (b_lim bb)) (sMin (b_lim bb)) (b_lineq bb).
  Proof.
    destruct (rb_built _ _ _ _ _ (r_b _ _ _ _ _ HR)) as [_ _ (prev & Sp & E) _]. rewrite E.
    destruct Slim as (A1 & A2 & A3 & A4 & A5 & A6 & A7 & A8 & A9). now apply build_ineq_ent.
  Qed.
  Lemma ineqU : ineq_ent d PInf (maxX (b_lim bb)) (maxU (b_lim bb)) (maxY (b_lim bb)) (sMax (b_lim bb)) (b_uineq bb).
  Proof.
    destruct (rb_built _ _ _ _ _ (r_b _ _ _ _ _ HR)) as [_ _ _ (prev & Sp & E)]. rewrite E.
    destruct Slim as (A1 & A2 & A3 & A4 & A5 & A6 & A7 & A8 & A9). now apply build_ineq_ent.
  Qed.

  Lemma rowok_in z r : r < n_ineq d -> r < N1 \/ N1 + (ph + 1) * ny <= r ->
    rowok z (N1 + r) <-> within (ent (b_lineq bb) r 0) (ent (b_uineq bb) r 0) (row d (build_Aineq d (b_ss bb) (b_lim bb)) r z).
  Proof.
    intros Hr Ho. unfold rowok.
    destruct (ge_l _ _ _ _ _ _ _ _ _ Gent r Hr) as (o & -> & -> & H0 & _).
    rewrite pA_eq, build_A_in by assumption. rewrite within_0 by auto. reflexivity.
  Qed.
  Let RL := rb_lim _ _ _ _ _ (r_b _ _ _ _ _ HR).

  Lemma in_x z i a : i < ph + 1 -> a < nx ->
    rowok z (N1 + (i * w + a)) <-> within (g_xlo c (stp i) a) (g_xhi c (stp i) a) (X z i a).
  Proof.
    intros Hi Ha. pose proof (blk_lt i (ph + 1) w a Hi ltac:(lia)) as B.
    rewrite rowok_in by (unfold n_ineq; lia).
    rewrite (ie_x _ _ _ _ _ _ _ ineqL), (ie_x _ _ _ _ _ _ _ ineqU) by assumption.
    destruct RL as (L1 & L2 & _). rewrite L1, L2 by assumption.
    rewrite row_in_x by lia. reflexivity.
  Qed.
  Lemma in_u z i a : i < ph + 1 -> a < nu ->
    rowok z (N1 + (i * w + (nx + a))) <->
    within (g_ulo c (Nat.min i (ph - 1)) a) (g_uhi c (Nat.min i (ph - 1)) a) (zx d z i (nx + a)).
  Proof.
    intros Hi Ha. pose proof (blk_lt i (ph + 1) w (nx + a) Hi ltac:(lia)) as B.
    rewrite rowok_in by (unfold n_ineq; lia).
    rewrite (ie_u _ _ _ _ _ _ _ ineqL), (ie_u _ _ _ _ _ _ _ ineqU) by assumption.
    destruct RL as (_ & _ & _ & _ & L5 & L6 & _).
    replace (if i =? ph then i - 1 else i) with (Nat.min i (ph - 1)) by (destruct (Nat.eqb_spec i ph); lia).
    rewrite L5, L6 by lia. rewrite row_in_x by lia. reflexivity.
  Qed.
  Lemma in_du z i a : i < ph -> a < nu ->
    rowok z (N1 + (N1 + (ph + 1) * ny + (i * nu + a))) <-> (ch < i -> zdu d z i a = s0).
  Proof.
    intros Hi Ha. pose proof (blk_lt i ph nu a Hi Ha) as B.
    rewrite rowok_in by (unfold n_ineq; lia).
    rewrite (ie_du _ _ _ _ _ _ _ ineqL), (ie_du _ _ _ _ _ _ _ ineqU) by assumption.
    rewrite row_in_du by assumption. destruct (Nat.ltb_spec ch i).
    - rewrite within_eq. tauto.
    - unfold within. cbn. split; [intros; lia|tauto].
  Qed.
  Lemma in_s z i : i < ph + 1 ->
    rowok z (N1 + (N1 + (ph + 1) * ny + ph * nu + i)) <->
    within (g_slo c (stp i)) (g_shi c (stp i))
      (ssum nx (fun l => g_sX c l * X z i l) + ssum nu (fun l => g_sU c l * zx d z i (nx + l)))%S.
  Proof.
    intros Hi. rewrite rowok_in by (unfold n_ineq; lia).
    rewrite (ie_s _ _ _ _ _ _ _ ineqL), (ie_s _ _ _ _ _ _ _ ineqU) by assumption.
    destruct RL as (_ & _ & _ & _ & _ & _ & L7 & L8 & L9). rewrite L7, L8 by assumption.
    rewrite row_in_s by assumption.
    assert (E : ssum (ph + 1) (fun j => ssum w (fun b => (ent (sMultiplier (b_lim bb)) i (j * w + b) * zx d z j b)%S)) =
      (ssum nx (fun l => g_sX c l * X z i l) + ssum nu (fun l => g_sU c l * zx d z i (nx + l)))%S).
    { rewrite (ssum_single (ph + 1) i); [|exact Hi|].
      - rewrite ssum_w. f_equal; apply ssum_ext; intros b Hb; rewrite L9 by lia; rewrite Nat.eqb_refl.
        + destruct (Nat.ltb_spec b nx); [reflexivity|lia].
        + destruct (Nat.ltb_spec (nx + b) nx); [lia|]. f_equal. f_equal. lia.
      - intros j Hj N. apply ssum_zero. intros b Hb. rewrite L9 by lia.
        destruct (Nat.eqb_spec i j); [congruence|]. ring. }
    rewrite E. reflexivity.
  Qed.
  Lemma in_y z i a : i < ph + 1 -> a < ny ->
    rowok z (N1 + (N1 + (i * ny + a))) <->
    within (g_ylo c (stp i) a) (g_yhi c (stp i) a) (output d p c (X z) i a).
  Proof.
    intros Hi Ha. pose proof (blk_lt i (ph + 1) ny a Hi Ha) as B.
    assert (Hr : N1 + (i * ny + a) < n_ineq d) by (unfold n_ineq; lia).
    unfold rowok. destruct (ge_l _ _ _ _ _ _ _ _ _ Gent _ Hr) as (o & -> & -> & _ & H1).
    rewrite (H1 i a Hi Ha eq_refl). rewrite within_eadd.
    rewrite pA_eq, build_A_in by assumption. rewrite row_in_y by assumption.
    rewrite (ie_y _ _ _ _ _ _ _ ineqL), (ie_y _ _ _ _ _ _ _ ineqU) by assumption.
    destruct RL as (_ & _ & L3 & L4 & _). rewrite L3, L4 by assumption.
    destruct Rpl as (_ & _ & _ & _ & _ & _ & C1 & C2 & _). destruct RD as (_ & _ & D3 & _).
    assert (E : (ssum w (fun b => ent (ssC (b_ss bb)) a b * zx d z i b)
       - ssum ndu (fun m => - ent (ssDv (b_ss bb)) a m * ent (o_dist (l_o s)) m (cprev i)))%S = output d p c (X z) i a).
    { unfold output. rewrite ssum_w.
      rewrite (ssum_ext nx _ (fun b => (pl_C p a b * X z i b)%S)).
      2:{ intros b Hb. now rewrite C1. }
      rewrite (ssum_zero nu).
      2:{ intros b Hb. rewrite C2 by assumption. ring. }
      rewrite (ssum_ext ndu _ (fun b => (- (g_Dd c a b * g_d c (stp i) b))%S)).
      2:{ intros b Hb. rewrite cprev_stp, D3 by assumption.
          rewrite (ro_d _ _ _ RO) by (unfold stp; lia || assumption). ring. }
      rewrite ssum_opp. ring. }
    rewrite E. reflexivity.
  Qed.

  (** *** all the rows together *)
  Lemma row_groups (P : nat -> Prop) :
    (forall r, r < n_con d -> P r) <->
    (forall a, a < nx -> P a) /\ (forall a, a < nu -> P (nx + a)) /\
    (forall i a, i < ph -> a < nx -> P (S i * w + a)) /\ (forall i a, i < ph -> a < nu -> P (S i * w + (nx + a))) /\
    (forall i a, i < ph + 1 -> a < nx -> P (N1 + (i * w + a))) /\
    (forall i a, i < ph + 1 -> a < nu -> P (N1 + (i * w + (nx + a)))) /\
    (forall i a, i < ph + 1 -> a < ny -> P (N1 + (N1 + (i * ny + a)))) /\
    (forall i a, i < ph -> a < nu -> P (N1 + (N1 + (ph + 1) * ny + (i * nu + a)))) /\
    (forall i, i < ph + 1 -> P (N1 + (N1 + (ph + 1) * ny + ph * nu + i))).
  Proof.
    unfold n_con, n_eq, n_ineq. split.
    - intros H. repeat split; intros; apply H.
      + pose proof (blk_lt 0 (ph + 1) w a ltac:(lia) ltac:(lia)); lia.
      + pose proof (blk_lt 0 (ph + 1) w (nx + a) ltac:(lia) ltac:(lia)); lia.
      + pose proof (blk_lt (S i) (ph + 1) w a ltac:(lia) ltac:(lia)); lia.
      + pose proof (blk_lt (S i) (ph + 1) w (nx + a) ltac:(lia) ltac:(lia)); lia.
      + pose proof (blk_lt i (ph + 1) w a ltac:(lia) ltac:(lia)); lia.
      + pose proof (blk_lt i (ph + 1) w (nx + a) ltac:(lia) ltac:(lia)); lia.
      + pose proof (blk_lt i (ph + 1) ny a ltac:(lia) ltac:(lia)); lia.
      + pose proof (blk_lt i ph nu a ltac:(lia) ltac:(lia)); lia.
      + lia.
    - intros (H1 & H2 & H3 & H4 & H5 & H6 & H7 & H8 & H9) r Hr.
      destruct (Nat.lt_ge_cases r N1) as [A|A].
      + destruct (blk_split r (ph + 1) w A) as (i & a & Hi & Ha & ->).
        destruct (Nat.lt_ge_cases a nx) as [B|B].
        * destruct i as [|i]; [now apply H1|]. apply H3; lia.
        * replace a with (nx + (a - nx)) by lia. destruct i as [|i]; [apply H2; lia|apply H4; lia].
      + replace r with (N1 + (r - N1)) by lia. remember (r - N1) as q eqn:Eq.
        destruct (Nat.lt_ge_cases q N1) as [A2|A2].
        * destruct (blk_split q (ph + 1) w A2) as (i & a & Hi & Ha & E). rewrite E.
          destruct (Nat.lt_ge_cases a nx) as [B|B]; [apply H5; lia|].
          replace a with (nx + (a - nx)) by lia. apply H6; lia.
        * replace q with (N1 + (q - N1)) by lia. remember (q - N1) as q2 eqn:Eq2.
          destruct (Nat.lt_ge_cases q2 ((ph + 1) * ny)) as [A3|A3].
          -- destruct (blk_split q2 (ph + 1) ny A3) as (i & a & Hi & Ha & E). rewrite E. apply H7; lia.
          -- replace (N1 + q2) with (N1 + (ph + 1) * ny + (q2 - (ph + 1) * ny)) by lia.
             remember (q2 - (ph + 1) * ny) as q3 eqn:Eq3.
             destruct (Nat.lt_ge_cases q3 (ph * nu)) as [A4|A4].
             ++ destruct (blk_split q3 ph nu A4) as (i & a & Hi & Ha & E). rewrite E. apply H8; lia.
             ++ replace (N1 + (ph + 1) * ny + q3) with (N1 + (ph + 1) * ny + ph * nu + (q3 - ph * nu)) by lia.
                apply H9. lia.
  Qed.

  (** the input part of every stage block is the command of the previous step; increments are differences *)
  Definition z_consistent (z : nat -> F) : Prop :=
    (forall a, a < nu -> zx d z 0 (nx + a) = um a) /\
    (forall i a, i < ph -> a < nu -> zdu d z i a = dcmd um (U z) i a).

  Lemma ucmd_zx z i a : (forall a, a < nu -> zx d z 0 (nx + a) = um a) -> a < nu ->
    ucmd um (U z) i a = zx d z i (nx + a).
  Proof. intros H Ha. destruct i as [|i]; cbn [ucmd]; [symmetry; now apply H|reflexivity]. Qed.

  Theorem qp_feasible_iff z :
    qp_feasible cl z <-> admissible d p c (vec x0) um (X z) (U z) /\ z_consistent z.
  Proof.
    rewrite qp_feasible_rows, row_groups. unfold admissible, trajectory, state_ok, output_ok, input_ok,
      frozen, scalar_ok, z_consistent.
    split.
    - intros (H1 & H2 & H3 & H4 & H5 & H6 & H7 & H8 & H9).
      assert (U0 : forall a, a < nu -> zx d z 0 (nx + a) = um a).
      { intros a Ha. apply eq0_u; auto. }
      assert (UC : forall i a, a < nu -> ucmd um (U z) i a = zx d z i (nx + a)).
      { intros i a Ha. now apply ucmd_zx. }
      assert (DU : forall i a, i < ph -> a < nu -> zdu d z i a = dcmd um (U z) i a).
      { intros i a Hi Ha. unfold dcmd. rewrite UC by assumption.
        pose proof (proj1 (eqS_u z i a Hi Ha) (H4 i a Hi Ha)) as E.
        change (U z i a) with (zx d z (S i) (nx + a)). rewrite E. ring. }
      refine (conj (conj (conj _ _) (conj _ (conj _ (conj _ (conj _ _))))) (conj U0 DU)).
      + intros j Hj. now apply eq0_x, H1.
      + intros k j Hk Hj. rewrite (proj1 (eqS_x z k j Hk Hj) (H3 k j Hk Hj)).
        f_equal. f_equal. apply ssum_ext. intros l Hl. f_equal.
        rewrite DU by assumption. unfold dcmd. rewrite UC by assumption. ring.
      + intros i j Hi Hj. apply in_x; [lia|assumption|apply H5; lia].
      + intros i j Hi Hj. apply in_y; [lia|assumption|apply H7; lia].
      + intros i j Hi Hj. rewrite UC by assumption. apply in_u; [lia|assumption|apply H6; lia].
      + intros i j Hc Hi Hj. pose proof (proj1 (in_du z i j Hi Hj) (H8 i j Hi Hj) Hc) as E.
        rewrite DU in E by assumption. unfold dcmd in E.
        transitivity (U z i j - ucmd um (U z) i j + ucmd um (U z) i j)%S; [ring|]. rewrite E. ring.
      + intros i Hi. rewrite (ssum_ext nu _ (fun l => (g_sU c l * zx d z i (nx + l))%S)) by (intros; now rewrite UC).
        apply in_s; [lia|apply H9; lia].
    - intros (((T0 & TS) & SX & SY & SU & FZ & SS) & U0 & DU).
      assert (UC : forall i a, a < nu -> ucmd um (U z) i a = zx d z i (nx + a)).
      { intros i a Ha. now apply ucmd_zx. }
      refine (conj _ (conj _ (conj _ (conj _ (conj _ (conj _ (conj _ (conj _ _)))))))); intros.
      + now apply eq0_x, T0.
      + now apply eq0_u, U0.
      + apply eqS_x; try assumption. rewrite TS by assumption. f_equal. f_equal. apply ssum_ext. intros l Hl.
        f_equal. rewrite DU by assumption. unfold dcmd. rewrite UC by assumption. ring.
      + apply eqS_u; try assumption. rewrite DU by assumption. unfold dcmd. rewrite UC by assumption.
        change (U z i a) with (zx d z (S i) (nx + a)). ring.
      + apply in_x; try assumption. apply SX; lia || assumption.
      + apply in_u; try assumption. rewrite <- UC by assumption. apply SU; lia || assumption.
      + apply in_y; try assumption. apply SY; lia || assumption.
      + apply in_du; try assumption. intros Hc. rewrite DU by assumption. unfold dcmd. rewrite (FZ i a) by assumption.
        rewrite <- (FZ i a) by assumption. ring.
      + apply in_s; try assumption.
        rewrite <- (ssum_ext nu (fun l => (g_sU c l * ucmd um (U z) i l)%S)) by (intros; now rewrite UC).
        apply SS. lia.
  Qed.

  (** *** cost *)
  Lemma P_sym_ent r k : r < n_var d -> k < n_var d -> ent (pP pb) r k = ent (pP pb) k r.
  Proof.
    rewrite pP_eq. unfold n_var. intros Hr Hk.
    destruct (Nat.lt_ge_cases r N1) as [A|A], (Nat.lt_ge_cases k N1) as [B|B].
    - destruct (blk_split r (ph + 1) w A) as (i & a & Hi & Ha & ->).
      destruct (blk_split k (ph + 1) w B) as (j & b & Hj & Hb & ->).
      rewrite !(build_P_xx d) by (assumption || lia). rewrite (Nat.eqb_sym j i).
      destruct (Nat.eqb_spec i j) as [->|]; [|reflexivity]. unfold P_blk.
      apply ssum_ext. intros l Hl.
      rewrite (ssum_single (nu + ny) l), (ssum_single (nu + ny) l); try assumption.
      + rewrite Nat.eqb_refl. ring.
      + intros m Hm N. destruct (Nat.eqb_spec m l); [contradiction|ring].
      + intros m Hm N. destruct (Nat.eqb_spec m l); [contradiction|ring].
    - rewrite (build_P_xu d), (build_P_ux d) by (assumption || lia). reflexivity.
    - rewrite (build_P_ux d), (build_P_xu d) by (assumption || lia). reflexivity.
    - replace r with (N1 + (r - N1)) by lia. replace k with (N1 + (k - N1)) by lia.
      destruct (blk_split (r - N1) ph nu ltac:(lia)) as (i & a & Hi & Ha & ->).
      destruct (blk_split (k - N1) ph nu ltac:(lia)) as (j & b & Hj & Hb & ->).
      rewrite !(build_P_uu d) by (assumption || lia). rewrite (Nat.eqb_sym j i), (Nat.eqb_sym b a).
      destruct (Nat.eqb_spec i j) as [->|], (Nat.eqb_spec a b) as [->|]; reflexivity.
  Qed.
  Lemma qp_P_eq i j : i < n_var d -> j < n_var d -> qp_P cl i j = ent (pP pb) i j.
  Proof.
    intros Hi Hj. unfold qp_P. cbn [l_call cl_P].
    assert (SP : sized (pP pb) (n_var d) (n_var d)) by (rewrite pP_eq; apply build_P_sized).
    destruct SP as [S1 S2]. rewrite csc_upper_val by lia.
    destruct (Nat.leb_spec (Nat.min i j) (Nat.max i j)); [|lia].
    destruct (Nat.le_ge_cases i j) as [A|A].
    - now rewrite Nat.min_l, Nat.max_r by lia.
    - rewrite Nat.min_r, Nat.max_l by lia. now apply P_sym_ent.
  Qed.
  Lemma cl_q_eq i : i < n_var d -> nth i (cl_q cl) s0 = ent (pq pb) i 0.
  Proof. intros Hi. cbn [l_call cl_q]. apply nth_vec_list. rewrite pP_eq. now rewrite (proj1 (build_P_sized _ _)). Qed.

  Lemma qp_cost2_eq z : qp_cost2 cl z = (quad d (pP pb) z + s2 * lin d (pq pb) z)%S.
  Proof.
    unfold qp_cost2, quad, lin, row. rewrite (proj1 cl_dims). f_equal.
    - apply ssum_ext. intros i Hi. f_equal. apply ssum_ext. intros j Hj. now rewrite qp_P_eq.
    - f_equal. apply ssum_ext. intros i Hi. now rewrite cl_q_eq.
  Qed.

  (** weights as configured *)
  Lemma wE_y i l : i < ph + 1 -> l < ny -> wE_diag d (b_w bb) i l = g_wy c (stp i) l.
  Proof. intros Hi Hl. unfold wE_diag. destruct (Nat.ltb_spec l ny); [|lia].
    destruct (rb_w _ _ _ _ _ (r_b _ _ _ _ _ HR)) as (W1 & _). now apply W1. Qed.
  Lemma wE_u i l : i < ph + 1 -> l < nu -> wE_diag d (b_w bb) i (ny + l) = g_wu c (stp i) l.
  Proof. intros Hi Hl. unfold wE_diag. destruct (Nat.ltb_spec (ny + l) ny); [lia|].
    destruct (rb_w _ _ _ _ _ (r_b _ _ _ _ _ HR)) as (_ & W2 & _).
    replace (ny + l - ny) with l by lia. now apply W2. Qed.
  Lemma w_du i l : i < ph -> l < nu -> ent (wDeltaU (b_w bb)) l i = g_wdu c i l.
  Proof. intros Hi Hl. destruct (rb_w _ _ _ _ _ (r_b _ _ _ _ _ HR)) as (_ & _ & W3). now apply W3. Qed.

  Lemma eout_y z i l : l < ny -> eout d (b_ss bb) z i l = ssum nx (fun b => (pl_C p l b * X z i b)%S).
  Proof.
    intros Hl. unfold eout. rewrite ssum_w. destruct Rpl as (_ & _ & _ & _ & _ & _ & C1 & C2 & _).
    rewrite (ssum_zero nu) by (intros b Hb; rewrite C2 by assumption; ring).
    rewrite (ssum_ext nx _ (fun b => (pl_C p l b * X z i b)%S)) by (intros b Hb; now rewrite C1). ring.
  Qed.
  Lemma eout_u z i l : l < nu -> eout d (b_ss bb) z i (ny + l) = zx d z i (nx + l).
  Proof.
    intros Hl. unfold eout. rewrite ssum_w. destruct Rpl as (_ & _ & _ & _ & _ & _ & _ & _ & C3 & C4).
    rewrite (ssum_zero nx) by (intros b Hb; rewrite C3 by assumption; ring).
    rewrite (ssum_ext nu _ (fun b => (delta l b * zx d z i (nx + b))%S)) by (intros b Hb; now rewrite C4).
    rewrite ssum_delta_l by assumption. ring.
  Qed.
  Notation eo := (eoff d (b_ss bb) (o_yref (l_o s)) (o_uref (l_o s)) (o_dist (l_o s))).
  Lemma eoff_y i l : i < ph + 1 -> l < ny ->
    eo i l = (ssum ndu (fun m => g_Dd c l m * g_d c (stp i) m) - g_yr c (stp i) l)%S.
  Proof.
    intros Hi Hl. unfold eoff. rewrite !cprev_stp. destruct (Nat.ltb_spec l ny); [|lia].
    rewrite (ro_y _ _ _ RO) by (unfold stp; lia || assumption).
    rewrite (ssum_ext ndu _ (fun m => (g_Dd c l m * g_d c (stp i) m)%S)); [ring|].
    intros m Hm. destruct RD as (_ & _ & D3 & _). rewrite D3 by assumption.
    now rewrite (ro_d _ _ _ RO) by (unfold stp; lia || assumption).
  Qed.
  Lemma eoff_u i l : i < ph + 1 -> l < nu -> eo i (ny + l) = (- g_ur c (stp i) l)%S.
  Proof.
    intros Hi Hl. unfold eoff. rewrite !cprev_stp. destruct (Nat.ltb_spec (ny + l) ny); [lia|].
    replace (ny + l - ny) with l by lia.
    rewrite (ro_u _ _ _ RO) by (unfold stp; lia || assumption).
    rewrite (ssum_zero ndu); [ring|].
    intros m Hm. destruct RD as (_ & _ & _ & D4). rewrite D4 by assumption. ring.
  Qed.

  (** the part of the tracking cost that no decision changes *)
  Definition cost_const : F :=
    (ssum (ph + 1) (fun i => ssum ny (fun j => g_wy c (stp i) j *
        sq (ssum ndu (fun l => g_Dd c j l * g_d c (stp i) l) - g_yr c (stp i) j)))
     + ssum (ph + 1) (fun i => ssum nu (fun j => g_wu c (stp i) j * sq (g_ur c (stp i) j)))
     + ssum ph (fun i => ssum nu (fun j => g_wdu c i j * sq (g_dur c (stp i) j))))%S.

  Theorem qp_cost2_tracking z : z_consistent z ->
    (qp_cost2 cl z + cost_const = tracking_cost d p c um (X z) (U z))%S.
  Proof.
    intros [U0 DU]. rewrite qp_cost2_eq, pP_eq. rewrite quad_P by assumption.
    rewrite (lin_q d (b_ss bb) (b_w bb) (o_yref (l_o s)) (o_uref (l_o s)) (o_duref (l_o s)) (o_dist (l_o s)) (pq pb) z).
    2:{ apply (ge_qx _ _ _ _ _ _ _ _ _ Gent). }
    2:{ apply (ge_qu _ _ _ _ _ _ _ _ _ Gent). }
    unfold tracking_cost, cost_const.
    assert (UC : forall i a, a < nu -> ucmd um (U z) i a = zx d z i (nx + a)).
    { intros i a Ha. now apply ucmd_zx. }
    set (Q := fun i l => (wE_diag d (b_w bb) i l * (eout d (b_ss bb) z i l * eout d (b_ss bb) z i l))%S).
    set (L := fun i l => (wE_diag d (b_w bb) i l * (eout d (b_ss bb) z i l * eo i l))%S).
    assert (SP : forall f : nat -> nat -> F, ssum (ph + 1) (fun i => ssum (nu + ny) (f i)) =
       sadd (ssum (ph + 1) (fun i => ssum ny (f i))) (ssum (ph + 1) (fun i => ssum nu (fun b => f i (ny + b))))).
    { intros f. rewrite <- ssum_add. apply ssum_ext. intros i Hi. apply ssum_wy. }
    change (ssum (ph + 1) (fun i => ssum (nu + ny) (fun l => (wE_diag d (b_w bb) i l * (eout d (b_ss bb) z i l * eout d (b_ss bb) z i l))%S)))
      with (ssum (ph + 1) (fun i => ssum (nu + ny) (Q i))).
    change (ssum (ph + 1) (fun i => ssum (nu + ny) (fun l => (wE_diag d (b_w bb) i l * (eout d (b_ss bb) z i l * eo i l))%S)))
      with (ssum (ph + 1) (fun i => ssum (nu + ny) (L i))).
    rewrite (SP Q), (SP L).
    assert (EY : (ssum (ph + 1) (fun i => ssum ny (Q i)) + s2 * ssum (ph + 1) (fun i => ssum ny (L i)) +
       ssum (ph + 1) (fun i => ssum ny (fun j => g_wy c (stp i) j *
        sq (ssum ndu (fun l => g_Dd c j l * g_d c (stp i) l) - g_yr c (stp i) j))))%S =
       ssum (ph + 1) (fun i => ssum ny (fun j => (g_wy c (stp i) j * sq (output d p c (X z) i j - g_yr c (stp i) j))%S))).
    { rewrite <- ssum_mul_l, <- !ssum_add. apply ssum_ext. intros i Hi.
      rewrite <- ssum_mul_l, <- !ssum_add. apply ssum_ext. intros l Hl. unfold Q, L.
      rewrite wE_y, eout_y, eoff_y by assumption. unfold sq, output, s2. ring. }
    assert (EU : (ssum (ph + 1) (fun i => ssum nu (fun b => Q i (ny + b)%nat)) + s2 * ssum (ph + 1) (fun i => ssum nu (fun b => L i (ny + b)%nat)) +
       ssum (ph + 1) (fun i => ssum nu (fun j => g_wu c (stp i) j * sq (g_ur c (stp i) j))))%S =
       ssum (ph + 1) (fun i => ssum nu (fun j => (g_wu c (stp i) j * sq (ucmd um (U z) i j - g_ur c (stp i) j))%S))).
    { rewrite <- ssum_mul_l, <- !ssum_add. apply ssum_ext. intros i Hi.
      rewrite <- ssum_mul_l, <- !ssum_add. apply ssum_ext. intros l Hl. unfold Q, L.
      rewrite wE_u, eout_u, eoff_u by assumption. rewrite UC by assumption. unfold sq, s2. ring. }
    assert (ED : (ssum ph (fun i => ssum nu (fun a => ent (wDeltaU (b_w bb)) a i * (zdu d z i a * zdu d z i a))) +
       s2 * ssum ph (fun i => ssum nu (fun a => ent (wDeltaU (b_w bb)) a i * (zdu d z i a * - ent (o_duref (l_o s)) a (cprev i)))) +
       ssum ph (fun i => ssum nu (fun j => g_wdu c i j * sq (g_dur c (stp i) j))))%S =
       ssum ph (fun i => ssum nu (fun j => (g_wdu c i j * sq (dcmd um (U z) i j - g_dur c (stp i) j))%S))).
    { rewrite <- ssum_mul_l, <- !ssum_add. apply ssum_ext. intros i Hi.
      rewrite <- ssum_mul_l, <- !ssum_add. apply ssum_ext. intros l Hl.
      rewrite w_du, DU, cprev_stp by assumption.
      rewrite (ro_du _ _ _ RO) by (unfold stp; lia || assumption). unfold sq, s2. ring. }
    rewrite <- EY, <- EU, <- ED. ring.
  Qed.

  (** *** positive semidefiniteness *)
  Theorem qp_P_psd :
    (forall i j, i <= ph -> j < ny -> sle s0 (g_wy c (stp i) j)) ->
    (forall i j, i <= ph -> j < nu -> sle s0 (g_wu c (stp i) j)) ->
    (forall i j, i < ph -> j < nu -> sle s0 (g_wdu c i j)) ->
    forall z, (s0 <= ssum (cl_n cl) (fun i => z i * ssum (cl_n cl) (fun j => qp_P cl i j * z j)))%S.
  Proof.
    intros HY HU HD z. rewrite (proj1 cl_dims).
    replace (ssum (n_var d) _) with (quad d (pP pb) z).
    2:{ unfold quad, row. apply ssum_ext. intros i Hi. f_equal. apply ssum_ext. intros j Hj. now rewrite qp_P_eq. }
    rewrite pP_eq. rewrite quad_P by assumption.
    replace s0 with (s0 + s0)%S by ring. apply sle_add; apply ssum_nonneg; intros i Hi; apply ssum_nonneg; intros l Hl.
    - apply smul_nonneg; [|apply ssq_nonneg]. destruct (Nat.lt_ge_cases l ny).
      + rewrite wE_y by lia. apply HY; lia.
      + replace l with (ny + (l - ny)) by lia. rewrite wE_u by lia. apply HU; lia.
    - apply smul_nonneg; [|apply ssq_nonneg]. rewrite w_du by lia. now apply HD.
  Qed.

  (** *** encoding and optimality transfer *)
  Lemma z_of_x vm x u i a : i < ph + 1 -> a < nx -> X (z_of d vm x u) i a = x i a.
  Proof.
    intros Hi Ha. unfold z_state, z_of. pose proof (blk_lt i (ph + 1) w a Hi ltac:(lia)).
    destruct (Nat.ltb_spec (i * w + a) N1); [|lia].
    destruct (divmod_unique i a w ltac:(lia)) as [-> ->]. destruct (Nat.ltb_spec a nx); [reflexivity|lia].
  Qed.
  Lemma z_of_up vm x u i a : i < ph + 1 -> a < nu -> zx d (z_of d vm x u) i (nx + a) = ucmd vm u i a.
  Proof.
    intros Hi Ha. unfold zx, z_of. pose proof (blk_lt i (ph + 1) w (nx + a) Hi ltac:(lia)).
    destruct (Nat.ltb_spec (i * w + (nx + a)) N1); [|lia].
    destruct (divmod_unique i (nx + a) w ltac:(lia)) as [-> ->].
    destruct (Nat.ltb_spec (nx + a) nx); [lia|]. f_equal. lia.
  Qed.
  Lemma z_of_u vm x u k a : k < ph -> a < nu -> U (z_of d vm x u) k a = u k a.
  Proof. intros Hk Ha. exact (z_of_up vm x u (S k) a ltac:(lia) Ha). Qed.
  Lemma z_of_du vm x u i a : i < ph -> a < nu -> zdu d (z_of d vm x u) i a = dcmd vm u i a.
  Proof.
    intros Hi Ha. unfold zdu, z_of. destruct (Nat.ltb_spec (N1 + (i * nu + a)) N1); [lia|].
    replace (N1 + (i * nu + a) - N1) with (i * nu + a) by lia.
    destruct (divmod_unique i a nu Ha) as [-> ->]. reflexivity.
  Qed.
  Lemma ucmd_ext vm (u u' : nat -> nat -> F) i a : i <= ph -> a < nu ->
    (forall k a, k < ph -> a < nu -> u k a = u' k a) -> ucmd vm u i a = ucmd vm u' i a.
  Proof. intros Hi Ha H. destruct i; cbn; [reflexivity|]. apply H; lia. Qed.
  Lemma output_ext x x' i j : (forall i a, i < ph + 1 -> a < nx -> x i a = x' i a) -> i <= ph ->
    output d p c x i j = output d p c x' i j.
  Proof. intros H Hi. unfold output. f_equal. apply ssum_ext. intros l Hl. rewrite H by lia. reflexivity. Qed.

  Lemma admissible_ext xx vm x x' u u' :
    (forall i a, i < ph + 1 -> a < nx -> x i a = x' i a) ->
    (forall k a, k < ph -> a < nu -> u k a = u' k a) ->
    admissible d p c xx vm x u -> admissible d p c xx vm x' u'.
  Proof.
    intros EX EU ((T0 & TS) & SX & SY & SU & FZ & SS).
    refine (conj (conj _ _) (conj _ (conj _ (conj _ (conj _ _))))).
    - intros j Hj. rewrite <- EX by lia. now apply T0.
    - intros k j Hk Hj. rewrite <- EX by lia. rewrite TS by assumption. f_equal. f_equal.
      + apply ssum_ext. intros l Hl. rewrite EX by lia. reflexivity.
      + apply ssum_ext. intros l Hl. rewrite EU by lia. reflexivity.
    - intros i j Hi Hj. rewrite <- EX by lia. now apply SX.
    - intros i j Hi Hj. rewrite <- (output_ext x x') by assumption. now apply SY.
    - intros i j Hi Hj. rewrite <- (ucmd_ext vm u u') by assumption. now apply SU.
    - intros i j Hc Hi Hj. rewrite <- EU by assumption. rewrite FZ by assumption.
      apply ucmd_ext; [lia|assumption|assumption].
    - intros i Hi. specialize (SS i Hi).
      rewrite (ssum_ext nx _ (fun l => (g_sX c l * x' i l)%S)) in SS by (intros; rewrite EX by lia; reflexivity).
      rewrite (ssum_ext nu _ (fun l => (g_sU c l * ucmd vm u' i l)%S)) in SS
        by (intros; rewrite (ucmd_ext vm u u') by (lia || assumption); reflexivity).
      exact SS.
  Qed.
  Lemma tracking_ext vm x x' u u' :
    (forall i a, i < ph + 1 -> a < nx -> x i a = x' i a) ->
    (forall k a, k < ph -> a < nu -> u k a = u' k a) ->
    tracking_cost d p c vm x u = tracking_cost d p c vm x' u'.
  Proof.
    intros EX EU. unfold tracking_cost. f_equal; [f_equal|].
    - apply ssum_ext. intros i Hi. apply ssum_ext. intros j Hj. rewrite (output_ext x x') by (assumption || lia). reflexivity.
    - apply ssum_ext. intros i Hi. apply ssum_ext. intros j Hj. rewrite (ucmd_ext vm u u') by (assumption || lia). reflexivity.
    - apply ssum_ext. intros i Hi. apply ssum_ext. intros j Hj. unfold dcmd.
      rewrite (ucmd_ext vm u u') by (assumption || lia). rewrite EU by assumption. reflexivity.
  Qed.

  Theorem z_of_feasible x u : admissible d p c (vec x0) um x u -> qp_feasible cl (z_of d um x u).
  Proof.
    intros H. apply qp_feasible_iff. split.
    - eapply admissible_ext; [| |exact H]; intros; symmetry; [now apply z_of_x|now apply z_of_u].
    - split.
      + intros a Ha. exact (z_of_up um x u 0 a ltac:(lia) Ha).
      + intros i a Hi Ha. rewrite z_of_du by assumption. unfold dcmd. rewrite z_of_u by assumption.
        f_equal. apply ucmd_ext; [lia|assumption|]. intros. symmetry. now apply z_of_u.
  Qed.

  Lemma s2_pos : (s0 < s2)%S.
  Proof. apply slt_nle. unfold s2. intros H. apply (s1_neq_0 (F := F)). apply sle_antisym; [|apply s01].
    eapply sle_trans; [|exact H]. replace s1 with (s1 + s0)%S at 1 by ring. apply sle_add; [apply sle_refl|apply s01]. Qed.
  Lemma s2_neq0 : s2 <> s0 :> F.
  Proof. intros E. pose proof s2_pos as H. apply slt_nle in H. apply H. rewrite E. apply sle_refl. Qed.
  Lemma half_le (a b : F) : (a / s2 <= b / s2)%S <-> (a <= b)%S.
  Proof.
    assert (N := s2_neq0). split; intros H.
    - replace a with (s2 * (a / s2))%S by (field; exact N). replace b with (s2 * (b / s2))%S by (field; exact N).
      apply smul_le_l; [|exact H]. destruct (sle_total s0 s2) as [E|E]; [exact E|].
      exfalso. pose proof s2_pos as P. now apply slt_nle in P.
    - assert (I : (s0 <= s1 / s2)%S).
      { destruct (sle_total s0 (s1 / s2)%S) as [E|E]; [exact E|].
        exfalso. pose proof s2_pos as P. apply slt_nle in P. apply P.
        assert (E2 := smul_le_l s2 _ _ (match sle_total s0 s2 with or_introl q => q | or_intror q => False_ind _ (P q) end) E).
        replace (s2 * (s1 / s2))%S with (s1 : F) in E2 by (field; exact N).
        replace (s2 * s0)%S with (s0 : F) in E2 by ring.
        unfold s2. replace (s0 : F) with (s0 + s0)%S by ring. now apply sle_add. }
      replace (a / s2)%S with ((s1 / s2) * a)%S by (field; exact N).
      replace (b / s2)%S with ((s1 / s2) * b)%S by (field; exact N). now apply smul_le_l.
  Qed.

  Theorem qp_optimal_transfer z : qp_optimal cl z ->
    admissible d p c (vec x0) um (X z) (U z) /\
    forall x u, admissible d p c (vec x0) um x u ->
      (tracking_cost d p c um (X z) (U z) <= tracking_cost d p c um x u)%S.
  Proof.
    intros [HF HO]. pose proof (proj1 (qp_feasible_iff z) HF) as [HA HC]. split; [exact HA|].
    intros x u H. pose proof (z_of_feasible x u H) as HF'.
    pose proof (proj1 (qp_feasible_iff _) HF') as [_ HC'].
    specialize (HO _ HF'). apply (proj1 (half_le _ _)) in HO.
    rewrite (tracking_ext um x (X (z_of d um x u)) u (U (z_of d um x u))).
    - rewrite <- (qp_cost2_tracking z HC), <- (qp_cost2_tracking _ HC'). now apply sle_add_r.
    - intros. symmetry. now apply z_of_x.
    - intros. symmetry. now apply z_of_u.
  Qed.
End QP.
