(** The rows of the quadratic program up to a tolerance (same computations as in LQP.v). *)
From Coq Require Import Bool Arith ZArith List Lia Ring Field.
From Verif Require Import Scalar Sums Mat Slice Csc CscProof Builder BuilderEnt BuilderRows LMPC SpecLMPC SpecQP LMPCRef LQP NLSlope NLSlope2 SpecCert.
Import ListNotations.

Section QPE.
  Context {F : Type} {SO : ScalarOps F} {SL : ScalarLaws F}.
  Add Field SF4e : s_field.
  Variable junk : nat -> nat -> F.
  Variable ejunk : nat -> nat -> ext F.
  Variable d : dims.
  Notation nx := (d_nx d). Notation nu := (d_nu d). Notation ndu := (d_ndu d).
  Notation ny := (d_ny d). Notation ph := (d_ph d). Notation ch := (d_ch d).
  Notation w := (nu + nx).
  Notation N1 := ((ph + 1) * (nu + nx)).
  Local Open Scope S_scope.
  Local Open Scope nat_scope.
  Variable e : F.

  Lemma nearly_eq (v y : F) : nearly e (Fin v) (Fin v) y <-> (sabs (y - v) <= e)%S.
  Proof.
    unfold nearly. split.
    - intros (q & H & K). apply within_eq in H. now subst q.
    - intros H. exists v. split; [now apply within_eq|exact H].
  Qed.
  Lemma nearly_eadd (l u : ext F) (o v : F) : nearly e (eadd l o) (eadd u o) v <-> nearly e l u (v - o)%S.
  Proof.
    unfold nearly. split; intros (q & H & K).
    - exists (q - o)%S. split; [now apply within_eadd|]. now replace (v - o - (q - o))%S with (v - q)%S by ring.
    - exists (q + o)%S. split; [apply within_eadd; now replace (q + o - o)%S with q by ring|]. now replace (v - (q + o))%S with (v - o - q)%S by ring.
  Qed.
  Lemma nearly_0 (l u : ext F) v o : o = s0 -> nearly e (eadd l o) (eadd u o) v <-> nearly e l u v.
  Proof. intros ->. rewrite nearly_eadd. now replace (v - 0)%S with v by ring. Qed.
  Lemma abs_swap (a b : F) : a = (- b)%S -> (sabs a <= e)%S <-> (sabs b <= e)%S.
  Proof. intros ->. now rewrite sabs_opp. Qed.
  Lemma sabs_0 : sabs s0 = s0 :> F. Proof. apply sabs_pos, sle_refl. Qed.
  Lemma sabs_sum_le n (f g : nat -> F) : (forall i, i < n -> (sabs (f i) <= g i)%S) -> (sabs (ssum n f) <= ssum n g)%S.
  Proof.
    induction n; intros H.
    - cbn [ssum]. rewrite sabs_0. apply sle_refl.
    - cbn [ssum]. eapply sle_trans; [apply sabs_add|]. apply sle_add; [apply IHn; auto|auto].
  Qed.
  Hypothesis e_pos : (s0 <= e)%S.

  Hypothesis ph_pos : 0 < ph.
  Variables (s : lmpc F) (c : cfg F) (p : plant F) (x0 u0 : mat F).
  Hypothesis HR : R junk ejunk d s c.
  Hypothesis Hpl : g_plant c = Some p.
  Hypothesis Hx0 : sized x0 nx 1.
  Hypothesis Hu0 : sized u0 nu 1.
  Notation cl := (l_call d s x0 u0).
  Notation bb := (l_b s).
  Notation um := (vec u0).
  Notation pb := (b_prob (l_built d s x0 u0)).
  Notation X z := (z_state d z). Notation U z := (z_cmd d z).
  Let Gent := Gent junk ejunk d ph_pos s c x0 u0 HR Hx0 Hu0.
  Let Rpl := Rpl junk ejunk d s c p HR Hpl.
  Let pA_eq := pA_eq junk ejunk d ph_pos s c x0 u0 HR Hx0 Hu0.
  Let ineqL := ineqL junk ejunk d s c HR.
  Let ineqU := ineqU junk ejunk d s c HR.

  Definition nrow (z : nat -> F) (r : nat) : Prop := nearly e (ent (pl pb) r 0) (ent (pu pb) r 0) (row d (pA pb) r z).
  Lemma nearly_rows z : (forall r, r < cl_m cl -> nearly e (lo_of cl r) (hi_of cl r) (qp_row cl r z)) <-> forall r, r < n_con d -> nrow z r.
  Proof.
    unfold nrow, lo_of, hi_of. rewrite (proj2 (cl_dims junk ejunk d ph_pos s c x0 u0 HR Hx0 Hu0)). split; intros H r Hr; specialize (H r Hr);
      rewrite (cl_l_eq junk ejunk d ph_pos s c x0 u0 HR Hx0 Hu0), (cl_u_eq junk ejunk d ph_pos s c x0 u0 HR Hx0 Hu0), (qp_row_eq junk ejunk d ph_pos s c x0 u0 HR Hx0 Hu0) in * by exact Hr; assumption.
  Qed.

  (** the facts on the concrete state used below *)
  Let SZ := rb_sz _ _ _ _ _ (r_b _ _ _ _ _ HR).
  Let Sss : ss_sized d (b_ss bb) := bs_ss _ _ SZ.
  Let Sw : w_sized d (b_w bb) := bs_w _ _ SZ.
  Let Slim : lim_sized d (b_lim bb) := bs_lim _ _ SZ.
  Let RD := rb_dist _ _ _ _ _ (r_b _ _ _ _ _ HR).
  Let RO := r_o _ _ _ _ _ HR.


  (** *** equality rows *)
  Lemma eq0_x z a : a < nx -> nrow z a <-> (sabs (X z 0 a - vec x0 a) <= e)%S.
  Proof.
    intros Ha. pose proof (blk_lt 0 (ph + 1) w a ltac:(lia) ltac:(lia)) as B.
    unfold nrow. rewrite (ge_ul _ _ _ _ _ _ _ _ _ Gent) by lia.
    rewrite (ge_0x _ _ _ _ _ _ _ _ _ Gent) by assumption. rewrite nearly_eq, pA_eq, build_A_eq by lia.
    rewrite row_eq_0 by (assumption || lia). change (zx d z 0 a) with (X z 0 a). apply abs_swap. unfold vec. ring.
  Qed.
  Lemma eq0_u z a : a < nu -> nrow z (nx + a) <-> (sabs (zx d z 0 (nx + a) - vec u0 a) <= e)%S.
  Proof.
    intros Ha. pose proof (blk_lt 0 (ph + 1) w (nx + a) ltac:(lia) ltac:(lia)) as B.
    unfold nrow. rewrite (ge_ul _ _ _ _ _ _ _ _ _ Gent) by lia.
    rewrite (ge_0u _ _ _ _ _ _ _ _ _ Gent) by assumption. rewrite nearly_eq, pA_eq, build_A_eq by lia.
    rewrite row_eq_0 by (assumption || lia). apply abs_swap. unfold vec. ring.
  Qed.
  Lemma eqS_u z i a : i < ph -> a < nu ->
    nrow z (S i * w + (nx + a)) <-> (sabs (zx d z (S i) (nx + a) - (zx d z i (nx + a) + zdu d z i a)) <= e)%S.
  Proof.
    intros Hi Ha. pose proof (blk_lt (S i) (ph + 1) w (nx + a) ltac:(lia) ltac:(lia)) as B.
    unfold nrow. rewrite (ge_ul _ _ _ _ _ _ _ _ _ Gent) by lia.
    rewrite (ge_eq _ _ _ _ _ _ _ _ _ Gent) by lia. rewrite nearly_eq, pA_eq, build_A_eq by lia.
    rewrite row_eq_S by (assumption || lia).
    destruct Rpl as (_ & _ & A3 & A4 & _ & B2 & _). destruct RD as (_ & D2 & _).
    rewrite ssum_w. rewrite (ssum_zero nx).
    2:{ intros b Hb. rewrite A3 by assumption. ring. }
    rewrite (ssum_ext nu _ (fun b => (delta a b * zx d z i (nx + b))%S)).
    2:{ intros b Hb. now rewrite A4. }
    rewrite ssum_delta_l by assumption.
    rewrite (ssum_ext nu _ (fun b => (delta a b * zdu d z i b)%S)).
    2:{ intros b Hb. now rewrite B2. }
    rewrite ssum_delta_l by assumption.
    rewrite (ssum_zero ndu).
    2:{ intros b Hb. rewrite D2 by assumption. ring. }
    apply abs_swap. ring.
  Qed.
  Lemma eqS_x z i a : i < ph -> a < nx ->
    nrow z (S i * w + a) <->
    (sabs (X z (S i) a - (ssum nx (fun l => pl_A p a l * X z i l) + ssum nu (fun l => pl_B p a l * (zx d z i (nx + l) + zdu d z i l))
                   + ssum ndu (fun l => g_Bd c a l * g_d c i l))) <= e)%S.
  Proof.
    intros Hi Ha. pose proof (blk_lt (S i) (ph + 1) w a ltac:(lia) ltac:(lia)) as B.
    unfold nrow. rewrite (ge_ul _ _ _ _ _ _ _ _ _ Gent) by lia.
    rewrite (ge_eq _ _ _ _ _ _ _ _ _ Gent) by lia. rewrite nearly_eq, pA_eq, build_A_eq by lia.
    rewrite row_eq_S by (assumption || lia).
    destruct Rpl as (A1 & A2 & _ & _ & B1 & _). destruct RD as (D1 & _).
    rewrite ssum_w.
    rewrite (ssum_ext nx _ (fun b => (pl_A p a b * X z i b)%S)).
    2:{ intros b Hb. now rewrite A1. }
    rewrite (ssum_ext nu (fun b => (ent (ssA (b_ss bb)) a (nx + b) * zx d z i (nx + b))%S) (fun b => (pl_B p a b * zx d z i (nx + b))%S)).
    2:{ intros b Hb. now rewrite A2. }
    rewrite (ssum_ext nu (fun b => (ent (ssB (b_ss bb)) a b * zdu d z i b)%S) (fun b => (pl_B p a b * zdu d z i b)%S)).
    2:{ intros b Hb. now rewrite B1. }
    rewrite (ssum_ext ndu _ (fun b => (- (g_Bd c a b * g_d c i b))%S)).
    2:{ intros b Hb. rewrite (cprev_stp d ph_pos). rewrite D1 by assumption.
        rewrite (ro_d _ _ _ RO) by (unfold stp; lia || assumption). unfold stp. cbn [Nat.pred]. ring. }
    rewrite ssum_opp.
    rewrite (ssum_ext nu (fun l => (pl_B p a l * (_ + _))%S) (fun l => (pl_B p a l * zx d z i (nx + l) + pl_B p a l * zdu d z i l)%S)).
    2:{ intros; ring. }
    rewrite ssum_add. change (zx d z (S i) a) with (X z (S i) a).
    generalize (X z (S i) a) (ssum nx (fun b => (pl_A p a b * X z i b)%S))
      (ssum nu (fun b => (pl_B p a b * zx d z i (nx + b))%S)) (ssum nu (fun b => (pl_B p a b * zdu d z i b)%S))
      (ssum ndu (fun b => (g_Bd c a b * g_d c i b)%S)).
    intros q1 q2 q3 q4 q5. apply abs_swap. ring.
  Qed.

  (** *** inequality rows *)

  Lemma nrow_in z r : r < n_ineq d -> r < N1 \/ N1 + (ph + 1) * ny <= r ->
    nrow z (N1 + r) <-> nearly e (ent (b_lineq bb) r 0) (ent (b_uineq bb) r 0) (row d (build_Aineq d (b_ss bb) (b_lim bb)) r z).
  Proof.
    intros Hr Ho. unfold nrow.
    destruct (ge_l _ _ _ _ _ _ _ _ _ Gent r Hr) as (o & -> & -> & H0 & _).
    rewrite pA_eq, build_A_in by assumption. rewrite nearly_0 by auto. reflexivity.
  Qed.
  Let RL := rb_lim _ _ _ _ _ (r_b _ _ _ _ _ HR).

  Lemma in_x z i a : i < ph + 1 -> a < nx ->
    nrow z (N1 + (i * w + a)) <-> nearly e (g_xlo c (stp i) a) (g_xhi c (stp i) a) (X z i a).
  Proof.
    intros Hi Ha. pose proof (blk_lt i (ph + 1) w a Hi ltac:(lia)) as B.
    rewrite nrow_in by (unfold n_ineq; lia).
    rewrite (ie_x _ _ _ _ _ _ _ ineqL), (ie_x _ _ _ _ _ _ _ ineqU) by assumption.
    destruct RL as (L1 & L2 & _). rewrite L1, L2 by assumption.
    rewrite row_in_x by lia. reflexivity.
  Qed.
  Lemma in_u z i a : i < ph + 1 -> a < nu ->
    nrow z (N1 + (i * w + (nx + a))) <->
    nearly e (g_ulo c (Nat.min i (ph - 1)) a) (g_uhi c (Nat.min i (ph - 1)) a) (zx d z i (nx + a)).
  Proof.
    intros Hi Ha. pose proof (blk_lt i (ph + 1) w (nx + a) Hi ltac:(lia)) as B.
    rewrite nrow_in by (unfold n_ineq; lia).
    rewrite (ie_u _ _ _ _ _ _ _ ineqL), (ie_u _ _ _ _ _ _ _ ineqU) by assumption.
    destruct RL as (_ & _ & _ & _ & L5 & L6 & _).
    replace (if i =? ph then i - 1 else i) with (Nat.min i (ph - 1)) by (destruct (Nat.eqb_spec i ph); lia).
    rewrite L5, L6 by lia. rewrite row_in_x by lia. reflexivity.
  Qed.
  Lemma in_du z i a : i < ph -> a < nu ->
    nrow z (N1 + (N1 + (ph + 1) * ny + (i * nu + a))) <-> (ch < i -> (sabs (zdu d z i a) <= e)%S).
  Proof.
    intros Hi Ha. pose proof (blk_lt i ph nu a Hi Ha) as B.
    rewrite nrow_in by (unfold n_ineq; lia).
    rewrite (ie_du _ _ _ _ _ _ _ ineqL), (ie_du _ _ _ _ _ _ _ ineqU) by assumption.
    rewrite row_in_du by assumption. destruct (Nat.ltb_spec ch i).
    - rewrite nearly_eq. replace (zdu d z i a - 0)%S with (zdu d z i a) by ring. tauto.
    - split; [intros; lia|]. intros _. exists (zdu d z i a). split; [split; exact I|].
      replace (zdu d z i a - zdu d z i a)%S with (0%S : F) by ring. rewrite sabs_0. exact e_pos.
  Qed.
  Lemma in_s z i : i < ph + 1 ->
    nrow z (N1 + (N1 + (ph + 1) * ny + ph * nu + i)) <->
    nearly e (g_slo c (stp i)) (g_shi c (stp i))
      (ssum nx (fun l => g_sX c l * X z i l) + ssum nu (fun l => g_sU c l * zx d z i (nx + l)))%S.
  Proof.
    intros Hi. rewrite nrow_in by (unfold n_ineq; lia).
    rewrite (ie_s _ _ _ _ _ _ _ ineqL), (ie_s _ _ _ _ _ _ _ ineqU) by assumption.
    destruct RL as (_ & _ & _ & _ & _ & _ & L7 & L8 & L9). rewrite L7, L8 by assumption.
    rewrite row_in_s by assumption.
    assert (E : ssum (ph + 1) (fun j => ssum w (fun b => (ent (sMultiplier (b_lim bb)) i (j * w + b) * zx d z j b)%S)) =
      (ssum nx (fun l => g_sX c l * X z i l) + ssum nu (fun l => g_sU c l * zx d z i (nx + l)))%S).
    { rewrite (ssum_single (ph + 1) i); [|exact Hi|].
      - rewrite ssum_w. f_equal; apply ssum_ext; intros b Hb; rewrite L9 by lia; rewrite Nat.eqb_refl.
        + destruct (Nat.ltb_spec b nx); [reflexivity|lia].
        + destruct (Nat.ltb_spec (nx + b) nx); [lia|]. f_equal. f_equal. lia.
      - intros j Hj N. apply ssum_zero. intros b Hb. rewrite L9 by lia.
        destruct (Nat.eqb_spec i j); [congruence|]. ring. }
    rewrite E. reflexivity.
  Qed.
  Lemma in_y z i a : i < ph + 1 -> a < ny ->
    nrow z (N1 + (N1 + (i * ny + a))) <->
    nearly e (g_ylo c (stp i) a) (g_yhi c (stp i) a) (output d p c (X z) i a).
  Proof.
    intros Hi Ha. pose proof (blk_lt i (ph + 1) ny a Hi Ha) as B.
    assert (Hr : N1 + (i * ny + a) < n_ineq d) by (unfold n_ineq; lia).
    unfold nrow. destruct (ge_l _ _ _ _ _ _ _ _ _ Gent _ Hr) as (o & -> & -> & _ & H1).
    rewrite (H1 i a Hi Ha eq_refl). rewrite nearly_eadd.
    rewrite pA_eq, build_A_in by assumption. rewrite row_in_y by assumption.
    rewrite (ie_y _ _ _ _ _ _ _ ineqL), (ie_y _ _ _ _ _ _ _ ineqU) by assumption.
    destruct RL as (_ & _ & L3 & L4 & _). rewrite L3, L4 by assumption.
    destruct Rpl as (_ & _ & _ & _ & _ & _ & C1 & C2 & _). destruct RD as (_ & _ & D3 & _).
    assert (E : (ssum w (fun b => ent (ssC (b_ss bb)) a b * zx d z i b)
       - ssum ndu (fun m => - ent (ssDv (b_ss bb)) a m * ent (o_dist (l_o s)) m (cprev i)))%S = output d p c (X z) i a).
    { unfold output. rewrite ssum_w.
      rewrite (ssum_ext nx _ (fun b => (pl_C p a b * X z i b)%S)).
      2:{ intros b Hb. now rewrite C1. }
      rewrite (ssum_zero nu).
      2:{ intros b Hb. rewrite C2 by assumption. ring. }
      rewrite (ssum_ext ndu _ (fun b => (- (g_Dd c a b * g_d c (stp i) b))%S)).
      2:{ intros b Hb. rewrite (cprev_stp d ph_pos), D3 by assumption.
          rewrite (ro_d _ _ _ RO) by (unfold stp; lia || assumption). ring. }
      rewrite ssum_opp. ring. }
    rewrite E. reflexivity.
  Qed.


  Lemma nearly_widen (e' : F) l u v : (e <= e')%S -> nearly e l u v -> nearly e' l u v.
  Proof. intros H (q & A & B). exists q. split; [exact A|exact (sle_trans _ _ _ B H)]. Qed.

  Theorem nearly_feasible z : (forall r, r < cl_m cl -> nearly e (lo_of cl r) (hi_of cl r) (qp_row cl r z)) ->
    nearly_admissible d e p c (vec x0) um (X z) (U z).
  Proof.
    intros H0. pose proof (proj1 (nearly_rows z) H0) as H1. apply (row_groups d ph_pos) in H1. destruct H1 as (H1 & H2 & H3 & H4 & H5 & H6 & H7 & H8 & H9). clear H0.
    assert (UC : forall i a, i < ph -> a < nu -> (sabs (U z i a - (zx d z i (nx + a) + zdu d z i a)) <= e)%S).
    { intros i a Hi Ha. exact (proj1 (eqS_u z i a Hi Ha) (H4 i a Hi Ha)). }
    assert (U0 : forall i a, i < ph -> a < nu -> (sabs (ucmd um (U z) i a - zx d z i (nx + a)) <= e)%S).
    { intros [|i] a Hi Ha; cbn [ucmd].
      - pose proof (proj1 (eq0_u z a Ha) (H2 a Ha)) as K. now apply (abs_swap _ (zx d z 0 (nx + a) - vec u0 a)%S); [ring|].
      - change (U z i a) with (zx d z (S i) (nx + a)). replace (zx d z (S i) (nx + a) - zx d z (S i) (nx + a))%S with (0%S : F) by ring. rewrite sabs_0. exact e_pos. }
    refine (conj _ (conj _ (conj _ (conj _ (conj _ (conj _ _)))))).
    - intros j Hj. exact (proj1 (eq0_x z j Hj) (H1 j Hj)).
    - intros k j Hk Hj. pose proof (proj1 (eqS_x z k j Hk Hj) (H3 k j Hk Hj)) as K.
      set (S1 := ssum nx _) in *. set (S3 := ssum ndu _) in *.
      set (S2 := ssum nu (fun l => (pl_B p j l * (zx d z k (nx + l) + zdu d z k l))%S)) in *.
      set (S2' := ssum nu (fun l => (pl_B p j l * U z k l)%S)).
      replace (X z (S k) j - (S1 + S2' + S3))%S with ((X z (S k) j - (S1 + S2 + S3)) + (S2 - S2'))%S by ring.
      eapply sle_trans; [apply sabs_add|]. replace (e * (s1 + norm1 nu (pl_B p j)))%S with (e + e * norm1 nu (pl_B p j))%S by ring.
      apply sle_add; [exact K|]. unfold S2, S2'. rewrite <- ssum_sub.
      unfold norm1. rewrite <- ssum_mul_l. apply sabs_sum_le. intros l Hl.
      replace (pl_B p j l * (zx d z k (nx + l) + zdu d z k l) - pl_B p j l * U z k l)%S with (- (pl_B p j l * (U z k l - (zx d z k (nx + l) + zdu d z k l))))%S by ring.
      rewrite sabs_opp, sabs_mul. replace (e * sabs (pl_B p j l))%S with (sabs (pl_B p j l) * e)%S by ring.
      apply smul_le_l; [apply sabs_nonneg|]. now apply UC.
    - intros i j Hi Hj. apply in_x; [lia|assumption|]. apply H5; lia.
    - intros i j Hi Hj. apply in_y; [lia|assumption|]. apply H7; lia.
    - intros k j Hk Hj. change (U z k j) with (zx d z (S k) (nx + j)). apply in_u; [lia|assumption|]. apply H6; lia.
    - intros k j Hc Hk Hj. pose proof (proj1 (in_du z k j Hk Hj) (H8 k j Hk Hj) Hc) as K. pose proof (UC k j Hk Hj) as K2.
      destruct k as [|k]; [lia|]. cbn [ucmd]. change (U z k j) with (zx d z (S k) (nx + j)).
      replace (U z (S k) j - zx d z (S k) (nx + j))%S with ((U z (S k) j - (zx d z (S k) (nx + j) + zdu d z (S k) j)) + zdu d z (S k) j)%S by ring.
      eapply sle_trans; [apply sabs_add|]. replace (s2 * e)%S with (e + e)%S by (unfold s2; ring). now apply sle_add.
    - intros k Hk. pose proof (proj1 (in_s z (S k) ltac:(lia)) (H9 (S k) ltac:(lia))) as K. exact K.
  Qed.
End QPE.
