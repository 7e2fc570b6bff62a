(** The complete table of row bounds handed to the solver, entry by entry, and which rows a change of one
    group of settings can touch. *)
From Coq Require Import Bool Arith ZArith List Lia Ring Field.
From Verif Require Import Scalar Sums Mat Slice Csc CscProof Builder BuilderEnt BuilderRows LMPC SpecLMPC SpecQP LMPCRef LQP LRows.
Import ListNotations.

Section One.
  Context {F : Type} {SO : ScalarOps F} {SL : ScalarLaws F}.
  Add Field SFr2 : s_field.
  Variable junk : nat -> nat -> F.
  Variable ejunk : nat -> nat -> ext F.
  Variable d : dims.
  Notation nx := (d_nx d). Notation nu := (d_nu d). Notation ndu := (d_ndu d).
  Notation ny := (d_ny d). Notation ph := (d_ph d). Notation ch := (d_ch d).
  Notation w := (nu + nx).
  Notation N1 := ((ph + 1) * (nu + nx)).
  Hypothesis ph_pos : 0 < ph.
  Variables (s : lmpc F) (c : cfg F) (x0 u0 : mat F).
  Hypothesis HR : R junk ejunk d s c.
  Hypothesis Hx0 : sized x0 nx 1.
  Hypothesis Hu0 : sized u0 nu 1.
  Notation cl := (l_call d s x0 u0).
  Notation G := (Gent junk ejunk d ph_pos s c x0 u0 HR Hx0 Hu0).

  Lemma ssum_neg n (f : nat -> F) : ssum n (fun m => sopp (f m)) = sopp (ssum n f).
  Proof. induction n as [|n IH]; cbn [ssum]; [ring|]. rewrite IH. ring. Qed.
  Lemma dist_off (M : mat F) (g : nat -> nat -> F) i a : i < ph + 1 ->
    (forall j, j < ndu -> ent M a j = g a j) ->
    ssum ndu (fun m => smul (sopp (ent M a m)) (ent (o_dist (l_o s)) m (cprev i))) =
    sopp (ssum ndu (fun m => (g a m * g_d c (stp i) m)%S)).
  Proof.
    intros Hi HM. rewrite <- ssum_neg. apply ssum_ext. intros m Hm. rewrite HM by assumption.
    assert (E : cprev i = stp i) by (unfold cprev, stp; destruct (Nat.eqb_spec i 0); lia). rewrite E.
    rewrite (ro_d _ _ _ (r_o _ _ _ _ _ HR)) by (unfold stp; lia). ring.
  Qed.
  Lemma row_0x a : a < nx -> nth a (cl_l cl) PInf = Fin (sopp (vec x0 a)).
  Proof. intros Ha. pose proof (blk_lt 0 (ph + 1) w a ltac:(lia) ltac:(lia)) as B.
    erewrite cl_l_eq by (eassumption || (unfold n_con, n_eq; lia)). apply (ge_0x _ _ _ _ _ _ _ _ _ G a Ha). Qed.
  Lemma row_0u a : a < nu -> nth (nx + a) (cl_l cl) PInf = Fin (sopp (vec u0 a)).
  Proof. intros Ha. pose proof (blk_lt 0 (ph + 1) w (nx + a) ltac:(lia) ltac:(lia)) as B.
    erewrite cl_l_eq by (eassumption || (unfold n_con, n_eq; lia)). apply (ge_0u _ _ _ _ _ _ _ _ _ G a Ha). Qed.
  Lemma row_Sx i a : i < ph -> a < nx ->
    nth (S i * w + a) (cl_l cl) PInf = Fin (sopp (ssum ndu (fun m => (g_Bd c a m * g_d c i m)%S))).
  Proof.
    intros Hi Ha. pose proof (blk_lt (S i) (ph + 1) w a ltac:(lia) ltac:(lia)) as B.
    erewrite cl_l_eq by (eassumption || (unfold n_con, n_eq; lia)).
    rewrite (ge_eq _ _ _ _ _ _ _ _ _ G (S i) a) by lia. f_equal.
    apply (dist_off (ssBv (b_ss (l_b s))) (g_Bd c) (S i) a); [lia|].
    intros j Hj. now apply (rb_dist _ _ _ _ _ (r_b _ _ _ _ _ HR)).
  Qed.
  Lemma row_Su i a : i < ph -> a < nu -> nth (S i * w + (nx + a)) (cl_l cl) PInf = Fin s0.
  Proof.
    intros Hi Ha. pose proof (blk_lt (S i) (ph + 1) w (nx + a) ltac:(lia) ltac:(lia)) as B.
    erewrite cl_l_eq by (eassumption || (unfold n_con, n_eq; lia)).
    rewrite (ge_eq _ _ _ _ _ _ _ _ _ G (S i) (nx + a)) by lia. f_equal.
    destruct (rb_dist _ _ _ _ _ (r_b _ _ _ _ _ HR)) as (_ & E & _).
    rewrite (ssum_ext ndu _ (fun _ => s0)); [apply ssum_zero; reflexivity|].
    intros m Hm. rewrite E by assumption. ring.
  Qed.
  Lemma row_y i a : i <= ph -> a < ny ->
    let o := sopp (ssum ndu (fun m => (g_Dd c a m * g_d c (stp i) m)%S)) in
    nth (N1 + (N1 + (i * ny + a))) (cl_l cl) PInf = eadd (g_ylo c (stp i) a) o /\
    nth (N1 + (N1 + (i * ny + a))) (cl_u cl) MInf = eadd (g_yhi c (stp i) a) o.
  Proof.
    intros Hi Ha o. pose proof (blk_lt i (ph + 1) ny a ltac:(lia) ltac:(lia)) as B.
    erewrite cl_l_eq, cl_u_eq by (eassumption || (unfold n_con, n_eq, n_ineq; lia)).
    destruct (ge_l _ _ _ _ _ _ _ _ _ G (N1 + (i * ny + a))) as (o' & -> & -> & _ & E); [unfold n_ineq; lia|].
    rewrite (E i a ltac:(lia) Ha eq_refl).
    rewrite (dist_off (ssDv (b_ss (l_b s))) (g_Dd c) i a); [|lia|intros j Hj; now apply (rb_dist _ _ _ _ _ (r_b _ _ _ _ _ HR))].
    rewrite (ie_y _ _ _ _ _ _ _ (ineqL junk ejunk d s c HR)), (ie_y _ _ _ _ _ _ _ (ineqU junk ejunk d s c HR)) by lia.
    destruct (rb_lim _ _ _ _ _ (r_b _ _ _ _ _ HR)) as (_ & _ & L3 & L4 & _). rewrite L3, L4 by lia. split; reflexivity.
  Qed.
End One.

Section Two.
  Context {F : Type} {SO : ScalarOps F} {SL : ScalarLaws F}.
  Variable junk : nat -> nat -> F.
  Variable ejunk : nat -> nat -> ext F.
  Variable d : dims.
  Notation nx := (d_nx d). Notation nu := (d_nu d). Notation ndu := (d_ndu d).
  Notation ny := (d_ny d). Notation ph := (d_ph d). Notation ch := (d_ch d).
  Notation w := (nu + nx).
  Notation N1 := ((ph + 1) * (nu + nx)).
  Hypothesis ph_pos : 0 < ph.
  Variables (s s' : lmpc F) (c c' : cfg F) (x0 u0 : mat F).
  Hypothesis HR : R junk ejunk d s c.
  Hypothesis HR' : R junk ejunk d s' c'.
  Hypothesis Hx0 : sized x0 nx 1.
  Hypothesis Hu0 : sized u0 nu 1.
  Notation cl := (l_call d s x0 u0).
  Notation cl' := (l_call d s' x0 u0).

  Definition row_same (r : nat) : Prop :=
    nth r (cl_l cl) PInf = nth r (cl_l cl') PInf /\ nth r (cl_u cl) MInf = nth r (cl_u cl') MInf.
  (** with the model and disturbances unchanged, only rows of groups whose settings changed can change *)
  Lemma rows_changed (Q : nat -> Prop) :
    same_model d c c' -> same_dist d c c' ->
    (same_xb d c c' \/ forall i a, i <= ph -> a < nx -> Q (N1 + (i * w + a))) ->
    (same_ub d c c' \/ forall i a, i <= ph -> a < nu -> Q (N1 + (i * w + (nx + a)))) ->
    (same_yb d c c' \/ forall i a, i <= ph -> a < ny -> Q (N1 + (N1 + (i * ny + a)))) ->
    (same_sb d c c' \/ forall i, i <= ph -> Q (N1 + (N1 + (ph + 1) * ny + ph * nu + i))) ->
    forall r, r < n_con d -> Q r \/ row_same r.
  Proof.
    intros (_ & EB & ED) Ed HX HU HY HS. unfold same_dist in Ed.
    assert (EQ : forall r, r < N1 -> nth r (cl_l cl) PInf = nth r (cl_l cl') PInf -> row_same r).
    { intros r Hr E. split; [exact E|].
      rewrite (proj1 (bound_eq junk ejunk d ph_pos s c x0 u0 HR Hx0 Hu0 r Hr)).
      rewrite (proj1 (bound_eq junk ejunk d ph_pos s' c' x0 u0 HR' Hx0 Hu0 r Hr)). exact E. }
    apply (row_groups d ph_pos). refine (conj _ (conj _ (conj _ (conj _ (conj _ (conj _ (conj _ (conj _ _)))))))).
    - intros a Ha. right. apply EQ; [pose proof (blk_lt 0 (ph + 1) w a ltac:(lia) ltac:(lia)); lia|].
      erewrite !row_0x by eassumption. reflexivity.
    - intros a Ha. right. apply EQ; [pose proof (blk_lt 0 (ph + 1) w (nx + a) ltac:(lia) ltac:(lia)); lia|].
      erewrite !row_0u by eassumption. reflexivity.
    - intros i a Hi Ha. right. apply EQ; [pose proof (blk_lt (S i) (ph + 1) w a ltac:(lia) ltac:(lia)); lia|].
      rewrite (row_Sx junk ejunk d ph_pos s c x0 u0 HR Hx0 Hu0 i a Hi Ha), (row_Sx junk ejunk d ph_pos s' c' x0 u0 HR' Hx0 Hu0 i a Hi Ha).
      do 2 f_equal. apply ssum_ext. intros m Hm. now rewrite EB, Ed.
    - intros i a Hi Ha. right. apply EQ; [pose proof (blk_lt (S i) (ph + 1) w (nx + a) ltac:(lia) ltac:(lia)); lia|].
      rewrite (row_Su junk ejunk d ph_pos s c x0 u0 HR Hx0 Hu0 i a Hi Ha), (row_Su junk ejunk d ph_pos s' c' x0 u0 HR' Hx0 Hu0 i a Hi Ha). reflexivity.
    - intros i a Hi Ha. destruct HX as [[X1 X2]|HQ]; [right|left; apply HQ; lia].
      destruct (bound_x junk ejunk d ph_pos s c x0 u0 HR Hx0 Hu0 i a ltac:(lia) Ha) as [E1 E2].
      destruct (bound_x junk ejunk d ph_pos s' c' x0 u0 HR' Hx0 Hu0 i a ltac:(lia) Ha) as [E1' E2'].
      unfold row_same. rewrite E1, E2, E1', E2'. split; [apply X1|apply X2]; unfold stp; lia.
    - intros i a Hi Ha. destruct HU as [[X1 X2]|HQ]; [right|left; apply HQ; lia].
      destruct (bound_u junk ejunk d ph_pos s c x0 u0 HR Hx0 Hu0 i a ltac:(lia) Ha) as [E1 E2].
      destruct (bound_u junk ejunk d ph_pos s' c' x0 u0 HR' Hx0 Hu0 i a ltac:(lia) Ha) as [E1' E2'].
      unfold row_same. rewrite E1, E2, E1', E2'. split; [apply X1|apply X2]; lia.
    - intros i a Hi Ha. destruct HY as [[X1 X2]|HQ]; [right|left; apply HQ; lia].
      destruct (row_y junk ejunk d ph_pos s c x0 u0 HR Hx0 Hu0 i a ltac:(lia) Ha) as [E1 E2].
      destruct (row_y junk ejunk d ph_pos s' c' x0 u0 HR' Hx0 Hu0 i a ltac:(lia) Ha) as [E1' E2'].
      unfold row_same. rewrite E1, E2, E1', E2'.
      assert (EO : ssum ndu (fun m => (g_Dd c a m * g_d c (stp i) m)%S) = ssum ndu (fun m => (g_Dd c' a m * g_d c' (stp i) m)%S)).
      { apply ssum_ext. intros m Hm. rewrite ED, Ed by (unfold stp; lia). reflexivity. }
      rewrite EO, X1, X2 by (unfold stp; lia). split; reflexivity.
    - intros i a Hi Ha. right.
      destruct (bound_du junk ejunk d ph_pos s c x0 u0 HR Hx0 Hu0 i a Hi Ha) as [E1 E2].
      destruct (bound_du junk ejunk d ph_pos s' c' x0 u0 HR' Hx0 Hu0 i a Hi Ha) as [E1' E2'].
      unfold row_same. rewrite E1, E2, E1', E2'. split; reflexivity.
    - intros i Hi. destruct HS as [[X1 X2]|HQ]; [right|left; apply HQ; lia].
      destruct (bound_s junk ejunk d ph_pos s c x0 u0 HR Hx0 Hu0 i ltac:(lia)) as [E1 E2].
      destruct (bound_s junk ejunk d ph_pos s' c' x0 u0 HR' Hx0 Hu0 i ltac:(lia)) as [E1' E2'].
      unfold row_same. rewrite E1, E2, E1', E2'. split; [apply X1|apply X2]; unfold stp; lia.
  Qed.
End Two.
