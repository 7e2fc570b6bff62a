(** What getOptimalSequence and the returned result contain after optimize. *)
From Coq Require Import Bool Arith ZArith List Lia.
From Verif Require Import Scalar Sums Mat Slice Csc CscProof Builder BuilderEnt BuilderRows LMPC SpecLMPC SpecQP LMPCRef LQP LOk.
Import ListNotations.

Section Fill.
  Context {T : Type}.
  Lemma set_entry_ent (M : mat T) i j v a b :
    ent (set_entry M i j v) a b = if (a =? i) && (b =? j) then v else ent M a b.
  Proof.
    unfold set_entry, set_block, in_rng, mconst. cbn [ent].
    destruct (Nat.eqb_spec a i), (Nat.eqb_spec b j), (Nat.leb_spec i a), (Nat.ltb_spec a (i + 1)),
      (Nat.leb_spec j b), (Nat.ltb_spec b (j + 1)); cbn; try reflexivity; lia.
  Qed.
  Lemma fill_row (f : nat -> T) i m : forall (M : mat T) a b,
    ent (loop m (fun j M => set_entry M i j (f j)) M) a b =
    if (a =? i) && (b <? m) then f b else ent M a b.
  Proof.
    induction m as [|m IH]; intros M a b; cbn [loop].
    - rewrite andb_false_r. reflexivity.
    - rewrite set_entry_ent, IH.
      destruct (Nat.eqb_spec a i), (Nat.eqb_spec b m), (Nat.ltb_spec b m), (Nat.ltb_spec b (S m)); subst; cbn; try reflexivity; lia.
  Qed.
  Lemma fill_mat (f : nat -> nat -> T) n m : forall (M : mat T) a b,
    ent (loop n (fun i M => loop m (fun j M => set_entry M i j (f i j)) M) M) a b =
    if (a <? n) && (b <? m) then f a b else ent M a b.
  Proof.
    induction n as [|n IH]; intros M a b; cbn [loop].
    - reflexivity.
    - rewrite fill_row, IH.
      destruct (Nat.eqb_spec a n), (Nat.ltb_spec b m), (Nat.ltb_spec a n), (Nat.ltb_spec a (S n)); subst; cbn; try reflexivity; lia.
  Qed.
  (** writing whole rows that do not depend on the matrix under construction *)
  Lemma fill_rows (V : nat -> mat T) n r c : forall (M : mat T), sized M r c -> (forall i, i < n -> mrows (V i) = 1 /\ mcols (V i) = c) ->
    n <= r -> sized (loop n (fun i M => set_mrow M i (V i)) M) r c /\
    forall a b, a < r -> b < c ->
    ent (loop n (fun i M => set_mrow M i (V i)) M) a b = if a <? n then ent (V a) 0 b else ent M a b.
  Proof.
    induction n as [|n IH]; intros M HM HV Hn; cbn [loop].
    - split; [exact HM|reflexivity].
    - destruct (IH M HM ltac:(intros; apply HV; lia) ltac:(lia)) as [[S1 S2] E].
      split; [split; assumption|]. intros a b Ha Hb. set (L := loop n _ M) in *. clearbody L. unfold set_mrow. rewrite S2.
      destruct (Nat.eq_dec a n) as [->|N].
      + rewrite ent_set_block_in by lia. rewrite Nat.sub_diag, Nat.sub_0_r.
        now rewrite (proj2 (Nat.ltb_lt n (S n))) by lia.
      + rewrite ent_set_block_row_out by lia. rewrite E by lia.
        destruct (Nat.ltb_spec a n), (Nat.ltb_spec a (S n)); try reflexivity; lia.
  Qed.
End Fill.

Section LSeq.
  Context {F : Type} {SO : ScalarOps F}.
  Variable junk : nat -> nat -> F.
  Variable ejunk : nat -> nat -> ext F.
  Variable d : dims.
  Notation nx := (d_nx d). Notation nu := (d_nu d). Notation ndu := (d_ndu d).
  Notation ny := (d_ny d). Notation ph := (d_ph d). Notation ch := (d_ch d).
  Hypothesis ph_pos : 0 < ph.

  Lemma seq_state_ent x (M : mat F) i j : i <= ph -> j < nx -> ent (seq_state d x M) i j = z_state d x i j.
  Proof.
    intros Hi Hj. unfold seq_state. rewrite (fill_mat (fun i j => x (i * (nx + nu) + j))).
    rewrite (proj2 (Nat.ltb_lt i (ph + 1))), (proj2 (Nat.ltb_lt j nx)) by lia. unfold z_state. cbn. f_equal. lia.
  Qed.
  Lemma loop_ext {St} n (f g : nat -> St -> St) : (forall i s, i < n -> f i s = g i s) -> forall s, loop n f s = loop n g s.
  Proof. induction n as [|n IH]; intros H s; cbn [loop]; [reflexivity|]. rewrite IH by auto. apply H. lia. Qed.
  Lemma seq_input_ent x (M : mat F) i j : i <= ph -> j < nu ->
    ent (seq_input d x M) i j = z_cmd d x (Nat.min i (ph - 1)) j.
  Proof.
    intros Hi Hj. unfold seq_input.
    rewrite (loop_ext _ _ (fun i M => loop nu (fun j' M => set_entry M i j'
      (if i + 1 <? ph + 1 then x ((i + 1) * (nx + nu) + (nx + j')) else x (i * (nx + nu) + (nx + j')))) M)).
    2:{ intros i' M' _. apply loop_ext. intros j' M'' _. cbn zeta. f_equal. lia. }
    rewrite (fill_mat (fun i j' => if i + 1 <? ph + 1 then x ((i + 1) * (nx + nu) + (nx + j')) else x (i * (nx + nu) + (nx + j')))).
    rewrite (proj2 (Nat.ltb_lt i (ph + 1))), (proj2 (Nat.ltb_lt j nu)) by lia. cbn [andb]. unfold z_cmd.
    destruct (Nat.ltb_spec (i + 1) (ph + 1)).
    - rewrite Nat.min_l by lia. f_equal. lia.
    - rewrite Nat.min_r by lia. replace (S (ph - 1)) with i by lia. f_equal. lia.
  Qed.

  (** the outputs are those of the configured plant on the extracted states *)
  Lemma seq_output_ent b c p (st ds M : mat F) i j :
    Rb junk ejunk d b c -> g_plant c = Some p -> sized st (ph + 1) nx -> sized ds ndu ph ->
    steps0 d ds ndu (g_d c) -> sized M (ph + 1) ny -> i <= ph -> j < ny ->
    ent (seq_output d b st ds M) i j = output d p c (fun k l => ent st k l) i j.
  Proof.
    intros HB Hp S1 S2 HD SM Hi Hj. unfold seq_output.
    pose proof (bs_ss _ _ (rb_sz _ _ _ _ _ HB)) as (_ & _ & [C1 C2] & _ & [D1 D2]).
    rewrite (proj2 (fill_rows (fun i => mtrans (mapToOutput d b (mtrans (mrow st i))
       (mcol ds (if i =? 0 then 0 else i - 1)))) (ph + 1) (ph + 1) ny M SM ltac:(split; reflexivity) ltac:(lia)) i j) by lia.
    rewrite (proj2 (Nat.ltb_lt i (ph + 1))) by lia.
    unfold mapToOutput, output. cbn [mtrans ent madd mmul block mcols mrows mrow mcol].
    pose proof (rb_plant _ _ _ _ _ HB) as RP. rewrite Hp in RP. cbn [Rplant] in RP.
    destruct RP as (_ & _ & _ & _ & _ & _ & RC & _). pose proof (rb_dist _ _ _ _ _ HB) as (_ & _ & RD & _).
    f_equal.
    - apply ssum_ext. intros l Hl. cbn [Nat.add]. rewrite RC by assumption. do 2 f_equal. lia.
    - apply ssum_ext. intros l Hl. cbn [Nat.add]. rewrite RD by assumption. f_equal.
      replace ((if i =? 0 then 0 else i - 1) + 0) with (stp i).
      + apply HD; [unfold stp; lia|assumption].
      + unfold stp. destruct (Nat.eqb_spec i 0); lia.
  Qed.
End LSeq.
