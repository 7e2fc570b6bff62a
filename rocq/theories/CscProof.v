(** The CSC arrays handed to OSQP represent the dense matrices. *)
From Coq Require Import Bool Arith List Lia Ring Field.
From Verif Require Import Scalar Sums Mat Csc.
Import ListNotations.

Section Spec.
  Context {F} {SO : ScalarOps F}.
  (** *** how a consumer reads a compressed column matrix (independent of the code) *)
  Definition csc_col (M : csc F) (j : nat) : list (nat * F) :=
    firstn (nth (S j) (c_p M) 0 - nth j (c_p M) 0) (skipn (nth j (c_p M) 0) (combine (c_i M) (c_x M))).
  Definition csc_val (M : csc F) (r j : nat) : F :=
    fold_right (fun e acc => if fst e =? r then sadd (snd e) acc else acc) s0 (csc_col M j).
  Fixpoint increasing (l : list nat) : Prop :=
    match l with [] => True | x :: l' => (forall y, In y l' -> x < y) /\ increasing l' end.
  Record csc_wf (M : csc F) : Prop := {
    cw_p : length (c_p M) = S (c_cols M);
    cw_0 : nth 0 (c_p M) 0 = 0;
    cw_mono : forall j, j < c_cols M -> nth j (c_p M) 0 <= nth (S j) (c_p M) 0;
    cw_last : nth (c_cols M) (c_p M) 0 = length (c_x M);
    cw_i : length (c_i M) = length (c_x M);
    cw_rows : forall r, In r (c_i M) -> r < c_rows M;
    cw_inc : forall j, j < c_cols M -> increasing (map fst (csc_col M j)) }.
End Spec.

Section Proofs.
  Context {F} {SO : ScalarOps F}.

  Definition total (cs : list (list (nat * F))) : nat := length (concat cs).

  Lemma csc_fill_spec cs : forall n pos acc,
    csc_fill (outer_from n cs) cs pos acc =
      (mkCsc (c_rows acc) (c_cols acc) (c_p acc ++ outer_from n cs)
         (c_i acc ++ map fst (concat cs)) (c_x acc ++ map snd (concat cs)), pos + total cs).
  Proof.
    induction cs as [|c cs IH]; intros n pos acc; cbn [outer_from csc_fill].
    - unfold total. cbn. rewrite !app_nil_r, Nat.add_0_r. now destruct acc.
    - rewrite IH. cbn [c_rows c_cols c_p c_i c_x]. unfold total. cbn [concat].
      rewrite !map_app, app_length, <- !app_assoc, Nat.add_assoc. reflexivity.
  Qed.

  Lemma create_csc_eq (S : smat F) : create_csc S =
    mkCsc (sm_rows S) (length (sm_cols S)) (outer_from 0 (sm_cols S) ++ [total (sm_cols S)])
      (map fst (concat (sm_cols S))) (map snd (concat (sm_cols S))).
  Proof. unfold create_csc. rewrite csc_fill_spec. reflexivity. Qed.

  Lemma outer_len cs : forall n, length (@outer_from F n cs) = length cs.
  Proof. induction cs as [|c cs IH]; intros n; cbn; [reflexivity|now rewrite IH]. Qed.
  Lemma outer_nth cs : forall n j, j <= length cs ->
    nth j (outer_from n cs ++ [n + total cs]) 0 = n + total (firstn j cs).
  Proof.
    induction cs as [|c cs IH]; intros n j Hj.
    - cbn in Hj. assert (j = 0) by lia. subst. reflexivity.
    - destruct j as [|j].
      + cbn. unfold total. cbn. lia.
      + cbn [outer_from app nth firstn]. unfold total. cbn [concat].
        replace (n + length (c ++ concat cs)) with (n + length c + total cs)
          by (unfold total; rewrite app_length; lia).
        rewrite IH by (cbn in Hj; lia). unfold total. rewrite app_length. lia.
  Qed.
  Lemma combine_fst_snd (l : list (nat * F)) : combine (map fst l) (map snd l) = l.
  Proof. induction l as [|[a b] l IH]; cbn; [reflexivity|now rewrite IH]. Qed.
  Lemma total_app (a b : list (list (nat * F))) : total (a ++ b) = total a + total b.
  Proof. unfold total. now rewrite concat_app, app_length. Qed.

  Lemma csc_col_create (S : smat F) j : j < length (sm_cols S) ->
    csc_col (create_csc S) j = nth j (sm_cols S) [].
  Proof.
    intros Hj. rewrite create_csc_eq. unfold csc_col. cbn [c_p c_i c_x].
    rewrite combine_fst_snd. set (cs := sm_cols S) in *.
    change (total cs) with (0 + total cs). rewrite !outer_nth by lia. cbn [plus].
    assert (E : cs = firstn j cs ++ nth j cs [] :: skipn (Datatypes.S j) cs).
    { clear -Hj. revert j Hj. induction cs as [|c cs IH]; intros j Hj; [cbn in Hj; lia|].
      destruct j as [|j]; [reflexivity|]. cbn [firstn nth skipn app]. f_equal. apply IH. cbn in Hj. lia. }
    assert (E2 : firstn (Datatypes.S j) cs = firstn j cs ++ [nth j cs []]).
    { clear E. revert j Hj. induction cs as [|c cs IH]; intros j Hj; [cbn in Hj; lia|].
      destruct j as [|j]; [reflexivity|].
      change (c :: firstn (Datatypes.S j) cs = c :: (firstn j cs ++ [nth j cs []])).
      now rewrite IH by (cbn in Hj; lia). }
    rewrite E2, total_app.
    replace (total (firstn j cs) + total [nth j cs []] - total (firstn j cs)) with (length (nth j cs []))
      by (unfold total; cbn [concat]; rewrite app_nil_r; lia).
    assert (EC : concat cs = concat (firstn j cs) ++ nth j cs [] ++ concat (skipn (Datatypes.S j) cs)).
    { rewrite E at 1. rewrite concat_app. reflexivity. }
    rewrite EC. unfold total.
    rewrite skipn_app, skipn_all, Nat.sub_diag. cbn [skipn app].
    rewrite firstn_app, Nat.sub_diag, firstn_all. cbn [firstn]. now rewrite app_nil_r.
  Qed.

  Lemma map_fst_filter_in (f : nat * F -> bool) l y : In y (map fst (filter f l)) -> In y (map fst l).
  Proof. rewrite !in_map_iff. intros (e & <- & He). apply filter_In in He. exists e; tauto. Qed.
  Lemma increasing_filter f : forall l : list (nat * F), increasing (map fst l) -> increasing (map fst (filter f l)).
  Proof.
    induction l as [|e l IH]; cbn [map filter increasing]; [auto|]. intros [H1 H2].
    destruct (f e); cbn [map increasing]; [|auto]. split; [|auto].
    intros y Hy. apply H1. eapply map_fst_filter_in. exact Hy.
  Qed.
  Lemma seq_increasing n : forall a, increasing (seq a n).
  Proof. induction n as [|n IH]; intros a; cbn; [auto|]. split; [|auto].
    intros y Hy. apply in_seq in Hy. lia. Qed.

  Definition dcol (M : mat F) (j : nat) : list (nat * F) := map (fun i => (i, ent M i j)) (seq 0 (mrows M)).
  Lemma dcol_fst M j : map fst (dcol M j) = seq 0 (mrows M).
  Proof. unfold dcol. rewrite map_map. cbn. apply map_id. Qed.
  Definition kcol (M : mat F) (j : nat) := filter (fun e : nat * F => kept (snd e)) (dcol M j).
  Definition ucol (M : mat F) (j : nat) := filter (fun e : nat * F => fst e <=? j) (kcol M j).

  Lemma sparse_view_cols M : sm_cols (sparse_view M) = map (kcol M) (seq 0 (mcols M)).
  Proof. reflexivity. Qed.
  Lemma upper_view_cols M : sm_cols (upper_view (sparse_view M)) = map (ucol M) (seq 0 (mcols M)).
  Proof.
    cbn [upper_view sparse_view sm_cols]. rewrite map_length, seq_length.
    assert (G : forall l, map (fun jc : nat * list (nat * F) => filter (fun e => fst e <=? fst jc) (snd jc))
                  (combine l (map (kcol M) l)) = map (ucol M) l).
    { induction l as [|a l IH]; [reflexivity|]. cbn. now rewrite IH. }
    exact (G (seq 0 (mcols M))).
  Qed.
  Lemma nth_map_seq {A} (f : nat -> A) n j dft : j < n -> nth j (map f (seq 0 n)) dft = f j.
  Proof. intros H. rewrite nth_indep with (d' := f 0) by (rewrite map_length, seq_length; lia).
    rewrite map_nth. now rewrite seq_nth by lia. Qed.

  Lemma create_wf (rows n : nat) (f : nat -> list (nat * F)) :
    (forall j, j < n -> increasing (map fst (f j)) /\ forall r, In r (map fst (f j)) -> r < rows) ->
    csc_wf (create_csc (mkSmat rows (map f (seq 0 n)))).
  Proof.
    intros H. pose proof (create_csc_eq (mkSmat rows (map f (seq 0 n)))) as E. cbn [sm_rows sm_cols] in E.
    set (cs := map f (seq 0 n)) in *. assert (L : length cs = n) by (unfold cs; now rewrite map_length, seq_length).
    split; try (rewrite E; cbn [c_p c_cols c_rows c_i c_x]).
    - rewrite app_length, outer_len. cbn. lia.
    - change (total cs) with (0 + total cs). rewrite outer_nth by lia. reflexivity.
    - intros j Hj. change (total cs) with (0 + total cs). rewrite !outer_nth by lia.
      rewrite <- (firstn_skipn j (firstn (S j) cs)). rewrite firstn_firstn, Nat.min_l by lia.
      rewrite total_app. lia.
    - change (total cs) with (0 + total cs). rewrite outer_nth by lia. rewrite firstn_all.
      unfold total. now rewrite map_length.
    - now rewrite !map_length.
    - intros r Hr. apply in_map_iff in Hr. destruct Hr as (e & <- & He).
      apply in_concat in He. destruct He as (c & Hc & He). unfold cs in Hc. apply in_map_iff in Hc.
      destruct Hc as (j & <- & Hj). apply in_seq in Hj. apply (H j); [lia|]. now apply in_map.
    - rewrite <- E. intros j Hj. rewrite csc_col_create by (cbn [sm_cols]; fold cs; lia). cbn [sm_cols].
      unfold cs. rewrite nth_map_seq by lia. apply H. lia.
  Qed.
  Lemma dcol_rows M j (f g : nat * F -> bool) r :
    In r (map fst (filter f (filter g (dcol M j)))) -> r < mrows M.
  Proof. intros H. apply map_fst_filter_in, map_fst_filter_in in H. rewrite dcol_fst in H.
    apply in_seq in H. lia. Qed.
  Lemma dcol_inc M j : increasing (map fst (dcol M j)).
  Proof. rewrite dcol_fst. apply seq_increasing. Qed.

  Lemma csc_full_wf M : csc_wf (csc_full M).
  Proof.
    unfold csc_full. change (sparse_view M) with (mkSmat (mrows M) (map (kcol M) (seq 0 (mcols M)))).
    apply create_wf. intros j Hj. split; [apply increasing_filter, dcol_inc|].
    intros r Hr. apply map_fst_filter_in in Hr. rewrite dcol_fst in Hr. apply in_seq in Hr. lia.
  Qed.
  Lemma csc_upper_eq M : csc_upper M = create_csc (mkSmat (mrows M) (map (ucol M) (seq 0 (mcols M)))).
  Proof. unfold csc_upper. rewrite <- upper_view_cols. reflexivity. Qed.
  Lemma csc_upper_wf M : csc_wf (csc_upper M).
  Proof.
    rewrite csc_upper_eq. apply create_wf. intros j Hj. split.
    - apply increasing_filter, increasing_filter, dcol_inc.
    - intros r. apply dcol_rows.
  Qed.
  Lemma csc_full_col M j : j < mcols M -> csc_col (csc_full M) j = kcol M j.
  Proof. intros H. unfold csc_full. rewrite csc_col_create by (rewrite sparse_view_cols, map_length, seq_length; lia).
    rewrite sparse_view_cols. now apply nth_map_seq. Qed.
  Lemma csc_upper_col M j : j < mcols M -> csc_col (csc_upper M) j = ucol M j.
  Proof. intros H. unfold csc_upper. rewrite csc_col_create by (rewrite upper_view_cols, map_length, seq_length; lia).
    rewrite upper_view_cols. now apply nth_map_seq. Qed.
  Lemma csc_full_dims M : c_rows (csc_full M) = mrows M /\ c_cols (csc_full M) = mcols M.
  Proof. unfold csc_full. rewrite create_csc_eq. cbn [c_rows c_cols]. rewrite sparse_view_cols, map_length, seq_length. auto. Qed.
  Lemma csc_upper_dims M : c_rows (csc_upper M) = mrows M /\ c_cols (csc_upper M) = mcols M.
  Proof. rewrite csc_upper_eq, create_csc_eq. cbn [c_rows c_cols sm_rows sm_cols]. rewrite map_length, seq_length. auto. Qed.
End Proofs.

Section Values.
  Context {F} {SO : ScalarOps F} {SL : ScalarLaws F}.
  Add Field SF3 : s_field.
  Local Open Scope S_scope.
  Lemma sabs_le_0 (x : F) : sleb (sabs x) s0 = true -> x = s0.
  Proof.
    unfold sabs. destruct (sleb s0 x) eqn:E; intros H.
    - now apply sle_antisym.
    - destruct (s_le_total s0 x) as [T|T]; [congruence|].
      apply sle_antisym; [exact T|]. pose proof (sle_opp _ _ H) as G.
      replace (- - x) with x in G by ring. now replace (- 0) with 0 in G by ring.
  Qed.
  Notation rd r := (fold_right (fun (e : nat * F) acc => if fst e =? r then snd e + acc else acc) 0).
  Lemma rd_none r l : ~ In r (map fst l) -> rd r l = 0.
  Proof. induction l as [|e l IH]; cbn; [reflexivity|]. intros H.
    destruct (Nat.eqb_spec (fst e) r); [tauto|]. apply IH. tauto. Qed.
  Lemma rd_kept r l : rd r (filter (fun e => kept (snd e)) l) = rd r l.
  Proof.
    induction l as [|e l IH]; cbn [filter fold_right]; [reflexivity|].
    destruct (kept (snd e)) eqn:K; cbn [fold_right]; rewrite IH; [reflexivity|].
    destruct (fst e =? r)%nat; [|reflexivity].
    unfold kept in K. apply negb_false_iff in K. apply sabs_le_0 in K. rewrite K. ring.
  Qed.
  Lemma rd_keep r j l : (r <= j)%nat -> rd r (filter (fun e : nat * F => fst e <=? j)%nat l) = rd r l.
  Proof.
    intros Hr. induction l as [|e l IH]; cbn [filter fold_right]; [reflexivity|].
    destruct (Nat.leb_spec (fst e) j); cbn [fold_right]; rewrite IH; [reflexivity|].
    destruct (Nat.eqb_spec (fst e) r); [lia|reflexivity].
  Qed.
  Lemma rd_dcol M r j : (r < mrows M)%nat -> rd r (dcol M j) = ent M r j.
  Proof.
    intros Hr. unfold dcol.
    assert (G : forall n a, (a <= r < a + n)%nat -> rd r (map (fun i => (i, ent M i j)) (seq a n)) = ent M r j).
    { induction n as [|n IH]; intros a Ha; [lia|]. cbn [seq map fold_right fst snd].
      destruct (Nat.eqb_spec a r) as [->|N].
      - rewrite rd_none; [ring|]. rewrite map_map. cbn. rewrite map_id, in_seq. lia.
      - apply IH. lia. }
    apply G. lia.
  Qed.
  Lemma csc_full_val M r j : (r < mrows M)%nat -> (j < mcols M)%nat -> csc_val (csc_full M) r j = ent M r j.
  Proof. intros Hr Hj. unfold csc_val. rewrite csc_full_col by assumption. unfold kcol.
    rewrite rd_kept. now apply rd_dcol. Qed.
  Lemma csc_upper_val M r j : (r < mrows M)%nat -> (j < mcols M)%nat -> csc_val (csc_upper M) r j =
    if (r <=? j)%nat then ent M r j else 0.
  Proof.
    intros Hr Hj. unfold csc_val. rewrite csc_upper_col by assumption. unfold ucol.
    destruct (Nat.leb_spec r j) as [A|A].
    - rewrite rd_keep by assumption. unfold kcol. rewrite rd_kept. now apply rd_dcol.
    - apply rd_none. intros H. apply in_map_iff in H. destruct H as (e & <- & He).
      apply filter_In in He. destruct He as [_ He]. apply Nat.leb_le in He. lia.
  Qed.
End Values.
