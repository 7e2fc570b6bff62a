(** Property C66: the Python module (vocabulary: SpecPy.v). *)
From Coq Require Import Bool Arith ZArith NArith String List Lia Permutation Ring Field.
From Verif Require Import Scalar Sums Mat Slice Builder LMPC SpecLMPC LMPCRef NLMap NLFun NLMPC PyBind SpecPy.
Import ListNotations.

Section Py.
  Context {F : Type} {SO : ScalarOps F} {SM : ScalarMild F} {SL : ScalarLaws F}.
  Add Field SFpy : (@s_field F SO SL).

  Lemma load_mono t (v : pyval F) c : load false t v = Some c -> load true t v = Some c.
  Proof. destruct t, v; cbn; intros H; try discriminate H; try exact H; destruct exact; cbn in *; try discriminate H; exact H. Qed.
  Lemma load_all_mono ts (vs : list (pyval F)) : forall cs, load_all false ts vs = Some cs -> load_all true ts vs = Some cs.
  Proof.
    revert vs. induction ts as [|t ts IH]; intros [|v vs] cs; cbn; try (intros H; exact H).
    destruct (load false t v) as [c|] eqn:E; [|intros H; discriminate H]. rewrite (load_mono _ _ _ E).
    destruct (load_all false ts vs) as [cs'|] eqn:E'; [|intros H; discriminate H]. rewrite (IH _ _ E'). auto.
  Qed.
  (** types no value has in common *)
  Definition clash (t t' : ctype) : bool :=
    match t, t' with
    | TUInt, (TMat | TVec | TSlice) | (TMat | TVec | TSlice), TUInt | TDouble, (TMat | TVec | TSlice) | (TMat | TVec | TSlice), TDouble
    | TSlice, (TMat | TVec) | (TMat | TVec), TSlice => true
    | _, _ => false
    end.
  Lemma clash_ok t t' (v : pyval F) c c' : clash t t' = true -> load true t v = Some c -> load true t' v = Some c' -> False.
  Proof. destruct t, t'; cbn; intros H; try discriminate H; destruct v; cbn; intros A B; try discriminate A; try discriminate B. Qed.
  Fixpoint clash_all (ts ts' : list ctype) : bool :=
    match ts, ts' with
    | [], [] => false | t :: ts, t' :: ts' => clash t t' || clash_all ts ts' | _, _ => true end.
  Lemma clash_all_ok ts : forall ts' (vs : list (pyval F)) cs cs', clash_all ts ts' = true -> load_all true ts vs = Some cs -> load_all true ts' vs = Some cs' -> False.
  Proof.
    induction ts as [|t ts IH]; intros [|t' ts'] [|v vs] cs cs'; cbn; intros H A B; try discriminate H; try discriminate A; try discriminate B.
    destruct (load true t v) as [c|] eqn:E; [|discriminate A]. destruct (load true t' v) as [c'|] eqn:E'; [|discriminate B].
    destruct (load_all true ts vs) eqn:L; [|discriminate A]. destruct (load_all true ts' vs) eqn:L'; [|discriminate B].
    apply orb_true_iff in H as [H|H]; [exact (clash_ok _ _ _ _ _ H E E')|exact (IH _ _ _ _ H L L')].
  Qed.
  Definition same_binding_dec (b b' : binding) : {b = b'} + {b <> b'}.
  Proof. repeat decide equality. Defined.
  Definition unambiguous_b (t : list binding) : bool :=
    forallb (fun b => forallb (fun b' => negb (String.eqb (b_name b) (b_name b')) || (if same_binding_dec b b' then true else false) || clash_all (b_args b) (b_args b')) t) t.
  (** two bindings of one name never accept the same arguments *)
  Definition unambiguous (t : list binding) : Prop := forall b b' (vs : list (pyval F)) cs cs',
    In b t -> In b' t -> b_name b = b_name b' -> load_all true (b_args b) vs = Some cs -> load_all true (b_args b') vs = Some cs' -> b = b'.
  Lemma unambiguous_ok t : unambiguous_b t = true -> unambiguous t.
  Proof.
    intros H b b' vs cs cs' I I' N A A'. unfold unambiguous_b in H. rewrite forallb_forall in H. specialize (H b I). rewrite forallb_forall in H. specialize (H b' I').
    rewrite N, String.eqb_refl in H. cbn in H. destruct (same_binding_dec b b') as [E|_]; [exact E|]. cbn in H. destruct (clash_all_ok _ _ _ _ _ H A A').
  Qed.
  Lemma first_match_sound conv bs (vs : list (pyval F)) m cs : first_match conv bs vs = Some (m, cs) ->
    exists b, In b bs /\ b_to b = m /\ load_all true (b_args b) vs = Some cs.
  Proof.
    induction bs as [|b bs IH]; cbn; [intros H; discriminate H|]. destruct (load_all conv (b_args b) vs) as [c|] eqn:E.
    - intros H. injection H as <- <-. exists b. refine (conj (or_introl eq_refl) (conj eq_refl _)). destruct conv; [exact E|now apply load_all_mono].
    - intros H. destruct (IH H) as (b' & I & X). exists b'. split; [now right|exact X].
  Qed.
  Lemma first_match_some bs (vs : list (pyval F)) b cs : In b bs -> load_all true (b_args b) vs = Some cs -> first_match true bs vs <> None.
  Proof.
    induction bs as [|b' bs IH]; cbn; [intros []|]. intros [->|I] E; [rewrite E; discriminate|]. destruct (load_all true (b_args b') vs); [discriminate|]. now apply IH.
  Qed.
  Lemma dispatch_sound t name (vs : list (pyval F)) m cs : dispatch t name vs = Some (m, cs) ->
    exists b, In b t /\ b_name b = name /\ b_to b = m /\ load_all true (b_args b) vs = Some cs.
  Proof.
    unfold dispatch. intros H.
    assert (G : exists b, In b (overloads t name) /\ b_to b = m /\ load_all true (b_args b) vs = Some cs).
    { destruct (if 1 <? length (overloads t name) then first_match false (overloads t name) vs else None) as [r|] eqn:E.
      - injection H as ->. destruct (1 <? length (overloads t name)); [|discriminate E]. exact (first_match_sound _ _ _ _ _ E).
      - exact (first_match_sound _ _ _ _ _ H). }
    destruct G as (b & I & X). unfold overloads in I. apply filter_In in I as [I N]. apply String.eqb_eq in N. exists b. tauto.
  Qed.
  Lemma dispatch_complete t (vs : list (pyval F)) b cs : unambiguous t -> In b t -> load_all true (b_args b) vs = Some cs -> dispatch t (b_name b) vs = Some (b_to b, cs).
  Proof.
    intros U I E. assert (O : In b (overloads t (b_name b))) by (apply filter_In; split; [exact I|apply String.eqb_refl]).
    destruct (dispatch t (b_name b) vs) as [[m c]|] eqn:D.
    - destruct (dispatch_sound _ _ _ _ _ D) as (b' & I' & N & <- & E'). pose proof (U b' b vs c cs I' I N E' E) as ->. rewrite E in E'. injection E' as <-. reflexivity.
    - exfalso. unfold dispatch in D. destruct (if 1 <? length (overloads t (b_name b)) then _ else None); [discriminate D|]. exact (first_match_some _ _ _ _ O E D).
  Qed.
  Lemma lmpc_unambiguous : unambiguous lmpc_table. Proof. apply unambiguous_ok. vm_compute. reflexivity. Qed.
  Lemma nlmpc_unambiguous : unambiguous nlmpc_table. Proof. apply unambiguous_ok. vm_compute. reflexivity. Qed.

  (** the order in which overloads are registered does not matter *)
  Theorem C66_overloads_disjoint t t' name (vs : list (pyval F)) : t = lmpc_table \/ t = nlmpc_table -> Permutation t t' -> dispatch t' name vs = dispatch t name vs.
  Proof.
    intros T P. assert (U : unambiguous t) by (destruct T as [->| ->]; [apply lmpc_unambiguous|apply nlmpc_unambiguous]).
    assert (U' : unambiguous t') by (intros b b' vs' cs cs' I I'; apply U; apply (Permutation_in _ (Permutation_sym P)); assumption).
    destruct (dispatch t name vs) as [[m c]|] eqn:D.
    - destruct (dispatch_sound _ _ _ _ _ D) as (b & I & <- & <- & E). apply dispatch_complete; [exact U'|now apply (Permutation_in _ P)|exact E].
    - destruct (dispatch t' name vs) as [[m c]|] eqn:D'; [|reflexivity].
      destruct (dispatch_sound _ _ _ _ _ D') as (b & I & <- & <- & E). rewrite (dispatch_complete t vs b c U) in D; [discriminate D|now apply (Permutation_in _ (Permutation_sym P))|exact E].
  Qed.

  (** reading arguments *)
  Lemma fin_mat_iff (M : mat (ext F)) A : fin_mat M = Some A <-> finite_matrix M A.
  Proof.
    unfold fin_mat, finite_matrix, finite_entries. split.
    - destruct (forallb _ _) eqn:E; [|intros H; discriminate H]. intros H. injection H as <-. split; [|reflexivity]. rewrite forallb_forall in E.
      intros i j Hi Hj. specialize (E i ltac:(apply in_seq; lia)). rewrite forallb_forall in E. specialize (E j ltac:(apply in_seq; lia)). destruct (ent M i j) as [x| |]; [eauto|discriminate E|discriminate E].
    - intros [H ->]. replace (forallb _ _) with true; [reflexivity|]. symmetry. apply forallb_forall. intros i Hi. apply forallb_forall. intros j Hj. apply in_seq in Hi, Hj.
      destruct (H i j ltac:(lia) ltac:(lia)) as [x ->]. reflexivity.
  Qed.
  Lemma load_mat (v : pyval F) c : load true TMat v = Some c <-> exists M, is_matrix v M /\ c = VMat M.
  Proof.
    split.
    - destruct v; cbn; intros H; try discriminate H; rewrite orb_true_r in H; injection H as <-; eexists; (split; [constructor|reflexivity]).
    - intros (M & [ex l|ex M'] & ->); cbn; rewrite orb_true_r; reflexivity.
  Qed.
  Lemma load_vec (v : pyval F) c : load true TVec v = Some c <-> exists M, is_vector v M /\ c = VVec M.
  Proof.
    split.
    - destruct v; cbn; intros H; try discriminate H; rewrite orb_true_r in H.
      + injection H as <-. eexists; (split; [split; [constructor|reflexivity]|reflexivity]).
      + destruct (Nat.eqb_spec (mcols M) 1) as [E|]; [|discriminate H]. injection H as <-. exists M. split; [split; [constructor|exact E]|reflexivity].
    - intros (M & [[ex l|ex M'] E] & ->); cbn; rewrite orb_true_r; [reflexivity|]. rewrite E. reflexivity.
  Qed.
  (** an integer reaches a double as that many ones *)
  Lemma ones_add n m : ones (n + m) = (ones n + ones m)%S :> F.
  Proof. induction n as [|n IH]; cbn [ones Nat.add]; [ring|rewrite IH; ring]. Qed.
  Lemma pos_ones p : pos_f p = ones (Pos.to_nat p) :> F.
  Proof.
    induction p as [p IH|p IH|]; cbn [pos_f].
    - rewrite Pos2Nat.inj_xI. cbn [ones Nat.mul]. rewrite Nat.add_0_r, ones_add, IH. unfold s2. ring.
    - rewrite Pos2Nat.inj_xO. cbn [Nat.mul]. rewrite Nat.add_0_r, ones_add, IH. unfold s2. ring.
    - change (s1 = (s1 + s0)%S :> F). ring.
  Qed.
  Lemma int_ones z : int_f z = of_int z :> F.
  Proof. destruct z as [|p|p]; [reflexivity| |]; cbn [int_f of_int Z.ltb Z.compare Z.opp Z.to_nat]; unfold of_int; cbn; now rewrite pos_ones. Qed.
  Lemma load_num (v : pyval F) c : load true TDouble v = Some c <-> exists x, is_number v x /\ c = VDouble x.
  Proof.
    split.
    - destruct v as [|z|x| | | | | | |]; cbn [load]; intros H; try discriminate H; injection H as <-; [rewrite int_ones|]; eexists; (split; [constructor|reflexivity]).
    - intros (x & [y|z] & ->); cbn [load]; [reflexivity|now rewrite int_ones].
  Qed.
  Lemma load_idx (v : pyval F) c : load true TUInt v = Some c <-> exists n, is_index v n /\ c = VUInt n.
  Proof.
    split.
    - destruct v; cbn [load]; intros H; try discriminate H. destruct ((0 <=? z)%Z && (z <? 4294967296)%Z) eqn:E; [|discriminate H]. injection H as <-.
      apply andb_true_iff in E as [E1 E2]. apply Z.leb_le in E1. apply Z.ltb_lt in E2. exists (Z.to_N z). split; [exists z; repeat split; assumption|reflexivity].
    - intros (n & (z & -> & [H1 H2] & ->) & ->). cbn [load]. apply Z.leb_le in H1. apply Z.ltb_lt in H2. rewrite H1, H2. reflexivity.
  Qed.
  Lemma load_slice (v : pyval F) c : load true TSlice v = Some c <-> exists sl, v = PSlice sl /\ c = VSlice sl.
  Proof. split; [destruct v; cbn; intros H; try discriminate H; injection H as <-; eauto|intros (sl & -> & ->); reflexivity]. Qed.
  Lemma load_std (v : pyval F) c : load true TStdVec v = Some c <-> exists ex l, v = PArr1 ex l /\ c = VStdVec l.
  Proof. split; [destruct v; cbn; intros H; try discriminate H; injection H as <-; eauto|intros (ex & l & -> & ->); reflexivity]. Qed.
  Lemma load_fun (v : pyval F) c : load true TFun v = Some c <-> (exists f, v = PFun f /\ c = VFun (Some f)) \/ v = PNone /\ c = VFun None.
  Proof. split; [destruct v; cbn; intros H; try discriminate H; injection H as <-; eauto|intros [(f & -> & ->)|[-> ->]]; reflexivity]. Qed.
  Lemma fin_list_iff (l : list (ext F)) k : fin_list l = Some k <-> l = map Fin k.
  Proof.
    revert k. induction l as [|[x| |] l IH]; intros k; cbn.
    - split; [intros H; injection H as <-; reflexivity|]. destruct k; [reflexivity|intros H; discriminate H].
    - destruct (fin_list l) as [k'|] eqn:E.
      + split; [intros H; injection H as <-; cbn; f_equal; now apply IH|]. destruct k as [|y k]; cbn; intros H; [discriminate H|]. injection H as -> H. apply IH in H. injection H as ->. reflexivity.
      + split; [intros H; discriminate H|]. destruct k as [|y k]; cbn; intros H; [discriminate H|]. injection H as -> H. apply IH in H. discriminate H.
    - split; [intros H; discriminate H|]. destruct k; cbn; intros H; discriminate H.
    - split; [intros H; discriminate H|]. destruct k; cbn; intros H; discriminate H.
  Qed.
  Lemma load_cons t ts (vs : list (pyval F)) cs : load_all true (t :: ts) vs = Some cs <->
    exists v vs' c cs', vs = v :: vs' /\ cs = c :: cs' /\ load true t v = Some c /\ load_all true ts vs' = Some cs'.
  Proof.
    destruct vs as [|v vs]; cbn; split.
    - intros H; discriminate H.
    - intros (v & vs' & c & cs' & H & _). discriminate H.
    - destruct (load true t v) as [c|] eqn:E; [|intros H; discriminate H]. destruct (load_all true ts vs) as [cs'|] eqn:E'; [|intros H; discriminate H].
      intros H. injection H as <-. exists v, vs, c, cs'. auto.
    - intros (v' & vs' & c & cs' & H & -> & E & E'). injection H as <- <-. rewrite E, E'. reflexivity.
  Qed.
  Lemma load_nil (vs : list (pyval F)) cs : load_all true [] vs = Some cs <-> vs = [] /\ cs = [].
  Proof. destruct vs; cbn; split; [intros H; injection H as <-; auto|intros [_ ->]; reflexivity|intros H; discriminate H|intros [H _]; discriminate H]. Qed.

  Lemma map1_some {A B} (f : A -> B) o b : map1 f o = Some b <-> exists a, o = Some a /\ b = f a.
  Proof. destruct o; cbn; split; intros H; [injection H as <-; eauto|destruct H as (a' & E & ->); injection E as <-; reflexivity|discriminate H|destruct H as (a' & E & _); discriminate E]. Qed.
  Lemma map2_some {A B C} (f : A -> B -> C) o o' b : map2 f o o' = Some b <-> exists a a', o = Some a /\ o' = Some a' /\ b = f a a'.
  Proof.
    destruct o, o'; cbn; split; intros H; try discriminate H; try (destruct H as (x & y & E & E' & _); try discriminate E; discriminate E');
      [injection H as <-; eauto|destruct H as (x & y & E & E' & ->); injection E as <-; injection E' as <-; reflexivity].
  Qed.
  Lemma map3_some {A B C D} (f : A -> B -> C -> D) o o' o'' b : map3 f o o' o'' = Some b <-> exists a a' a'', o = Some a /\ o' = Some a' /\ o'' = Some a'' /\ b = f a a' a''.
  Proof.
    destruct o, o', o''; cbn; split; intros H; try discriminate H;
      try (destruct H as (x & y & z & E & E' & E'' & _); try discriminate E; try discriminate E'; discriminate E'');
      [injection H as <-; repeat eexists|destruct H as (x & y & z & E & E' & E'' & ->); injection E as <-; injection E' as <-; injection E'' as <-; reflexivity].
  Qed.
  Ltac load_inv :=
    repeat match goal with
    | H : load_all true (_ :: _) _ = Some _ |- _ => apply load_cons in H as (? & ? & ? & ? & -> & -> & ? & H)
    | H : load_all true [] _ = Some _ |- _ => apply load_nil in H as [-> ->]
    | H : load true TMat _ = Some _ |- _ => apply load_mat in H as (? & ? & ->)
    | H : load true TVec _ = Some _ |- _ => apply load_vec in H as (? & ? & ->)
    | H : load true TDouble _ = Some _ |- _ => apply load_num in H as (? & ? & ->)
    | H : load true TUInt _ = Some _ |- _ => apply load_idx in H as (? & ? & ->)
    | H : load true TSlice _ = Some _ |- _ => apply load_slice in H as (? & -> & ->)
    | H : load true TStdVec _ = Some _ |- _ => apply load_std in H as (? & ? & -> & ->)
    | H : load true TFun _ = Some _ |- _ => apply load_fun in H as [(? & -> & ->)|[-> ->]]
    | H : load true TParams _ = Some _ |- _ => cbn in H; discriminate H
    end.
  Ltac op_inv H :=
    repeat match type of H with
    | map1 _ _ = Some _ => apply map1_some in H as (? & ? & ->)
    | map2 _ _ _ = Some _ => apply map2_some in H as (? & ? & ? & ? & ->)
    | map3 _ _ _ _ = Some _ => apply map3_some in H as (? & ? & ? & ? & ? & ? & ->)
    | Some _ = Some _ => injection H as <-
    end;
    repeat match goal with E : fin_mat _ = Some _ |- _ => apply fin_mat_iff in E | E : fin_list _ = Some _ |- _ => apply fin_list_iff in E; subst end.
  Ltac fold_args :=
    match goal with
    | |- is_fmatrix _ _ => eexists; split; eassumption
    | |- is_fvector _ _ => eexists; split; eassumption
    | |- is_list _ _ => eexists; reflexivity
    | |- _ => assumption
    end.
  Ltac arg_fwd :=
    repeat match goal with
    | H : is_fmatrix _ _ |- _ => destruct H as (? & ? & ?)
    | H : is_fvector _ _ |- _ => destruct H as (? & ? & ?)
    | H : is_list _ _ |- _ => destruct H as (? & ->)
    | H : finite_matrix _ _ |- _ => apply fin_mat_iff in H
    | H : is_vector ?v ?M |- _ => assert (load true TVec v = Some (VVec M)) by (apply load_vec; eexists; split; [exact H|reflexivity]); clear H
    | H : is_matrix ?v ?M |- _ => assert (load true TMat v = Some (VMat M)) by (apply load_mat; eexists; split; [exact H|reflexivity]); clear H
    | H : is_number ?v ?M |- _ => assert (load true TDouble v = Some (VDouble M)) by (apply load_num; eexists; split; [exact H|reflexivity]); clear H
    | H : is_index ?v ?M |- _ => assert (load true TUInt v = Some (VUInt M)) by (apply load_idx; eexists; split; [exact H|reflexivity]); clear H
    end.
  Lemma fin_list_map (l : list F) : fin_list (map Fin l) = Some l. Proof. now apply fin_list_iff. Qed.
  Ltac rew_hyps := repeat match goal with H : _ = Some _ |- _ => rewrite H; clear H end.
  Ltac load_dup := cbn [load_all b_args];
    repeat match goal with H : load true _ _ = _ |- _ => rewrite H end; cbn [load].
  Lemma name_first (A B C : Prop) : B -> A -> C -> A /\ B /\ C. Proof. auto. Qed.
  Ltac try_bnd b :=
    exists b; eexists; apply name_first; [reflexivity|repeat (first [left; reflexivity|right])|split; [load_dup; reflexivity|
      cbn [lop_of nop_of b_to]; rewrite ?fin_list_map; repeat match goal with |- context [fin_mat ?v] => match goal with H : fin_mat v = _ |- _ => rewrite H end end; reflexivity]].
  Ltac pick t := match t with ?b :: ?r => first [try_bnd b|pick r] end.
  (** the Python calls an LMPC object accepts, and what they do *)
  Theorem C66_lmpc_calls (a : answer F) name (vs : list (pyval F)) op :
    (exists c, dispatch lmpc_table name vs = Some c /\ lop_of a c = Some op) <-> py_lmpc a name vs op.
  Proof.
    split.
    - intros ([m cs] & D & E). destruct (dispatch_sound _ _ _ _ _ D) as (b & I & <- & <- & L). clear D.
      unfold lmpc_table in I. cbn [In] in I.
      repeat match type of I with _ \/ _ => destruct I as [<-|I] end; try contradiction; cbn [b_name b_to b_args] in *; try (clear - E; destruct cs; cbn in E; discriminate E);
        load_inv; cbn [lop_of] in E; try discriminate E; op_inv E; constructor; fold_args.
    - intros H. assert (G : exists b cs, In b lmpc_table /\ b_name b = name /\ load_all true (b_args b) vs = Some cs /\ lop_of a (b_to b, cs) = Some op).
      { inversion H; subst.
        all: arg_fwd; let t := eval unfold lmpc_table in lmpc_table in pick t. }
      destruct G as (b & cs & I & <- & L & E). exists (b_to b, cs). split; [|exact E]. now apply dispatch_complete; [apply lmpc_unambiguous| |].
  Qed.
  Theorem C66_nlmpc_calls acc (a : nanswer F) name (vs : list (pyval F)) op :
    (exists c, dispatch nlmpc_table name vs = Some c /\ nop_of acc a c = Some op) <-> py_nlmpc acc a name vs op.
  Proof.
    split.
    - intros ([m cs] & D & E). destruct (dispatch_sound _ _ _ _ _ D) as (b & I & <- & <- & L). clear D.
      unfold nlmpc_table in I. cbn [In] in I.
      repeat match type of I with _ \/ _ => destruct I as [<-|I] end; try contradiction; cbn [b_name b_to b_args] in *; try (clear - E; destruct cs; cbn in E; discriminate E);
        load_inv; cbn [nop_of] in E; try discriminate E;
        repeat match type of E with context [match ?x with _ => _ end] => destruct x; try discriminate E end;
        op_inv E; constructor; fold_args.
    - intros H. assert (G : exists b cs, In b nlmpc_table /\ b_name b = name /\ load_all true (b_args b) vs = Some cs /\ nop_of acc a (b_to b, cs) = Some op).
      { inversion H; subst.
        all: arg_fwd; let t := eval unfold nlmpc_table in nlmpc_table in pick t. }
      destruct G as (b & cs & I & <- & L & E). exists (b_to b, cs). split; [|exact E]. now apply dispatch_complete; [apply nlmpc_unambiguous| |].
  Qed.
End Py.
