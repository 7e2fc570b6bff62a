(** Property C20: lifetime of the solver workspace of the linear optimizer.

    Modelled: LMPC/LOptimizer.hpp members 518-521, initData 509-516, the allocation-relevant statements of run 189-368,
    createOsqpSparseMatrix 425-478 (its allocation), clearData 483-504, destructor 48-52; LMPC.hpp 63 (destructor) and
    731 (new without delete).

    The model emits a trace of memory events; it contains no safety checks.  The specification ([safe], [balanced]) is
    a separate predicate on traces.

    Assumptions on OSQP (not part of the repository), from its 0.6 documentation: osqp_setup either fails validation
    and leaves the workspace pointer as it was, or allocates the workspace and stores the pointer, then possibly fails
    later leaving it partially filled (its solution pointer null); osqp_setup copies the problem data, does not keep or free
    data and settings; osqp_cleanup frees the workspace if the pointer is not null; csc_spalloc / csc_spfree allocate and
    free one matrix. A matrix and a workspace count as one block each. *)
From Coq Require Import List Arith Lia Bool.
Import ListNotations.

(** ** Specification *)
Inductive ptr := Null | Garbage | Blk (b : nat).
Inductive ev := EAlloc (b : nat) | EFree (p : ptr) | EUse (p : ptr).

(** a trace is safe from the set of live blocks [L]: allocations are new, only live blocks are used or freed *)
Fixpoint safe (L : list nat) (t : list ev) : Prop :=
  match t with
  | [] => True
  | EAlloc b :: t => ~ In b L /\ safe (b :: L) t
  | EFree (Blk b) :: t => In b L /\ safe (remove Nat.eq_dec b L) t
  | EUse (Blk b) :: t => In b L /\ safe L t
  | _ => False
  end.
Definition allocs (t : list ev) : list nat := concat (map (fun e => match e with EAlloc b => [b] | _ => [] end) t).
Definition frees (t : list ev) : list nat := concat (map (fun e => match e with EFree (Blk b) => [b] | _ => [] end) t).
(** every allocated block is freed exactly once *)
Definition balanced (t : list ev) : Prop :=
  forall b, count_occ Nat.eq_dec (allocs t) b = count_occ Nat.eq_dec (frees t) b /\ count_occ Nat.eq_dec (allocs t) b <= 1.

(** ** Model *)
(** LOptimizer.hpp:518-521: the three pointers have no initialiser; [m_P], [m_A] are the fields of *data *)
Record mst := mkM { m_next : nat; m_work : ptr; m_settings : ptr; m_data : ptr; m_P : ptr; m_A : ptr }.
Definition m_init : mst := mkM 0 Garbage Garbage Garbage Garbage Garbage.

Inductive setup_ans := SetupOk | SetupRejected | SetupPartial.
(** what the environment decides in one run: which allocations succeed, what osqp_setup does, whether the
    warm start is used *)
Record renv := mkEnv { e_settings : bool; e_data : bool; e_P : bool; e_A : bool; e_setup : setup_ans; e_warm : bool }.

Definition nonnull (p : ptr) : bool := match p with Null => false | _ => true end.
(** malloc: a new block or null *)
Definition alloc (ok : bool) (n : nat) : ptr * nat * list ev :=
  if ok then (Blk n, S n, [EAlloc n]) else (Null, n, []).

(** initData 509-516: two unchecked mallocs, then data->P and data->A are written *)
Definition init_data (e : renv) (s : mst) : mst * list ev :=
  let '(ps, n1, t1) := alloc (e_settings e) (m_next s) in
  let '(pd, n2, t2) := alloc (e_data e) n1 in
  (mkM n2 (m_work s) ps pd Null Null, t1 ++ t2 ++ [EUse pd; EUse pd]).
(** createOsqpSparseMatrix 425-478: refuses a non-null target, otherwise allocates and fills it unchecked *)
Definition create_sparse (ok : bool) (tgt : ptr) (n : nat) : ptr * nat * list ev :=
  if nonnull tgt then (tgt, n, []) else let '(p, n', t) := alloc ok n in (p, n', t ++ [EUse p]).
(** run 224-243: filling the data struct *)
Definition fill_data (e : renv) (s : mst) : mst * list ev :=
  if nonnull (m_data s) then
    let '(pP, n1, t1) := create_sparse (e_P e) (m_P s) (m_next s) in
    let '(pA, n2, t2) := create_sparse (e_A e) (m_A s) n1 in
    (mkM n2 (m_work s) (m_settings s) (m_data s) pP pA, [EUse (m_data s)] ++ t1 ++ [EUse (m_data s)] ++ t2 ++ [EUse (m_data s)])
  else (s, []).
(** run 246-262: settings are written if non-null *)
Definition fill_settings (s : mst) : list ev := if nonnull (m_settings s) then [EUse (m_settings s)] else [].
(** run 265-269: osqp_setup reads data, its matrices and settings when they are not null (null arguments are
    rejected by its validation), and sets the workspace pointer unless validation fails *)
Definition setup (e : renv) (s : mst) : mst * list ev :=
  let reads := (if nonnull (m_data s) then [EUse (m_data s)] ++ (if nonnull (m_P s) then [EUse (m_P s)] else []) ++
                     (if nonnull (m_A s) then [EUse (m_A s)] else []) else []) ++
               (if nonnull (m_settings s) then [EUse (m_settings s)] else []) in
  match e_setup e with
  | SetupRejected => (s, reads)
  | _ => (mkM (S (m_next s)) (Blk (m_next s)) (m_settings s) (m_data s) (m_P s) (m_A s), reads ++ [EAlloc (m_next s)])
  end.
(** run 272-365: settings->warm_start is read; the workspace is used by warm start, solve and for the result;
    a partially set up workspace has a null solution *)
Definition use_work (e : renv) (s : mst) : list ev :=
  [EUse (m_settings s)] ++ (if e_warm e then [EUse (m_work s)] else [EUse (m_work s)]) ++ [EUse (m_work s)] ++ [EUse (m_work s)] ++
  (match e_setup e with SetupPartial => [EUse Null] | _ => [] end).
(** clearData 483-504: nothing is reset to null *)
Definition clear_data (s : mst) : list ev :=
  (if nonnull (m_work s) then [EUse (m_work s); EFree (m_work s)] else []) ++
  (if nonnull (m_data s) then
     [EUse (m_data s)] ++ (if nonnull (m_A s) then [EFree (m_A s)] else []) ++
     [EUse (m_data s)] ++ (if nonnull (m_P s) then [EFree (m_P s)] else []) ++ [EFree (m_data s)] else []) ++
  (if nonnull (m_settings s) then [EFree (m_settings s)] else []).
(** run 189-368 *)
Definition m_run (e : renv) (s : mst) : mst * list ev :=
  let '(s1, t1) := init_data e s in
  let '(s2, t2) := fill_data e s1 in
  let t3 := fill_settings s2 in
  let '(s4, t4) := setup e s2 in
  (s4, t1 ++ t2 ++ t3 ++ t4 ++ use_work e s4 ++ clear_data s4).
(** destructor 48-52 of an initialised optimizer *)
Definition m_destroy (s : mst) : list ev := clear_data s.

Fixpoint m_runs (es : list renv) (s : mst) : mst * list ev :=
  match es with
  | [] => (s, [])
  | e :: es => let '(s1, t1) := m_run e s in let '(s2, t2) := m_runs es s1 in (s2, t1 ++ t2)
  end.

(** ** Facts *)
Definition all_ok (e : renv) : Prop := e_settings e = true /\ e_data e = true /\ e_P e = true /\ e_A e = true /\ e_setup e = SetupOk.

Lemma allocs_app t t' : allocs (t ++ t') = allocs t ++ allocs t'.
Proof. unfold allocs. now rewrite map_app, concat_app. Qed.
Lemma frees_app t t' : frees (t ++ t') = frees t ++ frees t'.
Proof. unfold frees. now rewrite map_app, concat_app. Qed.

Lemma remove_hd a l : ~ In a l -> remove Nat.eq_dec a (a :: l) = l.
Proof. intros H. cbn. destruct (Nat.eq_dec a a); [|easy]. now apply notin_remove. Qed.

Lemma safe_alloc b L t : ~ In b L -> safe L (EAlloc b :: t) <-> safe (b :: L) t.
Proof. cbn. tauto. Qed.
Lemma safe_use b L t : In b L -> safe L (EUse (Blk b) :: t) <-> safe L t.
Proof. cbn. tauto. Qed.
Lemma safe_free b L t : ~ In b L -> safe (b :: L) (EFree (Blk b) :: t) <-> safe L t.
Proof. intros H1. cbn -[remove]. rewrite remove_hd by exact H1. cbn. tauto. Qed.

(** one good run *)
Lemma run_trace e s s' t : all_ok e -> m_run e s = (s', t) -> let n := m_next s in
  s' = mkM (5 + n) (Blk (4 + n)) (Blk n) (Blk (1 + n)) (Blk (2 + n)) (Blk (3 + n)) /\
  allocs t = [n; 1 + n; 2 + n; 3 + n; 4 + n] /\ frees t = [4 + n; 3 + n; 2 + n; 1 + n; n] /\
  (forall L t', (forall b, In b L -> b < n) -> safe L (t ++ t') <-> safe L t').
Proof.
  intros (E1 & E2 & E3 & E4 & E5) E. destruct e as [a b c d f g]. cbn in *. subst. destruct s as [n w st dt p ae].
  cbn in E. inversion E; subst s' t. cbn [m_next m_work m_settings m_data m_P m_A nonnull app].
  refine (conj eq_refl _). destruct g; cbn [app]; (refine (conj eq_refl (conj eq_refl _)); intros L t' HL;
    assert (N : forall k, ~ In (k + n) L) by (intros k Hk; apply HL in Hk; lia);
    pose proof (N 0) as N0; pose proof (N 1) as N1; pose proof (N 2) as N2; pose proof (N 3) as N3; pose proof (N 4) as N4;
    cbn [plus] in *;
    repeat match goal with
    | |- safe _ (EAlloc _ :: _) <-> _ => rewrite safe_alloc by (cbn [In]; intros H; repeat (destruct H as [H|H]; [lia|]); tauto)
    | |- safe _ (EUse (Blk _) :: _) <-> _ => rewrite safe_use by (cbn [In]; tauto)
    | |- safe _ (EFree (Blk _) :: _) <-> _ => rewrite safe_free by (cbn [In]; intros H; repeat (destruct H as [H|H]; [lia|]); tauto)
    end; reflexivity).
Qed.

(** number of runs decides the numbering: block ids of run i are 5i .. 5i+4 *)
Lemma runs_trace es : forall s s' t, Forall all_ok es -> m_runs es s = (s', t) ->
  m_next s' = 5 * length es + m_next s /\
  (forall b, In b (allocs t) -> m_next s <= b < m_next s') /\
  (forall b, count_occ Nat.eq_dec (allocs t) b = count_occ Nat.eq_dec (frees t) b /\ count_occ Nat.eq_dec (allocs t) b <= 1) /\
  (forall L t', (forall b, In b L -> b < m_next s) -> safe L (t ++ t') <-> safe L t').
Proof.
  induction es as [|e es IH]; intros s s' t HF E; cbn in E.
  - inversion E; subst. cbn. refine (conj eq_refl (conj _ (conj _ _))); [intros b []|intros b; split; lia|reflexivity].
  - destruct (m_run e s) as [s1 t1] eqn:E1. destruct (m_runs es s1) as [s2 t2] eqn:E2. inversion E; subst.
    inversion HF as [|? ? He Hes]; subst.
    destruct (run_trace _ _ _ _ He E1) as (A1 & A2 & A3 & A4). cbn zeta in *.
    assert (M : m_next s1 = 5 + m_next s) by (now rewrite A1).
    destruct (IH _ _ _ Hes E2) as (B1 & B2 & B3 & B4).
    refine (conj _ (conj _ (conj _ _))).
    + rewrite B1, M. cbn [length]. lia.
    + intros b Hb. rewrite allocs_app, A2 in Hb. apply in_app_or in Hb. destruct Hb as [Hb|Hb].
      * cbn [In] in Hb. rewrite B1, M. lia.
      * apply B2 in Hb. rewrite M in Hb. lia.
    + intros b. rewrite allocs_app, frees_app, !count_occ_app, A2, A3. destruct (B3 b) as [C1 C2]. rewrite <- C1.
      set (n := m_next s) in *.
      assert (H : b < 5 + n -> count_occ Nat.eq_dec (allocs t2) b = 0).
      { intros Hb. apply count_occ_not_In. intros Hi. apply B2 in Hi. lia. }
      cbn [count_occ]. repeat (destruct (Nat.eq_dec _ _); [try lia|]); lia.
    + intros L t' HL. rewrite <- app_assoc, (A4 _ _ HL). apply B4.
      intros b Hb. apply HL in Hb. lia.
Qed.

(** ** C20 *)
(** What holds: any number of optimize calls whose allocations and setup succeed, on an object that is never destroyed:
    no invalid access, and everything a call allocates is freed exactly once (nothing accumulates between calls). *)
Theorem C20_runs_are_safe_and_balanced es s t :
  Forall all_ok es -> m_runs es m_init = (s, t) -> safe [] t /\ balanced t.
Proof.
  intros HF E. destruct (runs_trace _ _ _ _ HF E) as (_ & _ & B & S). split; [|exact B].
  specialize (S [] []). rewrite app_nil_r in S. apply S; [intros b []|exact I].
Qed.

Lemma safe_tail t : forall L t', safe L (t ++ t') -> exists L', safe L' t'.
Proof.
  induction t as [|e t IH]; intros L t' H; [now exists L|]. cbn in H.
  destruct e as [b|[| |b]|[| |b]]; try contradiction; destruct H as [_ H]; eapply IH; exact H.
Qed.
Lemma not_safe_in e t L : (e = EFree Null \/ e = EFree Garbage \/ e = EUse Null \/ e = EUse Garbage) -> In e t -> ~ safe L t.
Proof.
  intros He Hi Hs. apply in_split in Hi. destruct Hi as (a & b & ->). destruct (safe_tail _ _ _ Hs) as [L' H].
  destruct He as [->|[->|[->| ->]]]; exact H.
Qed.

(** A first call is safe only if all its allocations and the setup succeed: none of the failures is handled. *)
Theorem C20_first_run_safe_iff e s t : m_run e m_init = (s, t) -> (safe [] t <-> all_ok e).
Proof.
  intros E. split.
  - intros HS. destruct e as [a b c d f g].
    destruct b; [|exfalso; refine (not_safe_in (EUse Null) t [] ltac:(tauto) _ HS); destruct a, f; apply (f_equal snd) in E; unfold m_init in E; cbn in E; subst t; cbn; tauto].
    destruct a; [|exfalso; refine (not_safe_in (EUse Null) t [] ltac:(tauto) _ HS);
                   destruct c, d, f; apply (f_equal snd) in E; unfold m_init in E; cbn in E; subst t; cbn; tauto].
    destruct c; [|exfalso; refine (not_safe_in (EUse Null) t [] ltac:(tauto) _ HS);
                   destruct d, f; apply (f_equal snd) in E; unfold m_init in E; cbn in E; subst t; cbn; tauto].
    destruct d; [|exfalso; refine (not_safe_in (EUse Null) t [] ltac:(tauto) _ HS);
                   destruct f; apply (f_equal snd) in E; unfold m_init in E; cbn in E; subst t; cbn; tauto].
    destruct f; [now repeat split| |].
    + exfalso. refine (not_safe_in (EUse Garbage) t [] ltac:(tauto) _ HS). destruct g; apply (f_equal snd) in E; unfold m_init in E; cbn in E; subst t; cbn; tauto.
    + exfalso. refine (not_safe_in (EUse Null) t [] ltac:(tauto) _ HS). destruct g; apply (f_equal snd) in E; unfold m_init in E; cbn in E; subst t; cbn; tauto.
  - intros A. destruct (run_trace _ _ _ _ A E) as (_ & _ & _ & S). specialize (S [] []). rewrite app_nil_r in S.
    apply S; [intros b []|exact I].
Qed.

(** Finding: destroying the optimizer is never safe, neither unused (wild pointers are freed) nor after any number
    of calls (the workspace and data of the last call are freed a second time). *)
Theorem C20_destruction_undefined es s t :
  Forall all_ok es -> m_runs es m_init = (s, t) -> ~ safe [] (t ++ m_destroy s).
Proof.
  intros HF E HS. destruct es as [|e0 es0].
  - inversion E; subst. cbn in HS. exact HS.
  - assert (X : e0 :: es0 <> []) by discriminate. revert HF E X. generalize (e0 :: es0). clear e0 es0.
    intros es HF E X. destruct (exists_last X) as (es' & e & ->).
    assert (M : forall es1 s1, m_runs (es1 ++ [e]) s1 = let '(s2, t2) := m_runs es1 s1 in let '(s3, t3) := m_run e s2 in (s3, t2 ++ t3)).
    { induction es1 as [|x es1 IH]; intros s1.
      - cbn [app m_runs]. destruct (m_run e s1) as [s3 t3]. now rewrite app_nil_r.
      - cbn [app m_runs]. destruct (m_run x s1) as [s2 t2]. rewrite IH. destruct (m_runs es1 s2) as [s3 t3]. destruct (m_run e s3) as [s4 t4].
        now rewrite app_assoc. }
    rewrite M in E. destruct (m_runs es' m_init) as [s2 t2] eqn:E2. destruct (m_run e s2) as [s3 t3] eqn:E3.
    inversion E; subst s t. apply Forall_app in HF. destruct HF as [HF1 HF2]. inversion HF2 as [|? ? He _]; subst.
    destruct (run_trace _ _ _ _ He E3) as (A1 & A2 & A3 & A4). destruct (runs_trace _ _ _ _ HF1 E2) as (B1 & B2 & B3 & B4).
    rewrite <- app_assoc in HS. rewrite B4 in HS by (intros b []). rewrite A4 in HS by (intros b []). rewrite A1 in HS. exact (proj1 HS).
Qed.
Theorem C20_intended_refuted :
  ~ (forall es s t, Forall all_ok es -> m_runs es m_init = (s, t) ->
       safe [] (t ++ m_destroy s) /\ balanced (t ++ m_destroy s)).
Proof. intros H. exact (C20_destruction_undefined [] _ _ (Forall_nil _) eq_refl (proj1 (H [] _ _ (Forall_nil _) eq_refl))). Qed.

(** LMPC (LMPC.hpp:63, 731): the optimizer is created by new and its destructor is defaulted, so the unsafe
    destruction is not reached, at the price of never releasing the optimizer: [owner] is the block of the optimizer *)
Definition lmpc_life (es : list renv) : list ev := EAlloc 0 :: snd (m_runs es (mkM 1 Garbage Garbage Garbage Garbage Garbage)).
Theorem C20_lmpc_life_safe_but_leaks es : Forall all_ok es ->
  safe [] (lmpc_life es) /\
  (forall b, b <> 0 -> count_occ Nat.eq_dec (allocs (lmpc_life es)) b = count_occ Nat.eq_dec (frees (lmpc_life es)) b) /\
  In 0 (allocs (lmpc_life es)) /\ ~ In 0 (frees (lmpc_life es)).
Proof.
  intros HF. unfold lmpc_life. destruct (m_runs es _) as [s t] eqn:E. cbn [snd].
  destruct (runs_trace _ _ _ _ HF E) as (_ & A & B & S). cbn [m_next] in *.
  change (allocs (EAlloc 0 :: t)) with (0 :: allocs t). change (frees (EAlloc 0 :: t)) with (frees t).
  refine (conj _ (conj _ (conj _ _))).
  - apply safe_alloc; [intros []|]. specialize (S [0] []). rewrite app_nil_r in S. apply S; [|exact I].
    intros b [<-|[]]. lia.
  - intros b Hb. cbn [count_occ]. destruct (Nat.eq_dec 0 b); [lia|]. apply B.
  - now left.
  - intros Hi. rewrite (count_occ_In Nat.eq_dec) in Hi. rewrite <- (proj1 (B 0)) in Hi. rewrite <- count_occ_In in Hi. apply A in Hi. lia.
Qed.

Example C20_instance : Forall all_ok [mkEnv true true true true SetupOk false; mkEnv true true true true SetupOk true].
Proof. repeat constructor. Qed.

Print Assumptions C20_runs_are_safe_and_balanced. Print Assumptions C20_first_run_safe_iff.
Print Assumptions C20_destruction_undefined. Print Assumptions C20_lmpc_life_safe_but_leaks. Print Assumptions C20_intended_refuted.
