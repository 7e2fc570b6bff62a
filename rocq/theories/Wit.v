(** Executable checks over Qc used to exhibit concrete instances. *)
From Coq Require Import Bool Arith ZArith List Lia QArith Qcanon.
From Verif Require Import Scalar Sums Mat Slice Csc CscProof Builder LMPC SpecLMPC SpecQP.
Import ListNotations.

(** literals *)
Definition q (z : Z) : Qc := Q2Qc (inject_Z z).
Definition qv (l : list Z) : mat Qc := mkMat (length l) 1 (fun i _ => q (nth i l 0%Z)) true.
Definition qe (l : list Z) : mat (ext Qc) := mkMat (length l) 1 (fun i _ => Fin (q (nth i l 0%Z))) true.
Definition qm (r c : nat) (rows : list (list Z)) : mat Qc :=
  mkMat r c (fun i j => q (nth j (nth i rows []) 0%Z)) true.
Definition qme (r c : nat) (rows : list (list Z)) : mat (ext Qc) :=
  mkMat r c (fun i j => Fin (q (nth j (nth i rows []) 0%Z))) true.
Definition qf (l : list Z) : nat -> Qc := fun i => q (nth i l 0%Z).
Definition qj : nat -> nat -> Qc := fun _ _ => q 7.
Definition qej : nat -> nat -> ext Qc := fun _ _ => Fin (q 7).

Section Checks.
  Context {F : Type} {SO : ScalarOps F}.
  Definition within_b (l u : ext F) (v : F) : bool :=
    match l with Fin x => sleb x v | PInf => false | MInf => true end &&
    match u with Fin x => sleb v x | PInf => true | MInf => false end.
  Lemma within_b_ok l u v : within_b l u v = true <-> within l u v.
  Proof. unfold within_b, within, ge_lo, le_hi, sle. rewrite andb_true_iff. destruct l, u; intuition congruence. Qed.
  Definition feasible_b (c : call F) (z : nat -> F) : bool :=
    forallb (fun r => within_b (nth r (cl_l c) PInf) (nth r (cl_u c) MInf) (qp_row c r z)) (seq 0 (cl_m c)).
  Lemma feasible_b_ok c z : feasible_b c z = true <-> qp_feasible c z.
  Proof.
    unfold feasible_b, qp_feasible, row_holds. rewrite forallb_forall. split; intros H r Hr.
    - apply within_b_ok, H. rewrite in_seq. lia.
    - apply within_b_ok, H. rewrite in_seq in Hr. lia.
  Qed.
End Checks.
Definition is_ok {A} (o : outcome A) : bool := match o with Ok _ => true | UB => false end.

(** the object and history obtained by playing [ops] on a fresh object *)
Definition wS (d : dims) (ops : list (lop Qc)) : lmpc Qc :=
  match l_play qj qej d (l_init qj qej d) ops with Ok (s, _) => s | UB => l_init qj qej d end.
Definition wH (d : dims) (ops : list (lop Qc)) : list (lop Qc * ret Qc) :=
  match l_play qj qej d (l_init qj qej d) ops with Ok (_, h) => h | UB => [] end.
Definition wp (h : list (lop Qc * ret Qc)) : plant Qc :=
  match g_plant (cfg_run h) with Some p => p | None => mkPlant qj qj qj end.
Definition has_plant (h : list (lop Qc * ret Qc)) : bool := match g_plant (cfg_run h) with Some _ => true | None => false end.
Lemma w_reached d ops : Forall (op_sized d) ops -> Forall op_proper ops ->
  is_ok (l_play qj qej d (l_init qj qej d) ops) = true -> reached qj qej d (wS d ops) (wH d ops).
Proof.
  intros H1 H2 H3. exists ops. refine (conj H1 (conj H2 _)). unfold wS, wH.
  destruct (l_play qj qej d (l_init qj qej d) ops) as [[s h]|]; [reflexivity|discriminate].
Qed.
Lemma w_plant h : has_plant h = true -> g_plant (cfg_run h) = Some (wp h).
Proof. unfold has_plant, wp. destruct (g_plant (cfg_run h)); [reflexivity|discriminate]. Qed.
Ltac all_sized := repeat (apply Forall_cons; [cbn; repeat split; reflexivity|]); apply Forall_nil.
Ltac all_proper := repeat (apply Forall_cons; [cbv -[Z.le]; solve [exact I | left; reflexivity | right; lia]|]); apply Forall_nil.
Ltac w_reach := apply w_reached; [all_sized|all_proper|vm_compute; reflexivity].
Lemma within_dec_false (l u : ext Qc) v : within_b l u v = false -> ~ within l u v.
Proof. intros H W. apply within_b_ok in W. congruence. Qed.
