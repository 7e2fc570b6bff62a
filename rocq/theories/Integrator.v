(** The Runge-Kutta integrator (include/mpc/Integrator.hpp); property C40.  Exact arithmetic. *)
From Coq Require Import Bool Arith ZArith List Lia Ring Field QArith Qcanon.
From Verif Require Import Scalar Sums Slice Builder Wit.
Import ListNotations.
Local Open Scope nat_scope.

(** *** Model *)
Section Model.
  Context {F : Type} {SO : ScalarOps F}.
  (** cvec<N>: lists of length N; N is the template parameter *)
  Variable N : nat.
  Definition tabv (g : nat -> F) : list F := map g (seq 0 N).
  Definition at_ (x : list F) (i : nat) : F := nth i x s0.
  (** 2.0 and 6.0 *)
  Definition two : F := s2.
  Definition six : F := (s2 * (s2 + s1))%S.
  Definition vfield := F -> list F -> list F.
  (** Integrator.hpp:42-47, one iteration: Eigen's vector expressions entry by entry *)
  Definition rk_step (f : vfield) (t h : F) (sol : list F) : list F :=
    let k1 := f t sol in
    let k2 := f (t + h / two)%S (tabv (fun i => at_ sol i + (h / two) * at_ k1 i)%S) in
    let k3 := f (t + h / two)%S (tabv (fun i => at_ sol i + (h / two) * at_ k2 i)%S) in
    let k4 := f (t + h)%S (tabv (fun i => at_ sol i + h * at_ k3 i)%S) in
    tabv (fun i => at_ sol i + h * (at_ k1 i + two * at_ k2 i + two * at_ k3 i + at_ k4 i) / six)%S.
  (** Integrator.hpp:37-52 run: [for (size_t i = 0; i < integration_step; i++)] converts the int to size_t; t is not changed by the loop *)
  Definition rk_iter (f : vfield) (t h : F) (n : nat) (x : list F) : list F := loop n (fun _ => rk_step f t h) x.
  Definition rk_run (f : vfield) (t : F) (x : list F) (h : F) (n : Z) : list F := rk_iter f t h (Z.to_nat (size_t n)) x.
End Model.

(** *** Specification *)
Section Spec.
  Context {F : Type} {SO : ScalarOps F}.
  Variable N : nat.
  (** x' = A x + b *)
  Definition affine_system (A : nat -> nat -> F) (b : nat -> F) (f : vfield) : Prop :=
    forall t x i, length x = N -> i < N -> nth i (f t x) s0 = (ssum N (fun j => A i j * nth j x s0) + b i)%S.
  Definition mulv (A : nat -> nat -> F) (v : nat -> F) (i : nat) : F := ssum N (fun j => A i j * v j)%S.
  (** x' = p(t), and a cubic polynomial with its integral *)
  Definition quadrature (p : nat -> F -> F) (f : vfield) : Prop := forall t x i, length x = N -> i < N -> nth i (f t x) s0 = p i t.
  Definition cubic (a b c e : F) (t : F) : F := (a + b * t + c * (t * t) + e * (t * t * t))%S.
  Definition cubic_int (a b c e : F) (t : F) : F := (a * t + b * (t * t) / s2 + c * (t * t * t) / (s2 + s1) + e * (t * t * t * t) / (s2 * s2))%S.
End Spec.

Section Proofs.
  Context {F : Type} {SO : ScalarOps F} {SL : ScalarLaws F}.
  Add Field SFint : (@s_field F SO SL).
  Variable N : nat.
  Lemma tabv_len (g : nat -> F) : length (tabv N g) = N. Proof. unfold tabv. now rewrite map_length, seq_length. Qed.
  Lemma tabv_nth (g : nat -> F) i : i < N -> nth i (tabv N g) s0 = g i.
  Proof. intros H. unfold tabv. rewrite (nth_indep _ s0 (g 0)) by (now rewrite map_length, seq_length). rewrite (map_nth g (seq 0 N) 0 i), seq_nth by exact H. reflexivity. Qed.
  Lemma three_neq : (s2 + s1)%S <> s0 :> F.
  Proof. intros E. apply (snat_S_neq (F := F) 2). cbn [snat]. transitivity (s2 + s1 : F)%S; [unfold s2; ring|exact E]. Qed.
  Lemma two_ok : (s1 + s1)%S <> s0 :> F. Proof. exact s2_neq_0. Qed.
  Lemma three_ok : (s1 + s1 + s1)%S <> s0 :> F. Proof. exact three_neq. Qed.
  Lemma three_ok' : (s1 + (s1 + s1))%S <> s0 :> F. Proof. replace (s1 + (s1 + s1))%S with (s1 + s1 + s1 : F)%S by ring. exact three_ok. Qed.
  Lemma mul_ok (a b : F) : a <> s0 -> b <> s0 -> (a * b)%S <> s0. Proof. intros A B E. apply smul_integral in E. tauto. Qed.
  Ltac fld := unfold s2; field; repeat split; repeat first [exact two_ok|exact three_ok|exact three_ok'|apply mul_ok].
  Lemma step_len f (t h : F) x : length (rk_step N f t h x) = N. Proof. apply tabv_len. Qed.
  Lemma iter_S f (t h : F) n x : rk_iter N f t h (S n) x = rk_step N f t h (rk_iter N f t h n x). Proof. reflexivity. Qed.
  Lemma iter_len f (t h : F) n x : length x = N -> length (rk_iter N f t h n x) = N.
  Proof. intros L. destruct n; [exact L|]. apply step_len. Qed.
  Lemma run_nonneg f (t h : F) x n : (Z.of_nat n <= 2147483647)%Z -> rk_run N f t x h (Z.of_nat n) = rk_iter N f t h n x.
  Proof. intros H. unfold rk_run. rewrite size_t_nonneg by (unfold int_max; lia). now rewrite Nat2Z.id. Qed.


  (** C40: zero steps return the initial condition, the result of n + 1 steps is one more step applied to the result of n, and m + n steps are m steps followed by n steps *)
  Theorem C40_composition f (t h : F) x m n : (Z.of_nat (m + n) <= 2147483647)%Z ->
    rk_run N f t x h (Z.of_nat (m + n)) = rk_run N f t (rk_run N f t x h (Z.of_nat m)) h (Z.of_nat n).
  Proof.
    intros H. rewrite !run_nonneg by lia. clear H. induction n as [|n IH].
    - now rewrite Nat.add_0_r.
    - rewrite Nat.add_succ_r, !iter_S. f_equal. exact IH.
  Qed.
  Theorem C40_zero_steps f (t h : F) x : rk_run N f t x h 0 = x.
  Proof. reflexivity. Qed.
  (** C40 (finding): the time is not advanced between sub-steps: the result for any number of steps is determined by the field at the three instants t, t + h/2 and t + h *)
  Theorem C40_time_not_advanced f g (t h : F) x n :
    length x = N ->
    (forall y, length y = N -> f t y = g t y) ->
    (forall y, length y = N -> f (t + h / s2)%S y = g (t + h / s2)%S y) ->
    (forall y, length y = N -> f (t + h)%S y = g (t + h)%S y) ->
    rk_run N f t x h n = rk_run N g t x h n.
  Proof.
    intros L E1 E2 E3. unfold rk_run. generalize (Z.to_nat (size_t n)). intros k. induction k as [|k IH]; [reflexivity|].
    rewrite !iter_S, IH. assert (Lk : length (rk_iter N g t h k x) = N) by (apply iter_len; exact L).
    revert Lk. generalize (rk_iter N g t h k x). intros y Ly. unfold rk_step. unfold two.
    rewrite (E1 y Ly). rewrite (E2 _ (tabv_len _)). rewrite (E2 _ (tabv_len _)). rewrite (E3 _ (tabv_len _)). reflexivity.
  Qed.
  (** a negative number of steps is converted to size_t: the loop runs 2^64 + n times *)
  Theorem C40_negative_steps f (t h : F) x n : (int_min <= n < 0)%Z -> rk_run N f t x h n = rk_iter N f t h (Z.to_nat (2 ^ 64 + n)) x.
  Proof. intros H. unfold rk_run. rewrite size_t_neg by exact H. do 2 f_equal. Qed.

  (** C40: x' = p(t): every step adds Simpson's rule on [t, t+h] *)
  Theorem C40_simpson f p (t h : F) x n i : quadrature N p f -> length x = N -> i < N -> (Z.of_nat n <= 2147483647)%Z ->
    nth i (rk_run N f t x h (Z.of_nat n)) s0
    = (nth i x s0 + snat n * (h * (p i t + (s2 * s2) * p i (t + h / s2) + p i (t + h)) / (s2 * (s2 + s1))))%S.
  Proof.
    intros Q L Hi Hn. rewrite run_nonneg by exact Hn. clear Hn. induction n as [|n IH].
    - cbn [rk_iter loop snat]. change (rk_iter N f t h 0 x) with x. ring.
    - rewrite iter_S. unfold rk_step at 1, two, six. rewrite tabv_nth by exact Hi. unfold at_.
      rewrite !(Q _ _ i) by (try exact Hi; try apply tabv_len; apply iter_len; exact L). rewrite IH. cbn [snat].
      fld.
  Qed.
  (** C40: one step is exact for x' = p(t) with p a polynomial of degree at most 3 *)
  Theorem C40_cubic_exact f p a b c e (t h : F) x i : quadrature N p f -> length x = N -> i < N ->
    (forall s, p i s = cubic a b c e s) ->
    nth i (rk_run N f t x h 1) s0 = (nth i x s0 + (cubic_int a b c e (t + h) - cubic_int a b c e t))%S.
  Proof.
    intros Q L Hi P. change 1%Z with (Z.of_nat 1). rewrite (C40_simpson f p t h x 1 i Q L Hi) by lia.
    rewrite !P. unfold cubic, cubic_int. cbn [snat]. fld.
  Qed.

  (** *** affine systems *)
  Lemma mulv_ext A (v w : nat -> F) i : (forall j, j < N -> v j = w j) -> mulv N A v i = mulv N A w i.
  Proof. intros H. unfold mulv. apply ssum_ext. intros j Hj. now rewrite H. Qed.
  Lemma mulv_add A (v w : nat -> F) i : mulv N A (fun j => v j + w j)%S i = (mulv N A v i + mulv N A w i)%S.
  Proof. unfold mulv. rewrite <- ssum_add. apply ssum_ext. intros. ring. Qed.
  Lemma mulv_scale A c (v : nat -> F) i : mulv N A (fun j => c * v j)%S i = (c * mulv N A v i)%S.
  Proof. unfold mulv. rewrite <- ssum_mul_l. apply ssum_ext. intros. ring. Qed.
  Lemma aff_pert A b f (t : F) x c v i : affine_system N A b f -> length x = N -> i < N ->
    nth i (f t (tabv N (fun j => nth j x s0 + c * v j)%S)) s0 = (mulv N A (fun j => nth j x s0) i + b i + c * mulv N A v i)%S.
  Proof.
    intros H L Hi. rewrite (H _ _ i (tabv_len _) Hi).
    change (ssum N (fun j => A i j * nth j (tabv N (fun j0 : nat => nth j0 x s0 + c * v j0)) s0))%S with (mulv N A (fun j => nth j (tabv N (fun j0 : nat => nth j0 x s0 + c * v j0)%S) s0) i).
    rewrite (mulv_ext A _ (fun j => nth j x s0 + c * v j)%S) by (intros; now apply tabv_nth).
    rewrite mulv_add, mulv_scale. ring.
  Qed.
  (** C40: on x' = A x + b one step is the degree 4 Taylor polynomial of the exact solution: x + h g + h^2/2 A g + h^3/6 A^2 g + h^4/24 A^3 g with g = A x + b *)
  Theorem C40_affine_taylor f A b (t h : F) x i : affine_system N A b f -> length x = N -> i < N ->
    let g := fun j => (mulv N A (fun l => nth l x s0) j + b j)%S in
    nth i (rk_run N f t x h 1) s0
    = (nth i x s0 + h * g i + h * h / s2 * mulv N A g i + h * h * h / (s2 * (s2 + s1)) * mulv N A (mulv N A g) i
       + h * h * h * h / (s2 * s2 * s2 * (s2 + s1)) * mulv N A (mulv N A (mulv N A g)) i)%S.
  Proof.
    intros H L Hi g. change (rk_run N f t x h 1) with (rk_step N f t h x). unfold rk_step, two, six. rewrite tabv_nth by exact Hi. unfold at_.
    assert (K1 : forall j, j < N -> nth j (f t x) s0 = g j) by (intros j Hj; now rewrite (H t x j L Hj)).
    set (k2 := f (t + h / s2)%S (tabv N (fun i0 => nth i0 x s0 + h / s2 * nth i0 (f t x) s0)%S)).
    set (k3 := f (t + h / s2)%S (tabv N (fun i0 => nth i0 x s0 + h / s2 * nth i0 k2 s0)%S)).
    set (k4 := f (t + h)%S (tabv N (fun i0 => nth i0 x s0 + h * nth i0 k3 s0)%S)).
    assert (K2 : forall j, j < N -> nth j k2 s0 = (g j + h / s2 * mulv N A g j)%S).
    { intros j Hj. unfold k2. rewrite (aff_pert A b f _ x _ (fun l => nth l (f t x) s0) j H L Hj). rewrite (mulv_ext A (fun l => nth l (f t x) s0) g j K1). reflexivity. }
    assert (K3 : forall j, j < N -> nth j k3 s0 = (g j + h / s2 * (mulv N A g j + h / s2 * mulv N A (mulv N A g) j))%S).
    { intros j Hj. unfold k3. rewrite (aff_pert A b f _ x _ (fun l => nth l k2 s0) j H L Hj).
      rewrite (mulv_ext A (fun l => nth l k2 s0) (fun l => g l + h / s2 * mulv N A g l)%S j K2), mulv_add, mulv_scale. reflexivity. }
    assert (K4 : nth i k4 s0 = (g i + h * (mulv N A g i + h / s2 * (mulv N A (mulv N A g) i + h / s2 * mulv N A (mulv N A (mulv N A g)) i)))%S).
    { unfold k4. rewrite (aff_pert A b f _ x _ (fun l => nth l k3 s0) i H L Hi).
      rewrite (mulv_ext A (fun l => nth l k3 s0) (fun l => g l + h / s2 * (mulv N A g l + h / s2 * mulv N A (mulv N A g) l))%S i K3), mulv_add, mulv_scale, mulv_add, mulv_scale. reflexivity. }
    rewrite (K1 i Hi), (K2 i Hi), (K3 i Hi), K4. fld.
  Qed.

  (** C40: an equilibrium of the field stays put, whatever the number of steps *)
  Theorem C40_equilibrium f (t h : F) x n : length x = N -> (forall s i, i < N -> nth i (f s x) s0 = s0) -> rk_run N f t x h n = x.
  Proof.
    intros L H. unfold rk_run. generalize (Z.to_nat (size_t n)). intros k. induction k as [|k IH]; [reflexivity|].
    rewrite iter_S, IH.
    assert (T : forall v : nat -> F, (forall i, i < N -> v i = s0) -> forall c, tabv N (fun i => nth i x s0 + c * v i)%S = x).
    { intros v Hv c. apply (nth_ext _ _ s0 s0); [now rewrite tabv_len|]. intros i Hi. rewrite tabv_len in Hi. rewrite tabv_nth by exact Hi. rewrite (Hv i Hi). ring. }
    unfold rk_step, two, six, at_. rewrite !(T (fun i => nth i (f t x) s0)) by (apply H).
    rewrite !(T (fun i => nth i (f (t + h / s2)%S x) s0)) by (apply H).
    apply (nth_ext _ _ s0 s0); [now rewrite tabv_len|]. intros i Hi. rewrite tabv_len in Hi. rewrite tabv_nth by exact Hi.
    rewrite !H by exact Hi. fld.
  Qed.
  (** C40: every linear first integral of the field is conserved exactly, for any number of steps *)
  Theorem C40_linear_invariant f c (t h : F) x n : length x = N ->
    (forall s y, length y = N -> ssum N (fun i => c i * nth i (f s y) s0)%S = s0) ->
    ssum N (fun i => c i * nth i (rk_run N f t x h n) s0)%S = ssum N (fun i => c i * nth i x s0)%S.
  Proof.
    intros L H. unfold rk_run. generalize (Z.to_nat (size_t n)). intros k. induction k as [|k IH]; [reflexivity|].
    rewrite iter_S, <- IH. assert (Lk : length (rk_iter N f t h k x) = N) by (apply iter_len; exact L).
    revert Lk. clear IH. generalize (rk_iter N f t h k x). intros y Ly. unfold rk_step, two, six, at_.
    set (k2 := f (t + h / s2)%S (tabv N (fun i0 => nth i0 y s0 + h / s2 * nth i0 (f t y) s0)%S)).
    set (k3 := f (t + h / s2)%S (tabv N (fun i0 => nth i0 y s0 + h / s2 * nth i0 k2 s0)%S)).
    set (k4 := f (t + h)%S (tabv N (fun i0 => nth i0 y s0 + h * nth i0 k3 s0)%S)).
    assert (H1 := H t y Ly). assert (H2 := H (t + h / s2)%S _ (tabv_len (fun i0 => nth i0 y s0 + h / s2 * nth i0 (f t y) s0)%S)).
    assert (H3 := H (t + h / s2)%S _ (tabv_len (fun i0 => nth i0 y s0 + h / s2 * nth i0 k2 s0)%S)).
    assert (H4 := H (t + h)%S _ (tabv_len (fun i0 => nth i0 y s0 + h * nth i0 k3 s0)%S)).
    fold k2 in H2. fold k3 in H3. fold k4 in H4.
    transitivity (ssum N (fun i => c i * nth i y s0)%S + h / (s2 * (s2 + s1)) * (ssum N (fun i => c i * nth i (f t y) s0)%S + s2 * ssum N (fun i => c i * nth i k2 s0)%S + s2 * ssum N (fun i => c i * nth i k3 s0)%S + ssum N (fun i => c i * nth i k4 s0)%S))%S.
    2:{ rewrite H1, H2, H3, H4. fld. }
    rewrite <- !ssum_mul_l, <- !ssum_add, <- ssum_mul_l, <- ssum_add. apply ssum_ext. intros i Hi. rewrite tabv_nth by exact Hi.
    fld.
  Qed.
End Proofs.

(** C40, intended: n steps of length h from time t integrate x' = p(t), p a polynomial of degree at most 3, exactly over [t, t + n h].  Refuted over every ordered field: x' = t, two steps *)
Section Refuted.
  Context {F : Type} {SO : ScalarOps F} {SL : ScalarLaws F}.
  Add Field SFr : (@s_field F SO SL).
  Theorem C40_intended_refuted :
    ~ (forall f p a b c e (t h x : F), quadrature 1 p f -> (forall s, p 0 s = cubic a b c e s) ->
         nth 0 (rk_run 1 f t [x] h 2) s0 = (x + (cubic_int a b c e (t + s2 * h) - cubic_int a b c e t))%S).
  Proof.
    intros H. pose (f := (fun (t : F) (_ : list F) => [t]) : vfield).
    assert (Q : quadrature 1 (fun _ t => t) f). { intros t x i _ Hi. destruct i; [reflexivity|lia]. }
    assert (P : forall s : F, (fun (_ : nat) (t : F) => t) 0 s = cubic s0 s1 s0 s0 s).
    { intros s. unfold cubic. ring. }
    specialize (H f (fun _ t => t) s0 s1 s0 s0 s0 s1 s0 Q P).
    change 2%Z with (Z.of_nat 2) in H.
    rewrite (C40_simpson 1 f (fun _ t => t) s0 s1 [s0] 2 0 Q eq_refl (le_n 1)) in H by lia.
    unfold cubic_int in H. cbn [snat nth] in H.
    apply (s1_neq_0 (F := F)).
    match type of H with ?l = ?r => assert (L : l = s1); [|assert (R : r = (s1 + s1)%S)] end.
    - unfold s2; field; repeat split; repeat first [exact two_ok|exact three_ok|exact three_ok'|apply mul_ok].
    - unfold s2; field; repeat split; repeat first [exact two_ok|exact three_ok|exact three_ok'|apply mul_ok].
    - rewrite L, R in H. replace (s1 : F) with (s1 + s1 - s1)%S by ring. rewrite <- H. ring.
  Qed.
End Refuted.

(** *** Instances over the rationals *)
Definition rot : vfield (F := Qc) := fun _ x => [nth 1 x s0; sopp (nth 0 x s0)].
Definition tsq : vfield (F := Qc) := fun t _ => [(t * t)%S].
Definition decay : vfield (F := Qc) := fun _ x => [(q 3 - nth 0 x s0 + nth 1 x s0)%S; (nth 0 x s0 - nth 1 x s0 - q 3)%S].
Add Field QcI : (@s_field Qc _ _).
Lemma qlist_eq (a b : list Qc) : length a = length b -> forallb (fun p => Qc_eq_bool (fst p) (snd p)) (combine a b) = true -> a = b.
Proof.
  revert b. induction a as [|x a IH]; intros [|y b] L H; try discriminate L; [reflexivity|].
  cbn [combine forallb fst snd] in H. apply andb_prop in H. destruct H as [H1 H2]. f_equal; [now apply Qc_eq_bool_correct|].
  apply IH; [now injection L|exact H2].
Qed.
Lemma rot_affine : affine_system 2 (fun i j => if Nat.eqb i j then s0 else if Nat.eqb i 0 then s1 else sopp s1) (fun _ => s0) rot.
Proof. intros t x i _ Hi. destruct i as [|[|i]]; [| |lia]; unfold rot; cbn -[sadd smul ssub sopp s0 s1 sdiv]; cbn [ssum]; ring. Qed.
Example C40_instance :
  affine_system 2 (fun i j => if Nat.eqb i j then s0 else if Nat.eqb i 0 then s1 else sopp s1) (fun _ => s0) rot /\
  quadrature 1 (fun _ t => (t * t)%S) tsq /\
  (forall s : Qc, (s * s)%S = cubic s0 s0 s1 s0 s) /\
  (forall (s : Qc) y, length y = 2 -> ssum 2 (fun i => s1 * nth i (decay s y) s0)%S = s0) /\
  (** one step from (1,0) with h = 1/2 is cos/sin to order 4 *)
  rk_run 2 rot s0 [s1; s0] (q 1 / q 2)%S 1 = [(q 337 / q 384)%S; sopp (q 23 / q 48)%S] /\
  rk_run 2 decay s0 [q 3; s0] (q 1 / q 2)%S 3 = [q 3; s0].
Proof.
  refine (conj rot_affine (conj _ (conj _ (conj _ (conj _ _))))).
  - intros t x i _ Hi. destruct i; [reflexivity|lia].
  - intros s. unfold cubic. ring.
  - intros s y _. unfold decay. cbn [ssum nth]. ring.
  - apply qlist_eq; vm_compute; reflexivity.
  - apply qlist_eq; vm_compute; reflexivity.
Qed.
Print Assumptions C40_intended_refuted.
