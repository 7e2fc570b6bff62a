(** The solver-independent assertions of the repository's own unit tests (/repo/test), replayed on the model.  They are not properties (each is one
    literal input) but evidence that the model computes what the code computes: every expected value below is copied from the test file cited. *)
From Coq Require Import Bool Arith ZArith Lia String QArith Qcanon Reals Lra List.
From Verif Require Import Scalar Sums Mat Slice Builder LMPC NLMap NLFun NLMPC Wit Logger Profiler.
Import ListNotations.
Local Open Scope nat_scope.

Definition qeqb (a b : Qc) : bool := match Qccompare a b with Eq => true | _ => false end.
Definition eqe (a b : ext Qc) : bool :=
  match a, b with Fin x, Fin y => qeqb x y | PInf, PInf => true | MInf, MInf => true | _, _ => false end.
Definition range (a n : nat) (p : nat -> bool) : bool := forallb p (seq a n).
Definition qn (n : nat) : Qc := q (Z.of_nat n).
(** the tuples (Tnx, Tnu, Tph, Tch) of the template tests *)
Definition tuples : list (nat * nat * nat * nat) := [(1,1,1,1); (5,1,1,1); (5,3,1,1); (5,3,7,1); (5,3,7,4); (5,3,7,7)].
Definition dim4 (ndu ny : nat) (t : nat * nat * nat * nat) : dims := let '(nx, nu, ph, ch) := t in mkDims nx nu ndu ny ph ch.
Definition iota (n : nat) : mat Qc := mkMat n 1 (fun i _ => qn i) true.

(** test/NLMPC/test_common.cpp:10-47 "Checking mapping dim" *)
Definition mapping_dim (d : dims) : bool :=
  let m := map_init (F := Qc) d in
  (mrows (mp_z2u m) =? d_ph d * d_nu d) && (mcols (mp_z2u m) =? d_ch d * d_nu d) && (mrows (mp_u2z m) =? d_ch d * d_nu d) && (mcols (mp_u2z m) =? d_ph d * d_nu d) &&
  (mrows (mp_in m) =? d_nu d) && (mcols (mp_in m) =? 1) && (mrows (mp_st m) =? d_nx d) && (mcols (mp_st m) =? 1) && (mrows (mp_inv m) =? d_nx d) && (mcols (mp_inv m) =? 1).
Example test_mapping_dim : forallb (fun t => mapping_dim (dim4 0 1 t)) tuples = true.
Proof. vm_compute. reflexivity. Qed.

(** test/NLMPC/test_common.cpp:49-107 "Checking vector unwrapping" *)
Definition unwrapping (d : dims) : bool :=
  let m := map_init (F := Qc) d in let x := iota (n_dec d) in let x0 := mkMat (d_nx d) 1 (fun i _ => q (- Z.of_nat i - 1)) true in
  let X := unwrap_X d m x x0 in let U := unwrap_U d m x in
  range 0 (d_nx d) (fun j => qeqb (ent X 0 j) (ent x0 j 0)) &&
  range 1 (d_ph d) (fun i => range 0 (d_nx d) (fun j => qeqb (ent X i j) (ent x ((i - 1) * d_nx d + j) 0))) &&
  range 0 (d_ph d + 1) (fun i => range 0 (d_nu d) (fun j => qeqb (ent U i j) (ent x (d_ph d * d_nx d + (if i <? d_ch d then i else d_ch d - 1) * d_nu d + j) 0))) &&
  qeqb (unwrap_e x) (ent x (n_dec d - 1) 0) && mok X && mok U.
Example test_unwrapping : forallb (fun t => unwrapping (dim4 0 1 t)) tuples = true.
Proof. vm_compute. reflexivity. Qed.

(** test/NLMPC/test_common.cpp:109-168 "Checking horizon slicing validation" *)
Definition okb (o : outcome bool) (b : bool) : bool := match o with Ok v => Bool.eqb v b | UB => false end.
Definition slicing (ph ch : nat) : bool :=
  let valid H s b := okb (slice_check (Z.of_nat H) s) b in
  let sl e := mkSlice 0 (Z.of_nat e) in
  slice_unset slice_all && valid ph slice_all false && valid ch slice_all false &&
  negb (slice_unset (sl ph)) && valid ph (sl ph) true && negb (slice_unset (sl ch)) && valid ch (sl ch) true &&
  negb (slice_unset (sl (Nat.min ph ch))) && valid ph (sl (Nat.min ph ch)) true && valid ch (sl (Nat.min ph ch)) true &&
  negb (slice_unset (sl (ph + 1))) && valid ph (sl (ph + 1)) false && valid ch (sl (ph + 1)) false.
Example test_slicing : forallb (fun '(_, _, ph, ch) => slicing ph ch) tuples = true.
Proof. vm_compute. reflexivity. Qed.

(** test/NLMPC/test_objective.cpp "Checking objective function": value of sum x^2 + sum u^2 at z_i = i, x0 = 0 *)
Definition sumsq (r : rows Qc) : Qc := fold_left (fun a l => fold_left (fun a v => Qcplus a (Qcmult v v)) l a) r (q 0).
Definition d5377 : dims := mkDims 5 3 0 1 7 7.
Example test_objective :
  qeqb (let X := unwrap_X d5377 (map_init d5377) (iota (n_dec d5377)) (mzero 5 1) in let U := unwrap_U d5377 (map_init d5377) (iota (n_dec d5377)) in
        obj_call d5377 (fun x _ u _ => Qcplus (sumsq x) (sumsq u)) None X U (unwrap_e (iota (n_dec d5377)))) (q 65730) = true.
Proof. vm_compute. reflexivity. Qed.
(** ... which is the value [obj_evaluate] returns *)
Example test_objective_value f x0 x : fst (obj_evaluate qj d5377 (map_init d5377) f None x0 x) =
  obj_call d5377 f None (unwrap_X d5377 (map_init d5377) x x0) (unwrap_U d5377 (map_init d5377) x) (unwrap_e x).
Proof. unfold obj_evaluate. destruct obj_jacobian as [[Jx Jm] Je]. destruct (put_cols Jx 0 _) as [c g]. destruct (put_cols Jm 0 _) as [c' g'].
  match goal with |- context [loop ?n ?f ?a] => destruct (loop n f a) end. reflexivity. Qed.

(** test/NLMPC/test_constraints.cpp:10-24 "Checking missing user constraints" *)
Example test_no_user_constraints : forallb (fun t => let s := n_init (F := Qc) (dim4 0 1 t) in
  negb (has_eq s) && match n_ieq s with None => true | Some _ => false end) tuples = true.
Proof. vm_compute. reflexivity. Qed.

(** test/NLMPC/test_constraints.cpp:26-85 "Checking model equality constraints": continuous van der Pol oscillator, sampling time 0 *)
Definition vdp : dyn_t Qc := fun x u _ i =>
  let x0 := nth 0 x (q 0) in let x1 := nth 1 x (q 0) in let u0 := nth 0 u (q 0) in
  match i with O => Qcplus (Qcminus (Qcmult (Qcminus (q 1) (Qcmult x1 x1)) x0) x1) u0 | _ => x0 end.
Definition d2155 : dims := mkDims 2 1 0 1 5 5.
Definition m2155 : mapping Qc := map_init d2155.
Example test_dynamics_residual :
  let c := fst (seq_evaluate qj d2155 m2155 vdp (Some (q 0)) (mzero 2 1) (iota (n_dec d2155))) in
  forallb (fun '(i, v) => qeqb (ent c i 0) (q v)) (combine (seq 0 10) [0; -1; -2; -2; -2; -2; -2; -2; -2; -2]%Z) && (mrows c =? 10) = true.
Proof. vm_compute. reflexivity. Qed.

(** test/NLMPC/test_constraints.cpp:87-146 and 148-210: user constraint x(0,0), current state (10, 0) *)
Example test_user_inequality :
  let X := unwrap_X d2155 m2155 (iota (n_dec d2155)) (qv [10; 0]%Z) in let U := unwrap_U d2155 m2155 (iota (n_dec d2155)) in
  let c := ieq_call d2155 1 (fun x _ _ _ _ => nth 0 (nth 0 x []) (q 0)) None X U (q 0) in qeqb (ent c 0 0) (q 10) && (mrows c =? 1) = true.
Proof. vm_compute. reflexivity. Qed.
Example test_user_equality :
  let X := unwrap_X d2155 m2155 (iota (n_dec d2155)) (qv [10; 0]%Z) in let U := unwrap_U d2155 m2155 (iota (n_dec d2155)) in
  let c := eqc_call 1 (fun x _ _ => nth 0 (nth 0 x []) (q 0)) X U in qeqb (ent c 0 0) (q 10) && (mrows c =? 1) = true.
Proof. vm_compute. reflexivity. Qed.

(** test/NLMPC/test_nloptimizer.cpp:13-84 "Checking state and input bounds" and 86-120 "Checking default state and input bounds" *)
Definition cst (n : nat) (z : Z) : mat (ext Qc) := mconst n 1 (Fin (q z)).
Definition nl_bounds (d : dims) : bool :=
  match n_bounds 0 (d_nx d) (d_ph d) (cst (d_nx d) (-1)) (cst (d_nx d) 1) slice_all (n_init d) with
  | UB => false
  | Ok s => match n_bounds (d_ph d * d_nx d) (d_nu d) (d_ch d) (cst (d_nu d) (-1)) (cst (d_nu d) 1) slice_all s with
            | UB => false
            | Ok s => range 0 (d_ph d * d_nx d + d_ch d * d_nu d) (fun i => eqe (ent (n_lb s) i 0) (Fin (q (-1))) && eqe (ent (n_ub s) i 0) (Fin (q 1)))
            end
  end.
Example test_nl_bounds : forallb (fun t => nl_bounds (dim4 0 0 t)) tuples = true.
Proof. vm_compute. reflexivity. Qed.
Example test_nl_default_bounds : forallb (fun t => let d := dim4 0 0 t in let s := n_init (F := Qc) d in
  range 0 (d_ph d * d_nx d + d_ch d * d_nu d) (fun i => eqe (ent (n_lb s) i 0) MInf && eqe (ent (n_ub s) i 0) PInf)) tuples = true.
Proof. vm_compute. reflexivity. Qed.

(** test/LMPC/test_lmpc.cpp:161-193 "Linear default constraints" (the references are uninitialised there; here they hold the value 7) *)
Definition d_def : dims := mkDims 3 5 6 4 5 5.
Definition default_constraints : bool :=
  let d := d_def in let n0 := d_nx d + d_nu d in let ne := (d_ph d + 1) * n0 in
  let b := get d (b_init qj qej d) (mconst 3 1 (q 1)) (mconst 5 1 (q (-1))) (mconst 4 5 (q 7)) (mconst 5 5 (q 7)) (mconst 5 5 (q 7)) (mconst 6 5 (q 7)) in
  let l := pl (b_prob b) in let u := pu (b_prob b) in
  let both i v := eqe (ent l i 0) v && eqe (ent u i 0) v in
  range 0 (d_nx d) (fun i => both i (Fin (q (-1)))) && range (d_nx d) (d_nu d) (fun i => both i (Fin (q 1))) && range n0 (d_ph d * n0) (fun i => both i (Fin (q 0))) &&
  range ne (n_ineq d) (fun i => eqe (ent l i 0) MInf && eqe (ent u i 0) PInf) && (mrows l =? ne + n_ineq d) && b_ok b.
Example test_default_constraints : default_constraints = true.
Proof. vm_compute. reflexivity. Qed.

(** test/LMPC/test_lmpc.cpp:195-289 "Linear constraints" *)
Definition d_lin : dims := mkDims 2 4 0 3 3 3.
Definition linear_constraints : bool :=
  let d := d_lin in
  let b := b_setStateBoundsMat qj qej d (mconst 2 3 (Fin (q (-1)))) (mconst 2 3 (Fin (q 1))) (b_init qj qej d) in
  let b := b_setInputBoundsMat qj qej d (mconst 4 3 (Fin (q (-3)))) (mconst 4 3 (Fin (q 3))) b in
  let b := b_setOutputBoundsMat qj qej d (mconst 3 3 (Fin (q (-2)))) (mconst 3 3 (Fin (q 2))) b in
  let x0 := mconst 2 1 (q 42) in let u0 := mconst 4 1 (q (-42)) in
  let b := b_setScalarMat qj qej d (mconst 3 1 (Fin (q (-4)))) (mconst 3 1 (Fin (q 4))) x0 u0 b in
  let b := get d b x0 u0 (mzero 3 3) (mzero 4 3) (mzero 4 3) (mzero 0 3) in
  let l := pl (b_prob b) in let u := pu (b_prob b) in
  let pm i v := eqe (ent l i 0) (Fin (q (- v))) && eqe (ent u i 0) (Fin (q v)) in
  range 0 4 (fun i => range 0 2 (fun j => pm (24 + i * 6 + j) 1%Z) && range 2 4 (fun j => pm (24 + i * 6 + j) 3%Z)) &&
  range 48 12 (fun i => pm i 2%Z) && range 60 12 (fun i => eqe (ent l i 0) MInf && eqe (ent u i 0) PInf) &&
  range (mrows l - 3) 3 (fun i => pm i 4%Z) && (mrows l =? 76) && b_ok b.
Example test_linear_constraints : linear_constraints = true.
Proof. vm_compute. reflexivity. Qed.

(** test/LMPC/test_lmpc.cpp:291-337 "Linear output mapping", for every C, Dd, x and disturbance (the test draws random ones) *)
Definition d_map : dims := mkDims 3 0 7 6 1 1.
Definition map_output (C Dd x du : mat Qc) : mat Qc :=
  mapToOutput d_map (b_setExogenousInput qj qej d_map (mzero 3 7) Dd (b_setStateModel qj qej d_map (mzero 3 3) (mzero 3 0) C (b_init qj qej d_map))) x du.
Example test_output_mapping : forallb (fun seed =>
  let rnd a b i j := q ((Z.of_nat ((i * a + j * b + seed * 13) mod 23)) - 11) in
  let C := mkMat 6 3 (rnd 5 7) true in let Dd := mkMat 6 7 (rnd 3 11) true in let x := mkMat 3 1 (rnd 17 1) true in let du := mkMat 7 1 (rnd 4 1) true in
  range 0 6 (fun i => qeqb (ent (map_output C Dd x du) i 0) (ent (madd (mmul C x) (mmul Dd du)) i 0))) (seq 0 20) = true.
Proof. vm_compute. reflexivity. Qed.

(** test/test_logger.cpp: text on the stream under test (number 1) *)
Definition stream1 (o : outcome (logger * output)) : option string :=
  match o with UB => None | Ok (_, w) => Some (fold_left (fun (a : string) (e : nat * string) => if fst e =? 1 then String.append a (snd e) else a) w ""%string) end.
Definition three : list gop := [GLog T_DETAIL; GWrite "Detail message"; GLog T_INFO; GWrite "Info message"; GLog T_ERROR; GWrite "Error message"].
Example test_logger_none : stream1 (g_play g_new ([GStream 1; GLevel L_NONE] ++ three)) = Some ""%string.
Proof. reflexivity. Qed.
Example test_logger_deep : stream1 (g_play g_new ([GStream 1; GLevel L_DEEP] ++ three)) = Some "[MPC++] Detail message[MPC++] Info message[MPC++] Error message"%string.
Proof. reflexivity. Qed.
Example test_logger_normal : stream1 (g_play g_new ([GStream 1; GLevel L_NORMAL] ++ three)) = Some "[MPC++] Info message[MPC++] Error message"%string.
Proof. reflexivity. Qed.
Example test_logger_alert : stream1 (g_play g_new ([GStream 1; GLevel L_ALERT] ++ three)) = Some "[MPC++] Error message"%string.
Proof. reflexivity. Qed.
Example test_logger_prefix : stream1 (g_play g_new [GLevel L_NORMAL; GStream 1; GPrefix "PREFIX"; GLog T_INFO; GWrite "Message"]) = Some "[MPC++ PREFIX] Message"%string.
Proof. reflexivity. Qed.
Example test_logger_no_prefix : stream1 (g_play g_new [GLevel L_NORMAL; GStream 1; GPrefix ""; GLog T_INFO; GWrite "Message"]) = Some "[MPC++] Message"%string.
Proof. reflexivity. Qed.
Example test_logger_reset : stream1 (g_play g_new [GStream 1; GPrefix "PREFIX"; GLevel L_DEEP; GReset; GLog T_DETAIL; GWrite "Info message"]) = Some ""%string.
Proof. reflexivity. Qed.

(** test/test_profiler.cpp:92-126: three solutions of 0.1, 0.2 and 0.3 seconds *)
Local Open Scope R_scope.
Definition three_solves : list pev := [POptimize 0 (1/10) SUCCESS; POptimize 1 (12/10) MAX_ITERATION; POptimize 2 (23/10) SUCCESS].
Example test_profiler big low : 1 <= big -> low <= 0 ->
  let s := p_run big low three_solves in
  s_states s SUCCESS = 2%nat /\ s_states s MAX_ITERATION = 1%nat /\ s_num s = 3%nat /\ s_avg s = 2/10 /\ Rabs (s_std s - 81/1000) <= 1/100.
Proof.
  intros Hb Hl s. assert (E : s_std s = sqrt (3 / 400)).
  { unfold s, p_run, three_solves. cbn -[Nat.div sqrt pow INR]. change (2 / 1)%nat with 2%nat. change (3 / 2)%nat with 1%nat.
    cbn [INR]. f_equal.
    match goal with |- (?a * (sqrt ?x) ^ 2 + ?b) / ?c = _ => assert (Hx : (sqrt x) ^ 2 = 1/200) end.
    { rewrite pow2_sqrt; [field|]. lra. }
    rewrite Hx. field. }
  refine (conj eq_refl (conj eq_refl (conj eq_refl (conj _ _)))).
  - unfold s, p_run, three_solves. cbn -[INR]. cbn [INR]. field.
  - rewrite E. assert (H : 85 / 1000 <= sqrt (3 / 400) <= 87 / 1000).
    { split; [rewrite <- (sqrt_pow2 (85/1000)) by lra|rewrite <- (sqrt_pow2 (87/1000)) by lra]; apply sqrt_le_1; try lra; apply pow2_ge_0. }
    apply Rabs_le. lra.
Qed.
(** test/test_profiler.cpp:49-66 and 78-90: the cleared statistics *)
Example test_profiler_reset big low : p_run big low [POptimize 0 (1/10) UNKNOWN; PReset] = s_clear big low /\ p_run big low [] = s_clear big low.
Proof. split; reflexivity. Qed.
