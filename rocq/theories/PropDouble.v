(** Property C63: the controllers on IEEE doubles (rounding, signed zeros, infinities, NaN; [Double.v]). *)
From Coq Require Import Bool Arith ZArith List Lia.
From Coq Require Import Floats.SpecFloat.
From Verif Require Import Scalar Sums Mat Slice Builder BuilderEnt LMPC SpecLMPC SpecQP LMPCRef LQP LRows LRows2 LDet LOk LSeq PropLMPC1 NLMap NLTraj NLFun SpecNL NLMPC SpecNLC SpecNLP NLRef NLRun NLObs PropLMPC2 PropLMPC3 PropNL3 PropNL4 Wit Double.
Import ListNotations.
Local Open Scope nat_scope.

Section NL.
  Variable junk : nat -> nat -> dbl.
  Variable d : dims.
  Variables ni ne : nat.
  Variable dyn_eq : bool.
  Notation nx := (d_nx d). Notation nu := (d_nu d). Notation ny := (d_ny d).
  Notation ph := (d_ph d). Notation ch := (d_ch d). Notation N := (n_dec d).
  Notation reached := (nreached junk d ni ne dyn_eq).
  Notation step := (n_step junk d ni ne dyn_eq).
  Notation call := (n_call junk d ni ne).
  Notation cf := (ncfg_run d ni ne).

  (** what a solved call leaves behind, in the arithmetic of the machine *)
  Lemma solved_raw (s : nmpc dbl) h x0 u0 z code cost s' r : 0 < ch -> ch <= ph -> reached s h -> gm x0 nx 1 ->
    step s (NOptimize x0 u0 (NSolved z code cost)) = Ok (s', r) ->
    r = RResult (n_res s') /\ map_is d (n_map s) (k_su (cf h)) (k_sx (cf h)) /\
    (forall i j, i <= ph -> j < nu -> ent (q_input (n_seq s')) i j =
       ssum (nu * ch) (fun c => smul (ent (mp_z2u (n_map s)) (Nat.min i (ph - 1) * nu + j) c) (z (ph * nx + c)))) /\
    (forall j, j < nu -> ent (r_cmd (n_res s')) j 0 = ent (q_input (n_seq s')) 0 j) /\
    (forall i j, i <= ph -> j < nx -> ent (q_state (n_seq s')) i j =
       sdiv (if i =? 0 then ent x0 j 0 else z ((i - 1) * nx + j)) (sdiv s1 (k_sx (cf h) j))) /\
    r_feasible (n_res s') = is_feasible d ni ne (n_map s) (n_ieq s) (n_eqc s) (n_out s) (n_itol s) (n_etol s) x0 (mvec N z).
  Proof.
    intros C0 C Hr G E. pose proof (nreached_NR junk d ni ne dyn_eq C0 C s h Hr) as H. apply run_ok in E as [R ->]. split; [reflexivity|].
    pose proof (has_eq_ne junk d ni ne C0 C s _ x0 u0 z code cost s' H R) as He.
    rewrite (run_solved junk d ni ne C0 C s _ x0 u0 z code cost H G He) in R. inversion R; subst s'; clear R.
    pose proof (nr_map d s _ H) as HM. split; [exact HM|]. assert (GO : gm (mvec N z) N 1) by (repeat split).
    assert (P : 0 < ph) by lia.
    destruct (unwrap_U_sum d (n_map s) _ _ (mvec N z) HM GO P C0 C) as [GU EU].
    destruct (unwrap_X_ent d (n_map s) _ _ (mvec N z) x0 HM GO G P C0 C) as [GX EX].
    cbn -[mtrans mrow block unwrap_e unwrap_X unwrap_U get_output is_feasible mvec n_dec Nat.min].
    refine (conj _ (conj _ (conj _ eq_refl))).
    - intros i j Hi Hj. cbn [block ent]. cbn [Nat.add]. rewrite EU by assumption. reflexivity.
    - intros j Hj. reflexivity.
    - intros i j Hi Hj. cbn [block ent]. cbn [Nat.add]. rewrite EX by assumption. reflexivity.
  Qed.

  (** if the input variables the solver returns are finite, the command and the input sequence are the correctly rounded
      products scale * variable, up to the sign of a zero *)
  Theorem C63_commands (s : nmpc dbl) h x0 u0 z code cost s' r : 0 < ch -> ch <= ph -> reached s h -> gm x0 nx 1 ->
    step s (NOptimize x0 u0 (NSolved z code cost)) = Ok (s', r) ->
    (forall k, k < nu * ch -> is_fin (z (ph * nx + k)) = true) ->
    exists res, r = RResult res /\
      (forall j, j < nu -> dsame (ent (r_cmd res) j 0) (smul (k_su (cf h) j) (z (ph * nx + j)))) /\
      (forall i j, i <= ph -> j < nu -> dsame (ent (q_input (n_seq s')) i j) (smul (k_su (cf h) j) (z (ph * nx + (Nat.min i (ch - 1) * nu + j))))).
  Proof.
    intros C0 C Hr G E Fz. destruct (solved_raw s h x0 u0 z code cost s' r C0 C Hr G E) as (-> & HM & EI & EC & _). exists (n_res s').
    assert (K : forall i j, i <= ph -> j < nu -> dsame (ent (q_input (n_seq s')) i j) (smul (k_su (cf h) j) (z (ph * nx + (Nat.min i (ch - 1) * nu + j))))).
    { intros i j Hi Hj. rewrite EI by assumption. set (a := Nat.min i (ph - 1)). assert (Ha : a < ph) by (unfold a; lia).
      replace (Nat.min i (ch - 1)) with (Nat.min a (ch - 1)) by (unfold a; lia). set (b := Nat.min a (ch - 1)). assert (Hb : b < ch) by (unfold b; lia).
      assert (Lt : b * nu + j < nu * ch). { pose proof (blk_le b ch nu Hb). lia. }
      pose proof (mi_z2u_e d _ _ _ HM a b j j Ha Hb Hj Hj) as E1. fold b in E1. rewrite !Nat.eqb_refl in E1. cbn [andb] in E1. rewrite <- E1.
      apply (dsum_single (nu * ch) (fun c => smul (ent (mp_z2u (n_map s)) (a * nu + j) c) (z (ph * nx + c))) (b * nu + j) Lt).
      intros k Hk Hne. apply dmul_zero_fin; [|now apply Fz].
      assert (Hn : nu <> 0) by lia. rewrite (Nat.div_mod k nu Hn) in Hne |- *. rewrite (Nat.mul_comm nu (k / nu)) in Hne |- *.
      assert (Kq : k mod nu < nu) by (now apply Nat.mod_upper_bound). assert (Kb : k / nu < ch) by (apply Nat.div_lt_upper_bound; lia).
      rewrite (mi_z2u_e d _ _ _ HM a (k / nu) j (k mod nu) Ha Kb Hj Kq). fold b.
      destruct (Nat.eqb_spec (k / nu) b), (Nat.eqb_spec j (k mod nu)); cbn [andb]; try reflexivity. exfalso. apply Hne. congruence. }
    refine (conj eq_refl (conj _ K)). intros j Hj. rewrite EC by exact Hj. specialize (K 0 j ltac:(lia) Hj). cbn [Nat.min Nat.mul Nat.add] in K. exact K.
  Qed.
  (** with input scale 1 and genuine doubles: the solver's numbers themselves *)
  Theorem C63_commands_unscaled (s : nmpc dbl) h x0 u0 z code cost s' r : 0 < ch -> ch <= ph -> reached s h -> gm x0 nx 1 ->
    step s (NOptimize x0 u0 (NSolved z code cost)) = Ok (s', r) ->
    (forall k, k < nu * ch -> is_fin (z (ph * nx + k)) = true /\ is_double (z (ph * nx + k)) = true) -> (forall j, j < nu -> k_su (cf h) j = s1) ->
    exists res, r = RResult res /\ forall j, j < nu -> dsame (ent (r_cmd res) j 0) (z (ph * nx + j)).
  Proof.
    intros C0 C Hr G E Fz S1. destruct (C63_commands s h x0 u0 z code cost s' r C0 C Hr G E (fun k H => proj1 (Fz k H))) as (res & -> & K & _).
    exists res. split; [reflexivity|]. intros j Hj. specialize (K j Hj). rewrite S1 in K by exact Hj. rewrite dmul_one in K; [exact K|]. apply Fz. nia.
  Qed.
  (** FINDING: one NaN among the input variables, at any step of the horizon, makes every entry of the command and of the input
      sequence NaN; an infinite variable does the same to every entry that is not its own *)
  Theorem C63_one_bad_variable_poisons_the_command (s : nmpc dbl) h x0 u0 z code cost s' r k : 0 < ch -> ch <= ph -> reached s h -> gm x0 nx 1 ->
    step s (NOptimize x0 u0 (NSolved z code cost)) = Ok (s', r) -> k < nu * ch ->
    exists res, r = RResult res /\
      (is_nan (z (ph * nx + k)) = true ->
        (forall j, j < nu -> ent (r_cmd res) j 0 = S754_nan) /\ (forall i j, i <= ph -> j < nu -> ent (q_input (n_seq s')) i j = S754_nan)) /\
      (is_inf (z (ph * nx + k)) = true ->
        (forall j, j < nu -> j <> k -> ent (r_cmd res) j 0 = S754_nan) /\
        (forall i j, i <= ph -> j < nu -> Nat.min i (ch - 1) * nu + j <> k -> ent (q_input (n_seq s')) i j = S754_nan)).
  Proof.
    intros C0 C Hr G E Hk. destruct (solved_raw s h x0 u0 z code cost s' r C0 C Hr G E) as (-> & HM & EI & EC & _). exists (n_res s'). split; [reflexivity|].
    assert (K1 : is_nan (z (ph * nx + k)) = true -> forall i j, i <= ph -> j < nu -> ent (q_input (n_seq s')) i j = S754_nan).
    { intros Nk i j Hi Hj. rewrite EI by assumption. apply (dsum_nan _ _ k Hk). destruct (z (ph * nx + k)); try discriminate Nk. apply dmul_nan_r. }
    assert (K2 : is_inf (z (ph * nx + k)) = true -> forall i j, i <= ph -> j < nu -> Nat.min i (ch - 1) * nu + j <> k -> ent (q_input (n_seq s')) i j = S754_nan).
    { intros Nk i j Hi Hj Hne. rewrite EI by assumption. apply (dsum_nan _ _ k Hk). apply dmul_zero_inf; [|exact Nk].
      assert (Hn : nu <> 0) by lia. set (a := Nat.min i (ph - 1)). assert (Ha : a < ph) by (unfold a; lia).
      replace (Nat.min i (ch - 1)) with (Nat.min a (ch - 1)) in Hne by (unfold a; lia).
      rewrite (Nat.div_mod k nu Hn) in Hne |- *. rewrite (Nat.mul_comm nu (k / nu)) in Hne |- *.
      assert (Kq : k mod nu < nu) by (now apply Nat.mod_upper_bound). assert (Kb : k / nu < ch) by (apply Nat.div_lt_upper_bound; lia).
      rewrite (mi_z2u_e d _ _ _ HM a (k / nu) j (k mod nu) Ha Kb Hj Kq).
      destruct (Nat.eqb_spec (k / nu) (Nat.min a (ch - 1))), (Nat.eqb_spec j (k mod nu)); cbn [andb]; try reflexivity. exfalso. apply Hne. congruence. }
    split; intros Nk; (split; [|now auto]).
    - intros j Hj. rewrite EC by exact Hj. apply K1; [exact Nk|lia|exact Hj].
    - intros j Hj Hne. rewrite EC by exact Hj. apply K2; [exact Nk|lia|exact Hj|]. cbn [Nat.min Nat.mul Nat.add]. exact Hne.
  Qed.
  (** the state sequence: variable / (1 / scale); with state scale 1 the solver's numbers bit for bit, starting with the measured state *)
  Theorem C63_states (s : nmpc dbl) h x0 u0 z code cost s' r : 0 < ch -> ch <= ph -> reached s h -> gm x0 nx 1 ->
    step s (NOptimize x0 u0 (NSolved z code cost)) = Ok (s', r) ->
    (forall i j, i <= ph -> j < nx -> ent (q_state (n_seq s')) i j = sdiv (if i =? 0 then ent x0 j 0 else z ((i - 1) * nx + j)) (sdiv s1 (k_sx (cf h) j))) /\
    ((forall j, j < nx -> k_sx (cf h) j = s1) -> (forall j, j < nx -> is_double (ent x0 j 0) = true) -> (forall k, k < ph * nx -> is_double (z k) = true) ->
      (forall j, j < nx -> ent (q_state (n_seq s')) 0 j = ent x0 j 0) /\
      (forall i j, i < ph -> j < nx -> ent (q_state (n_seq s')) (S i) j = z (i * nx + j))).
  Proof.
    intros C0 C Hr G E. destruct (solved_raw s h x0 u0 z code cost s' r C0 C Hr G E) as (-> & HM & _ & _ & ES & _). refine (conj ES _).
    intros S1 D0 Dz. split.
    - intros j Hj. rewrite ES by (lia || assumption). cbn [Nat.eqb]. rewrite S1 by exact Hj. rewrite sm_div1. apply ddiv_one. now apply D0.
    - intros i j Hi Hj. rewrite ES by (lia || assumption). cbn [Nat.eqb]. rewrite S1 by exact Hj. rewrite sm_div1.
      replace (S i - 1) with i by lia. apply ddiv_one. apply Dz. pose proof (blk_le i ph nx Hi). lia.
  Qed.
  (** FINDING: inequality constraints whose values are NaN are reported as met *)
  Theorem C63_nan_inequalities_pass (s : nmpc dbl) h x0 u0 z code cost s' r f : 0 < ch -> ch <= ph -> reached s h -> gm x0 nx 1 ->
    step s (NOptimize x0 u0 (NSolved z code cost)) = Ok (s', r) ->
    last_of pick_ieq h = Some f -> last_of pick_eqc h = None -> (forall X Y U e k, f X Y U e k = S754_nan) ->
    exists res, r = RResult res /\ r_feasible res = true.
  Proof.
    intros C0 C Hr G E Hf He Nf. pose proof (nreached_NR junk d ni ne dyn_eq C0 C s h Hr) as H.
    destruct (solved_raw s h x0 u0 z code cost s' r C0 C Hr G E) as (-> & HM & _ & _ & _ & EF). exists (n_res s'). split; [reflexivity|].
    rewrite EF. unfold is_feasible.
    assert (A : n_ieq s = Some f /\ n_eqc s = None).
    { destruct (C48_newest_function d ni ne h) as (_ & _ & A & B & _). rewrite (nr_ieq d s _ H), (nr_eqc d s _ H), A, B. auto. }
    destruct A as [-> ->]. rewrite andb_true_r, negb_true_iff. unfold any_gt. apply not_true_iff_false. intros X.
    apply existsb_exists in X as (v & I & K). apply in_map_iff in I as (w & <- & I). unfold lst in I. apply in_map_iff in I as (k & <- & _).
    cbn [gt_opt] in K. unfold ieq_call in K. cbn [mvec ent] in K. rewrite Nf, dlt_nan_r in K. discriminate K.
  Qed.

  (** bookkeeping, memory safety and error reports do not depend on exact arithmetic: the theorems of C31, C32, C34, C35 and C51
      hold on doubles *)
  Theorem C63_nonlinear_memory_safe (ops : list (nop dbl)) : 0 < ch -> ch <= ph -> (Z.of_nat ph < 1073741824)%Z -> Forall (nop_safe d ne dyn_eq) ops ->
    n_life junk d ni ne dyn_eq ops <> UB.
  Proof. exact (C51_safe_histories junk d ni ne dyn_eq ops). Qed.
  (** ... whatever numbers (NaN included) the solver passes to the callbacks *)
  Theorem C63_callbacks_memory_safe (s : nmpc dbl) h x0 u0 z : 0 < ch -> ch <= ph -> reached s h -> gm x0 nx 1 -> length z = n_dec d ->
    (forall ev, nc_obj (call s x0 u0) = Some ev -> ev z <> UB) /\ (forall k tol ev, In (k, tol, ev) (nc_cons (call s x0 u0)) -> ev z <> UB).
  Proof. exact (C51_callbacks_defined junk d ni ne dyn_eq s h x0 u0 z). Qed.
  Theorem C63_solver_failure (s : nmpc dbl) h x0 u0 : 0 < ch -> ch <= ph -> reached s h -> nop_sized d (NOptimize x0 u0 NThrow : nop dbl) ->
    exists s' res, step s (NOptimize x0 u0 NThrow) = Ok (s', RResult res) /\
      r_cmd res = last_cmd nu h /\ r_cost res = PInf /\ r_status res = ERROR /\ r_feasible res = false.
  Proof.
    intros C0 C Hr Hs. destruct (C31_solver_failure junk d ni ne dyn_eq s h x0 u0 C0 C Hr Hs) as (s' & res & A & B & K & D & _ & E & _). exists s', res. auto.
  Qed.
  (** the bounds the solver receives are the doubles the user passed (state bounds; the input case is the same theorem) *)
  Theorem C63_bounds_passed_through (s : nmpc dbl) h lo hi s' r x0 u0 :
    0 < ch -> ch <= ph -> reached s h -> gm lo nx ph -> gm hi nx ph -> step s (NSetStateBoundsMat lo hi) = Ok (s', r) ->
    r = RBool true /\ forall k j, k < ph -> j < nx ->
      nth (k * nx + j) (nc_lo (call s' x0 u0)) PInf = ent lo j k /\ nth (k * nx + j) (nc_hi (call s' x0 u0)) MInf = ent hi j k.
  Proof. intros C0 C Hr G1 G2 E. destruct (C35_matrices junk d ni ne dyn_eq s h lo hi s' r x0 u0 C0 C Hr G1 G2 E) as (A & B & _). auto. Qed.
End NL.

Section Lin.
  Variable junk : nat -> nat -> dbl.
  Variable ejunk : nat -> nat -> ext dbl.
  Variable d : dims.
  Notation nx := (d_nx d). Notation nu := (d_nu d). Notation ny := (d_ny d).
  Notation ph := (d_ph d). Notation ch := (d_ch d).
  Notation reached := (SpecLMPC.reached junk ejunk d).
  Notation step := (l_step junk ejunk d).

  (** the linear controller copies the solver's numbers: no arithmetic between the solution and the command *)
  Theorem C63_linear_copies (s : lmpc dbl) h x0 u0 x y code obj s' r :
    0 < ph -> reached s h -> sized x0 nx 1 -> sized u0 nu 1 -> step s (LOptimize x0 u0 (ASolution x y code obj)) = Ok (s', r) ->
    exists res, r = RResult res /\
      (forall j, j < nu -> vec (r_cmd res) j = x (1 * (nu + nx) + (nx + j))) /\
      (forall i j, i <= ph -> j < nx -> ent (q_state (o_seq (l_o s'))) i j = x (i * (nu + nx) + j)) /\
      (forall i j, i <= ph -> j < nu -> ent (q_input (o_seq (l_o s'))) i j = x ((Nat.min i (ph - 1) + 1) * (nu + nx) + (nx + j))).
  Proof.
    intros P H X U E. pose proof (reached_R _ _ _ _ _ P H) as HR.
    apply opt_ok in E as [Es Er]. rewrite Es in Er. cbn [l_o o_res] in Er. eexists. split; [exact Er|].
    pose proof (ro_seq _ _ _ (r_o _ _ _ _ _ HR)) as (Q1 & Q2 & Q3 & Q4).
    rewrite Es. cbn [l_o o_seq q_state q_input q_output r_cmd].
    assert (II : forall i j, i <= ph -> j < nu -> ent (seq_input d x (q_input (o_seq (l_o s)))) i j = x ((Nat.min i (ph - 1) + 1) * (nu + nx) + (nx + j))).
    { intros i j Hi Hj. rewrite seq_input_ent by (assumption || lia). unfold z_cmd. f_equal. lia. }
    refine (conj _ (conj _ II)).
    - intros j Hj. transitivity (ent (seq_input d x (q_input (o_seq (l_o s)))) 0 j); [reflexivity|]. rewrite II by lia. reflexivity.
    - intros i j Hi Hj. now apply seq_state_ent.
  Qed.
  Theorem C63_linear_memory_safe (ops : list (lop dbl)) : 0 < ph -> ch <= ph -> (Z.of_nat ph < 1073741824)%Z ->
    Forall (op_safe d) ops -> l_play junk ejunk d (l_init junk ejunk d) ops <> UB.
  Proof. exact (C13_safe_histories junk ejunk d ops). Qed.
End Lin.

(** *** Instances: one state (scale 49), two inputs (scale 2 and 1/4), ph = 2, ch = 2 *)
Definition dz (n : Z) : dbl := binary_normalize 53 1024 n 0 false.
Definition dvec (l : list dbl) : mat dbl := mvec (length l) (fun i => nth i l s0).
Definition dj (_ _ : nat) : dbl := dz 7.
Definition wd : dims := mkDims 1 2 0 0 2 2.
Definition w_ops : list (nop dbl) :=
  [NSetStateScale (dvec [dz 49]); NSetInputScale (dvec [dz 2; sdiv s1 (dz 4)]);
   NSetIneq (fun _ _ _ _ _ => S754_nan) s0 true;
   NSetStateBoundsMat (mconst 1 2 (Fin (dz (-5)))) (mconst 1 2 PInf)].
Definition w_s : nmpc dbl := match n_life dj wd 1 0 false w_ops with Ok (s, _) => s | UB => n_init wd end.
Definition w_h : list (nop dbl * ret dbl) := match n_life dj wd 1 0 false w_ops with Ok (_, h) => h | UB => [] end.
Definition w_good (k : nat) : dbl := nth k [dz 3; dz 4; dz 5; dz 6; dz 7; S754_zero true; s0] s0.
Definition w_bad (k : nat) : dbl := nth k [dz 3; dz 4; dz 5; dz 6; S754_nan; dz 8; s0] s0.
Definition w_inf (k : nat) : dbl := nth k [dz 3; dz 4; dz 5; dz 6; dz 7; S754_infinity false; s0] s0.
Lemma w_reached : nreached dj wd 1 0 false w_s w_h.
Proof. exists w_ops. split; [repeat constructor|]. vm_compute. reflexivity. Qed.
Definition w_out (z : nat -> dbl) : option (list dbl * bool) :=
  match n_step dj wd 1 0 false w_s (NOptimize (dvec [s1]) (dvec [s0; s0]) (NSolved z 1 (Fin s0))) with
  | Ok (_, RResult r) => Some ([ent (r_cmd r) 0 0; ent (r_cmd r) 1 0], r_feasible r) | _ => None end.
Example C63_instance :
  nreached dj wd 1 0 false w_s w_h /\ (forall k, k < 4 -> is_fin (w_good (2 + k)) = true) /\ last_of pick_eqc w_h = None /\ last_of pick_ieq w_h <> None /\
  w_out w_good = Some ([dz 10; sdiv (dz 3) (dz 2)], true) /\ w_out w_bad = Some ([S754_nan; S754_nan], true) /\ w_out w_inf = Some ([S754_nan; S754_nan], true).
Proof.
  refine (conj w_reached (conj _ _)).
  - intros k Hk. do 4 (destruct k as [|k]; [vm_compute; reflexivity|]). lia.
  - refine (conj _ (conj _ (conj _ (conj _ _)))); vm_compute; try reflexivity. discriminate.
Qed.
(** FINDING: the trajectory shown to the user functions is not scale * variable: dividing by the rounded reciprocal of the scale 49 shows the
    measured state 1 as 48.99999999999999 *)
Theorem C63_state_scale_not_exact_refuted :
  ~ (forall junk d ni ne dyn_eq (s : nmpc dbl) h x0 u0 z code cost s' r, 0 < d_ch d -> d_ch d <= d_ph d -> nreached junk d ni ne dyn_eq s h -> gm x0 (d_nx d) 1 ->
       n_step junk d ni ne dyn_eq s (NOptimize x0 u0 (NSolved z code cost)) = Ok (s', r) ->
       forall j, j < d_nx d -> dsame (ent (q_state (n_seq s')) 0 j) (smul (k_sx (ncfg_run d ni ne h) j) (ent x0 j 0))).
Proof.
  intros H. assert (G : gm (dvec [s1]) (d_nx wd) 1) by repeat split.
  assert (C0 : 0 < d_ch wd) by (cbn; lia). assert (C : d_ch wd <= d_ph wd) by (cbn; lia).
  destruct (n_step dj wd 1 0 false w_s (NOptimize (dvec [s1]) (dvec [s0; s0]) (NSolved w_good 1 (Fin s0)))) as [[s' r]|] eqn:E.
  2:{ apply (f_equal (fun o => match o with UB => true | _ => false end)) in E. vm_compute in E. discriminate E. }
  specialize (H dj wd 1 0 false w_s w_h (dvec [s1]) (dvec [s0; s0]) w_good 1%Z (Fin s0) s' r C0 C w_reached G E 0 ltac:(cbn; lia)).
  destruct (C63_states dj wd 1 0 false w_s w_h _ _ _ _ _ s' r C0 C w_reached G E) as [ES _].
  rewrite ES in H by (cbn; lia). destruct H as [H|[H _]]; vm_compute in H; discriminate H.
Qed.
(** the linear controller, with an unstable plant and a NaN reference *)
Definition lw_d : dims := mkDims 1 1 0 1 2 1.
Definition lw_ej (_ _ : nat) : ext dbl := MInf.
Definition lw_ops : list (lop dbl) := [LSetModel (dvec [dz 3]) (dvec [s1]) (dvec [s1]); LSetRefsMat (mconst 1 2 S754_nan) (mconst 1 2 s0) (mconst 1 2 s0)].
Definition lw_s : lmpc dbl := match l_play dj lw_ej lw_d (l_init dj lw_ej lw_d) lw_ops with Ok (s, _) => s | UB => l_init dj lw_ej lw_d end.
Definition lw_h : list (lop dbl * ret dbl) := match l_play dj lw_ej lw_d (l_init dj lw_ej lw_d) lw_ops with Ok (_, h) => h | UB => [] end.
Example C63_linear_instance : SpecLMPC.reached dj lw_ej lw_d lw_s lw_h /\
  match l_step dj lw_ej lw_d lw_s (LOptimize (dvec [s1]) (dvec [s0]) (ASolution (fun k => dz (Z.of_nat k)) (fun _ => s0) 1 (Fin S754_nan))) with
  | Ok (_, RResult r) => ent (r_cmd r) 0 0 = dz 3 | _ => False end.
Proof.
  split; [|vm_compute; reflexivity]. exists lw_ops. refine (conj _ (conj _ _)); [all_sized|all_proper|].
  unfold lw_s, lw_h. destruct (l_play dj lw_ej lw_d (l_init dj lw_ej lw_d) lw_ops) as [[s h]|] eqn:E; [reflexivity|].
  apply (f_equal (fun o => match o with UB => true | _ => false end)) in E. vm_compute in E. discriminate E.
Qed.
Print Assumptions C63_commands. Print Assumptions C63_states. Print Assumptions C63_linear_copies. Print Assumptions C63_state_scale_not_exact_refuted. Print Assumptions C63_callbacks_memory_safe.
