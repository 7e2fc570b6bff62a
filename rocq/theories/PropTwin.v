(** Property C65: given the same problem, the linear and the non-linear controller compute the same commands (vocabulary: SpecTwin.v). *)
From Coq Require Import Bool Arith ZArith List Lia QArith Qcanon Ring Field.
From Verif Require Import Scalar Sums Mat Slice Builder BuilderEnt LMPC SpecLMPC SpecQP LMPCRef LQP LUniq PropLMPC1 PropLMPC2 PropLMPC3 PropLMPC4 NLMap NLFun SpecNL NLMPC SpecNLC SpecNLP SpecNLO PropNL1 PropNL6 SpecTwin Wit WitNL.
Import ListNotations.
Local Open Scope nat_scope.

Section Twin.
  Context {F : Type} {SO : ScalarOps F} {SL : ScalarLaws F}.
  Add Field SFtw : (@s_field F SO SL).
  Variables (junk : nat -> nat -> F) (ejunk : nat -> nat -> ext F) (dl dn : dims) (ni ne : nat) (dyn_eq : bool).
  Notation nx := (d_nx dl). Notation nu := (d_nu dl). Notation ny := (d_ny dl). Notation ph := (d_ph dl).
  Notation reached := (reached junk ejunk dl). Notation nreached := (nreached junk dn ni ne dyn_eq). Notation ncf := (ncfg_run dn ni ne).
  Implicit Types (p : plant F) (X U : nat -> nat -> F).

  (** the same trajectories *)
  Theorem C65_same_trajectories p c k x0 u0 X U : 0 < ph -> twin dl dn ni ne p c k (vec x0) u0 ->
    nl_admissible dn ni ne k x0 exactly X U <->
    admissible dl p c (vec x0) u0 X U /\ forall j, j < nu -> U ph j = U (ph - 1) j.
  Proof.
    intros P T. rewrite C53_unit_scales by (rewrite ?(tw_nx _ _ _ _ _ _ _ _ _ T), ?(tw_nu _ _ _ _ _ _ _ _ _ T); apply T).
    rewrite (tw_nx _ _ _ _ _ _ _ _ _ T), (tw_nu _ _ _ _ _ _ _ _ _ T), (tw_ph _ _ _ _ _ _ _ _ _ T).
    destruct (tw_dyn _ _ _ _ _ _ _ _ _ T) as (f & Hf & Ff). rewrite (tw_ts _ _ _ _ _ _ _ _ _ T).
    assert (EC : forall i, held dn i = Nat.min i (Nat.min (ph - 1) (d_ch dl))) by (intros i; unfold held; rewrite (tw_ch _ _ _ _ _ _ _ _ _ T); lia).
    assert (DY : forall i l, i < ph -> l < nx -> predicted dn f None X U i l =
      (ssum nx (fun a => pl_A p l a * X i a) + ssum nu (fun a => pl_B p l a * U i a) + ssum (d_ndu dl) (fun a => g_Bd c l a * g_d c i a))%S).
    { intros i l Hi Hl. unfold predicted, traj_row. rewrite (tw_nx _ _ _ _ _ _ _ _ _ T), (tw_nu _ _ _ _ _ _ _ _ _ T). now apply Ff. }
    split.
    - intros (A1 & A2 & A3 & A4 & A5 & A6 & A7). pose proof (proj1 (tw_user _ _ _ _ _ _ _ _ _ T X U) (conj A6 A7)) as [OY OS]. split.
      + refine (conj (conj A1 _) (conj _ (conj OY (conj _ (conj _ OS))))).
        * intros i l Hi Hl. rewrite (A5 f Hf i l Hi Hl). now apply DY.
        * intros i j Hi Hj. destruct i as [|i]; cbn [stp Nat.pred].
          -- rewrite A1 by exact Hj. now apply (tw_x0 _ _ _ _ _ _ _ _ _ T).
          -- specialize (A3 i j Hi Hj). rewrite (tw_xlo _ _ _ _ _ _ _ _ _ T), (tw_xhi _ _ _ _ _ _ _ _ _ T), Nat.add_1_r in A3 by assumption. exact A3.
        * intros i j Hi Hj. destruct i as [|i]; cbn [ucmd Nat.min].
          -- now apply (tw_u0 _ _ _ _ _ _ _ _ _ T).
          -- specialize (A4 (held dn i) j). rewrite <- (tw_ulo _ _ _ _ _ _ _ _ _ T i j Hi Hj), <- (tw_uhi _ _ _ _ _ _ _ _ _ T i j Hi Hj), <- (A2 i j ltac:(lia) Hj), Nat.add_1_r in A4.
             apply A4; [rewrite (tw_ch _ _ _ _ _ _ _ _ _ T); unfold held; rewrite (tw_ch _ _ _ _ _ _ _ _ _ T); lia|exact Hj].
        * intros i j Hc Hi Hj. destruct i as [|i]; [lia|]. cbn [ucmd]. rewrite (A2 (S i) j) by (lia || exact Hj). rewrite (A2 i j) by (lia || exact Hj). rewrite !EC. f_equal. lia.
      + intros j Hj. rewrite (A2 ph j), (A2 (ph - 1) j) by (lia || exact Hj). rewrite !EC. f_equal. lia.
    - intros (((A1 & A5) & A3 & OY & A4 & A2 & OS) & E). destruct (proj2 (tw_user _ _ _ _ _ _ _ _ _ T X U) (conj OY OS)) as [A6 A7].
      refine (conj A1 (conj _ (conj _ (conj _ (conj _ (conj A6 A7)))))).
      + assert (G : forall n i j, i = n -> i < ph -> j < nu -> U i j = U (held dn i) j).
        { induction n as [|n IH]; intros i j -> Hi Hj; [rewrite EC; reflexivity|].
          destruct (le_lt_dec (S n) (d_ch dl)) as [L|L]; [rewrite EC; f_equal; lia|].
          rewrite (A2 (S n) j L Hi Hj). cbn [ucmd]. rewrite (IH n j eq_refl) by (lia || exact Hj). rewrite !EC. f_equal. lia. }
        intros i j Hi Hj. destruct (Nat.eq_dec i ph) as [->|N].
        * rewrite (E j Hj), (G _ (ph - 1) j eq_refl) by (lia || exact Hj). rewrite !EC. f_equal. lia.
        * apply (G i i j eq_refl); [lia|exact Hj].
      + intros i j Hi Hj. rewrite (tw_xlo _ _ _ _ _ _ _ _ _ T), (tw_xhi _ _ _ _ _ _ _ _ _ T), Nat.add_1_r by assumption. exact (A3 (S i) j ltac:(lia) Hj).
      + intros i j Hi Hj. rewrite (tw_ch _ _ _ _ _ _ _ _ _ T) in Hi. specialize (A4 (S i) j ltac:(lia) Hj). cbn [ucmd] in A4.
        replace (S i) with (i + 1) in A4 by lia. rewrite (tw_ulo _ _ _ _ _ _ _ _ _ T i j ltac:(lia) Hj), (tw_uhi _ _ _ _ _ _ _ _ _ T i j ltac:(lia) Hj) in A4.
        replace (held dn i) with i in A4 by (rewrite EC; lia). exact A4.
      + intros f' Hf' i l Hi Hl. rewrite Hf in Hf'. injection Hf' as <-. rewrite DY by assumption. now apply A5.
  Qed.
  Lemma cost_ext p c um X X' U U' : 0 < ph -> (forall i a, i < ph + 1 -> a < nx -> X i a = X' i a) -> (forall i a, i < ph -> a < nu -> U i a = U' i a) ->
    tracking_cost dl p c um X U = tracking_cost dl p c um X' U'.
  Proof. intros P EX EU. now apply tracking_ext. Qed.
  (** commands shown to the user's functions: the last one is repeated *)
  Definition extend U (i j : nat) : F := if i =? ph then U (ph - 1) j else U i j.
  Lemma extend_lt U i j : i < ph -> extend U i j = U i j.
  Proof. intros H. unfold extend. destruct (Nat.eqb_spec i ph); [lia|reflexivity]. Qed.
  Lemma adm_extend p c xx um X U : 0 < ph -> admissible dl p c xx um X U -> admissible dl p c xx um X (extend U) /\ (forall j, j < nu -> extend U ph j = extend U (ph - 1) j).
  Proof.
    intros P A. split.
    - eapply admissible_ext; [exact P| | |exact A]; intros; [reflexivity|symmetry; now apply extend_lt].
    - intros j Hj. rewrite (extend_lt _ (ph - 1)) by lia. unfold extend. now rewrite Nat.eqb_refl.
  Qed.

  (** what the non-linear controller returns solves the linear controller's problem *)
  Theorem C65_nonlinear_solves_the_linear_problem s h p c x0 u0 zn code cost s' r :
    0 < ph -> nreached s h -> twin dl dn ni ne p c (ncf h) (vec x0) (vec u0) -> all_accepted (ncf h) -> gm x0 nx 1 ->
    nlp_optimal dn exactly (n_call junk dn ni ne s x0 u0) zn ->
    n_step junk dn ni ne dyn_eq s (NOptimize x0 u0 (NSolved (dvar zn) code cost)) = Ok (s', r) ->
    let X := ent (q_state (n_seq s')) in let U := ent (q_input (n_seq s')) in
    admissible dl p c (vec x0) (vec u0) X U /\
    (forall X' U', admissible dl p c (vec x0) (vec u0) X' U' -> (tracking_cost dl p c (vec u0) X U <= tracking_cost dl p c (vec u0) X' U')%S) /\
    (forall j, j < nu -> U ph j = U (ph - 1) j) /\
    exists res, r = RResult res /\ forall j, j < nu -> vec (r_cmd res) j = U 0 j.
  Proof.
    intros P Hr T A G O E X U. destruct (tw_obj _ _ _ _ _ _ _ _ _ T) as (J & HJ & EJ).
    assert (N1 : (s1 : F) <> s0) by apply (F_1_neq_0 s_field).
    assert (C0 : 0 < d_ch dn) by (rewrite (tw_ch _ _ _ _ _ _ _ _ _ T); lia).
    assert (C : d_ch dn <= d_ph dn) by (rewrite (tw_ch _ _ _ _ _ _ _ _ _ T), (tw_ph _ _ _ _ _ _ _ _ _ T); lia).
    destruct (C53_optimality_transfer junk dn ni ne dyn_eq C0 C s h x0 u0 exactly zn J code cost s' r Hr) as (Ad & Op & res & Er & Ec); try assumption.
    - now rewrite (tw_nx _ _ _ _ _ _ _ _ _ T).
    - intros j Hj. rewrite (tw_nx _ _ _ _ _ _ _ _ _ T) in Hj. rewrite (tw_sx _ _ _ _ _ _ _ _ _ T j Hj). exact N1.
    - intros j Hj. rewrite (tw_nu _ _ _ _ _ _ _ _ _ T) in Hj. rewrite (tw_su _ _ _ _ _ _ _ _ _ T j Hj). exact N1.
    - apply (C65_same_trajectories p c (ncf h) x0 (vec u0) X U P T) in Ad as [Ad EU]. refine (conj Ad (conj _ (conj EU _))).
      + intros X' U' A'. destruct (adm_extend p c (vec x0) (vec u0) X' U' P A') as [A2 E2].
        specialize (Op X' (extend U') (proj2 (C65_same_trajectories p c (ncf h) x0 (vec u0) X' (extend U') P T) (conj A2 E2))).
        rewrite !EJ in Op. rewrite (cost_ext p c (vec u0) X' X' (extend U') U') in Op; [exact Op|exact P|reflexivity|intros; now apply extend_lt].
      + exists res. refine (conj Er _). intros j Hj. apply Ec. now rewrite (tw_nu _ _ _ _ _ _ _ _ _ T).
  Qed.
  (** one problem has an optimum exactly when the other has *)
  Theorem C65_same_solvability sl hl sn hn p x0 u0 :
    0 < ph -> reached sl hl -> g_plant (cfg_run hl) = Some p -> nreached sn hn ->
    twin dl dn ni ne p (cfg_run hl) (ncf hn) (vec x0) (vec u0) -> all_accepted (ncf hn) -> gm x0 nx 1 -> sized u0 nu 1 ->
    (exists z, qp_optimal (l_call dl sl x0 u0) z) <-> (exists zn, nlp_optimal dn exactly (n_call junk dn ni ne sn x0 u0) zn).
  Proof.
    intros P Hl Hp Hn T A G Su. assert (Sx : sized x0 nx 1) by (destruct G as (? & ? & ?); split; assumption).
    destruct (tw_obj _ _ _ _ _ _ _ _ _ T) as (J & HJ & EJ).
    assert (N1 : (s1 : F) <> s0) by apply (F_1_neq_0 s_field).
    assert (C0 : 0 < d_ch dn) by (rewrite (tw_ch _ _ _ _ _ _ _ _ _ T); lia).
    assert (C : d_ch dn <= d_ph dn) by (rewrite (tw_ch _ _ _ _ _ _ _ _ _ T), (tw_ph _ _ _ _ _ _ _ _ _ T); lia).
    assert (Scx : scaled dn (ncf hn)) by (intros j Hj; rewrite (tw_nx _ _ _ _ _ _ _ _ _ T) in Hj; rewrite (tw_sx _ _ _ _ _ _ _ _ _ T j Hj); exact N1).
    assert (Scu : forall j, j < d_nu dn -> k_su (ncf hn) j <> s0) by (intros j Hj; rewrite (tw_nu _ _ _ _ _ _ _ _ _ T) in Hj; rewrite (tw_su _ _ _ _ _ _ _ _ _ T j Hj); exact N1).
    assert (Gn : gm x0 (d_nx dn) 1) by (rewrite (tw_nx _ _ _ _ _ _ _ _ _ T); exact G).
    split.
    - intros (z & O). destruct (C15_optimality_transfer junk ejunk dl sl hl p x0 u0 z P Hl Hp Sx Su O) as [Ad Op].
      destruct (adm_extend _ _ _ _ _ _ P Ad) as [Ad2 E2].
      destruct (C53_converse junk dn ni ne dyn_eq C0 C sn hn x0 u0 exactly (z_state dl z) (extend (z_cmd dl z)) J Hn Gn Scx Scu A HJ) as (zn & On & _); [| |exists zn; exact On].
      + apply (C65_same_trajectories p (cfg_run hl) (ncf hn) x0 (vec u0) _ _ P T). split; assumption.
      + intros X' U' A'. rewrite !EJ. apply (C65_same_trajectories p (cfg_run hl) (ncf hn) x0 (vec u0) _ _ P T) in A' as [A' _].
        rewrite (cost_ext p _ (vec u0) (z_state dl z) (z_state dl z) (extend (z_cmd dl z)) (z_cmd dl z)); [now apply Op|exact P|reflexivity|intros; now apply extend_lt].
    - intros (zn & On).
      destruct (C53_trajectory_optimal junk dn ni ne dyn_eq C0 C sn hn x0 u0 exactly zn J Hn Gn Scx Scu A HJ On) as [Ad Op].
      apply (C65_same_trajectories p (cfg_run hl) (ncf hn) x0 (vec u0) _ _ P T) in Ad as [Ad _].
      eexists. apply (C15_converse junk ejunk dl sl hl p x0 u0 _ _ P Hl Hp Sx Su Ad).
      intros X' U' A'. destruct (adm_extend _ _ _ _ X' U' P A') as [A2 E2].
      specialize (Op X' (extend U') (proj2 (C65_same_trajectories p (cfg_run hl) (ncf hn) x0 (vec u0) X' (extend U') P T) (conj A2 E2))).
      rewrite !EJ in Op. rewrite (cost_ext p _ (vec u0) X' X' (extend U') U') in Op; [exact Op|exact P|reflexivity|intros; now apply extend_lt].
  Qed.
  (** with positive weights both controllers return the same command and the same predicted sequences *)
  Theorem C65_same_commands sl hl sn hn p x0 u0 z y lcode lobj sl' rl zn ncode ncost sn' rn :
    0 < ph -> reached sl hl -> g_plant (cfg_run hl) = Some p -> nreached sn hn ->
    twin dl dn ni ne p (cfg_run hl) (ncf hn) (vec x0) (vec u0) -> all_accepted (ncf hn) -> gm x0 nx 1 -> sized u0 nu 1 ->
    weights_nonneg dl (cfg_run hl) -> commands_weighted dl (cfg_run hl) ->
    qp_optimal (l_call dl sl x0 u0) z -> nlp_optimal dn exactly (n_call junk dn ni ne sn x0 u0) zn ->
    l_step junk ejunk dl sl (LOptimize x0 u0 (ASolution z y lcode lobj)) = Ok (sl', RResult rl) ->
    n_step junk dn ni ne dyn_eq sn (NOptimize x0 u0 (NSolved (dvar zn) ncode ncost)) = Ok (sn', RResult rn) ->
    (forall j, j < nu -> vec (r_cmd rl) j = vec (r_cmd rn) j) /\
    (forall i j, i <= ph -> j < nx -> ent (q_state (o_seq (l_o sl'))) i j = ent (q_state (n_seq sn')) i j) /\
    (forall i j, i <= ph -> j < nu -> ent (q_input (o_seq (l_o sl'))) i j = ent (q_input (n_seq sn')) i j) /\
    (forall i j, i <= ph -> j < ny -> ent (q_output (o_seq (l_o sl'))) i j = ent (q_output (n_seq sn')) i j).
  Proof.
    intros P Hl Hp Hn T A G Su (Wy & Wu & Wd) W O On El En. assert (Sx : sized x0 nx 1) by (destruct G as (? & ? & ?); split; assumption).
    destruct (C15_optimality_transfer junk ejunk dl sl hl p x0 u0 z P Hl Hp Sx Su O) as [Al Ol].
    destruct (C65_nonlinear_solves_the_linear_problem sn hn p (cfg_run hl) x0 u0 zn ncode ncost sn' _ P Hn T A G On En) as (An & Opn & EU & res & Er & Ec).
    injection Er as <-.
    destruct (optimum_unique dl p (cfg_run hl) (vec x0) (vec u0) Wy Wu Wd P W _ _ _ _ Al An Ol Opn) as [UU XX].
    destruct (C14_sequences junk ejunk dl sl hl p x0 u0 z y lcode lobj sl' _ P Hl Hp Sx Su El) as (res1 & Er1 & A1 & A2 & A3 & A4 & A5 & _).
    injection Er1 as <-.
    assert (C0 : 0 < d_ch dn) by (rewrite (tw_ch _ _ _ _ _ _ _ _ _ T); lia).
    assert (C : d_ch dn <= d_ph dn) by (rewrite (tw_ch _ _ _ _ _ _ _ _ _ T), (tw_ph _ _ _ _ _ _ _ _ _ T); lia).
    assert (XS : forall i j, i <= ph -> j < nx -> ent (q_state (o_seq (l_o sl'))) i j = ent (q_state (n_seq sn')) i j) by (intros; rewrite A1 by assumption; now apply XX).
    refine (conj _ (conj XS (conj _ _))).
    - intros j Hj. rewrite A5, A2, Ec by (assumption || lia). now apply UU.
    - intros i j Hi Hj. destruct (Nat.eq_dec i ph) as [->|N].
      + rewrite A3, EU by exact Hj. apply UU; [lia|exact Hj].
      + rewrite A2 by (exact Hj || lia). apply UU; [lia|exact Hj].
    - intros i j Hi Hj. rewrite A4 by assumption.
      destruct (C42_outputs junk dn ni ne dyn_eq sn hn x0 u0 (dvar zn) ncode ncost sn' (RResult rn) C0 C Hn) as [_ Y]; try exact En.
      + now rewrite (tw_nx _ _ _ _ _ _ _ _ _ T).
      + intros a Ha. rewrite (tw_nx _ _ _ _ _ _ _ _ _ T) in Ha. rewrite (tw_sx _ _ _ _ _ _ _ _ _ T a Ha). apply (F_1_neq_0 s_field).
      + rewrite (tw_nx _ _ _ _ _ _ _ _ _ T), (tw_nu _ _ _ _ _ _ _ _ _ T), (tw_ny _ _ _ _ _ _ _ _ _ T), (tw_ph _ _ _ _ _ _ _ _ _ T) in Y.
        rewrite Y by assumption. destruct (tw_out _ _ _ _ _ _ _ _ _ T) as (g & -> & Eg). rewrite Eg by assumption.
        unfold output. f_equal. apply ssum_ext. intros l Hl'. now rewrite XS.
  Qed.
  Lemma sub_le0 (a b : F) : (a - b <= s0)%S <-> (a <= b)%S.
  Proof.
    split; intros H; apply sle_sub_0; [replace (b - a)%S with (s0 - (a - b))%S by ring|replace (s0 - (a - b))%S with (b - a)%S by ring]; now apply (proj1 (sle_sub_0 _ _)).
  Qed.
  Lemma lin1 (A B x u : nat -> F) : A 0 = (s1 : F) -> B 0 = (s1 : F) -> (x 0%nat + u 0%nat)%S = (ssum 1 (fun a => A a * x a) + ssum 1 (fun a => B a * u a))%S.
  Proof. intros EA EB. cbn [ssum]. rewrite EA, EB. ring. Qed.
End Twin.

(** *** Instance: plant x+ = x + u + d, y = x + d, horizon 3, LMPC control horizon 1 (NLMPC: 2); output bounds written as user inequalities *)
Local Notation one := (qm 1 1 [[1%Z]]).
Definition t_dl : dims := mkDims 1 1 1 1 3 1.
Definition t_dn : dims := mkDims 1 1 0 1 3 2.
Definition t_lops : list (lop Qc) :=
  [ LSetModel one one one; LSetDisturbances one one; LSetStateBounds (qe [-8]%Z) (qe [8]%Z) slice_all; LSetOutputBounds (qe [-9]%Z) (qe [9]%Z) slice_all;
    LSetWeights (qv [1]%Z) (qv [0]%Z) (qv [1]%Z) slice_all; LSetRefs (qv [3]%Z) (qv [5]%Z) (qv [0]%Z) slice_all; LSetExo (qv [1]%Z) slice_all ].
Definition t_lh := wH t_dl t_lops.
Definition t_ls := wS t_dl t_lops.
Local Notation t_p := (wp t_lh).
Local Notation t_c := (cfg_run t_lh).
Definition t_x0 : mat Qc := qv [2]%Z.
Definition t_u0 : mat Qc := qv [-1]%Z.
Definition t_f : dyn_t Qc := fun x u k l =>
  (ssum 1 (fun a => pl_A t_p l a * nth a x s0) + ssum 1 (fun a => pl_B t_p l a * nth a u s0) + ssum 1 (fun a => g_Bd t_c l a * g_d t_c k a))%S.
Definition t_g : out_t Qc := fun x u k l => (ssum 1 (fun a => pl_C t_p l a * nth a x s0) + ssum 1 (fun a => g_Dd t_c l a * g_d t_c (Nat.pred k) a))%S.
Definition t_J : obj_t Qc := fun X Y U e => tracking_cost t_dl t_p t_c (vec t_u0) (at2 X) (at2 U).
Definition t_ci : ieq_t Qc := fun X Y U e k => if k <? 4 then (at2 Y k 0 - q 9)%S else (q (-9) - at2 Y (k - 4) 0)%S.
Definition t_nops : list (nop Qc) :=
  [NSetObjective t_J true; NSetDynamics t_f (q 0) true; NSetOutput t_g; NSetIneq t_ci (q 0) true; NSetStateBounds (qe [-8]%Z) (qe [8]%Z) (mkSlice (-1) (-1))].
Definition t_ns := nS t_dn 8 0 t_nops.
Definition t_nh := nH t_dn 8 0 t_nops.
Definition t_k : ncfg Qc := ncfg_run t_dn 8 0 t_nh.
Lemma t_lreached : reached qj qej t_dl t_ls t_lh. Proof. w_reach. Qed.
Lemma t_plant : g_plant t_c = Some t_p. Proof. apply w_plant. vm_compute. reflexivity. Qed.
Lemma t_nreached : nreached qj t_dn 8 0 false t_ns t_nh. Proof. n_reach. Qed.
Ltac three_steps k Hk := destruct k as [|[|[|k]]]; [| | |cbn in Hk; lia].
Lemma t_weights : weights_nonneg t_dl t_c.
Proof. refine (conj _ (conj _ _)); intros k j Hk Hj; three_steps k Hk; one_row j Hj; vm_compute; reflexivity. Qed.
Lemma t_weighted : commands_weighted t_dl t_c.
Proof. intros k j Hk Hj. right; left. three_steps k Hk; one_row j Hj; vm_compute; reflexivity. Qed.
Lemma t_rest : rest_point t_dl t_p t_c (vec t_x0) (vec t_u0).
Proof.
  refine (conj _ (conj _ (conj _ (conj _ (conj _ (conj _ (conj _ _))))))).
  - intros k j Hk Hj; three_steps k Hk; one_row j Hj; apply qc_eq; vm_compute; reflexivity.
  - intros k j Hk Hj; right; three_steps k Hk; one_row j Hj; apply qc_eq; vm_compute; reflexivity.
  - intros k j Hk Hj; left; three_steps k Hk; one_row j Hj; apply qc_eq; vm_compute; reflexivity.
  - intros k j Hk Hj; right; three_steps k Hk; one_row j Hj; apply qc_eq; vm_compute; reflexivity.
  - intros k j Hk Hj; three_steps k Hk; one_row j Hj; apply within_b_ok; vm_compute; reflexivity.
  - intros k j Hk Hj; three_steps k Hk; one_row j Hj; apply within_b_ok; vm_compute; reflexivity.
  - intros k j Hk Hj; three_steps k Hk; one_row j Hj; apply within_b_ok; vm_compute; reflexivity.
  - intros k Hk; three_steps k Hk; apply within_b_ok; vm_compute; reflexivity.
Qed.
Definition t_z : nat -> Qc := z_of t_dl (vec t_u0) (fun _ => vec t_x0) (fun _ => vec t_u0).
Lemma t_optimal : qp_optimal (l_call t_dl t_ls t_x0 t_u0) t_z.
Proof.
  exact (C55_rest_is_optimal qj qej t_dl t_ls t_lh t_p t_x0 t_u0 ltac:(cbn; lia) t_lreached t_plant ltac:(repeat split) ltac:(repeat split) t_weights t_rest).
Qed.
Lemma t_funs : k_obj t_k = Some t_J /\ k_dyn t_k = Some t_f /\ k_ieq t_k = Some t_ci /\ k_eqc t_k = None /\ k_ts t_k = None /\ k_out t_k = Some t_g.
Proof. repeat split. Qed.
Lemma t_acc : all_accepted t_k.
Proof. refine (conj _ (conj _ (conj _ _))); intros N; [apply con_in_ok|apply con_in_ok|exfalso; apply N; exact (proj1 (proj2 (proj2 (proj2 t_funs))))|]; vm_compute; reflexivity. Qed.
Lemma nth_map_seq (x : nat -> Qc) n a : a < n -> nth a (map x (seq 0 n)) s0 = x a.
Proof. intros H. rewrite (nth_indep _ _ (x 0)) by (rewrite map_length, seq_length; exact H). rewrite map_nth, seq_nth by exact H. reflexivity. Qed.
Lemma at2_tab n k (X : nat -> nat -> Qc) i j : i < n -> j < k -> at2 (tab n k X) i j = X i j.
Proof.
  intros Hi Hj. unfold at2, tab.
  rewrite (nth_indep _ _ ((fun i => map (X i) (seq 0 k)) 0)) by (rewrite map_length, seq_length; exact Hi).
  rewrite (map_nth (fun i => map (X i) (seq 0 k))), seq_nth by exact Hi. exact (nth_map_seq (X i) k j Hj).
Qed.
Lemma t_traj_x (X : nat -> nat -> Qc) i : traj_row (d_nx t_dn) X i = map (X i) (seq 0 1). Proof. reflexivity. Qed.
Lemma t_out X U i k : i <= 3 -> k < 1 -> out_traj t_dn (k_out t_k) X U i k = output t_dl t_p t_c X i k.
Proof.
  intros Hi Hk. rewrite (proj2 (proj2 (proj2 (proj2 (proj2 t_funs))))). unfold out_traj, t_g. rewrite t_traj_x. unfold output. change (d_nx t_dl) with 1. change (d_ndu t_dl) with 1.
  f_equal; apply ssum_ext; intros a Ha; now rewrite nth_map_seq.
Qed.
Lemma t_ylo i : i <= 3 -> g_ylo t_c (stp i) 0 = Fin (q (-9)).
Proof. intros Hi. destruct i as [|[|[|[|i]]]]; [| | | |lia]; vm_compute; reflexivity. Qed.
Lemma t_yhi i : i <= 3 -> g_yhi t_c (stp i) 0 = Fin (q 9).
Proof. intros Hi. destruct i as [|[|[|[|i]]]]; [| | | |lia]; vm_compute; reflexivity. Qed.
Lemma t_slo i : i <= 3 -> g_slo t_c (stp i) = MInf.
Proof. intros Hi. destruct i as [|[|[|[|i]]]]; [| | | |lia]; vm_compute; reflexivity. Qed.
Lemma t_shi i : i <= 3 -> g_shi t_c (stp i) = PInf.
Proof. intros Hi. destruct i as [|[|[|[|i]]]]; [| | | |lia]; vm_compute; reflexivity. Qed.
Lemma t_ieq X U k : k < 8 -> ieq_at t_dn t_ci (k_out t_k) k X U s0 =
  if k <? 4 then (output t_dl t_p t_c X k 0 - q 9)%S else (q (-9) - output t_dl t_p t_c X (k - 4) 0)%S.
Proof.
  intros Hk. unfold ieq_at, t_ci. change (d_ph t_dn + 1) with 4. change (d_ny t_dn) with 1.
  destruct (Nat.ltb_spec k 4); rewrite at2_tab by lia; rewrite t_out by lia; reflexivity.
Qed.
Lemma t_twin : twin t_dl t_dn 8 0 t_p t_c t_k (vec t_x0) (vec t_u0).
Proof.
  pose proof t_funs as (FJ & Ff & Fi & Fe & Ft & Fo). split; try reflexivity.
  - exists t_f. refine (conj Ff _). intros i l x u Hi Hl. unfold t_f. change (d_nx t_dl) with 1. change (d_nu t_dl) with 1. change (d_ndu t_dl) with 1.
    f_equal; f_equal; apply ssum_ext; intros a Ha; now rewrite nth_map_seq.
  - exists t_g. refine (conj Fo _). intros i l x u Hi Hl. unfold t_g. change (d_nx t_dl) with 1. change (d_nu t_dl) with 1. change (d_ndu t_dl) with 1.
    f_equal; apply ssum_ext; intros a Ha; now rewrite nth_map_seq.
  - exists t_J. refine (conj FJ _). intros X U. unfold nl_cost, obj_at, t_J. apply tracking_ext; [cbn; lia| |]; intros i a Hi Ha; apply at2_tab; cbn in *; lia.
  - intros i j Hi Hj. three_steps i Hi; one_row j Hj; vm_compute; reflexivity.
  - intros i j Hi Hj. three_steps i Hi; one_row j Hj; vm_compute; reflexivity.
  - intros j Hj. one_row j Hj. apply within_b_ok. vm_compute. reflexivity.
  - intros j Hj. one_row j Hj. apply within_b_ok. vm_compute. reflexivity.
  - intros X U. unfold user_constraints. rewrite Fi, Fe. split.
    + intros [H _]. specialize (H t_ci eq_refl). split.
      * intros i j Hi Hj. one_row j Hj. change (d_ph t_dl) with 3 in Hi. rewrite (t_ylo i Hi), (t_yhi i Hi).
        pose proof (H i ltac:(lia)) as H1. pose proof (H (i + 4) ltac:(lia)) as H2. rewrite t_ieq in H1, H2 by lia.
        destruct (Nat.ltb_spec i 4); [|lia]. destruct (Nat.ltb_spec (i + 4) 4); [lia|]. replace (i + 4 - 4) with i in H2 by lia.
        apply (proj1 (sub_le0 _ _)) in H1. apply (proj1 (sub_le0 _ _)) in H2. split; [exact H2|exact H1].
      * intros i Hi. change (d_ph t_dl) with 3 in Hi. rewrite (t_slo i Hi), (t_shi i Hi). split; exact I.
    + intros [HY _]. split; [|intros f E; discriminate E]. intros f E. injection E as <-. intros r Hr. rewrite t_ieq by exact Hr.
      destruct (Nat.ltb_spec r 4); apply (proj2 (sub_le0 _ _)).
      * specialize (HY r 0 ltac:(cbn; lia) ltac:(cbn; lia)). rewrite (t_yhi r ltac:(lia)) in HY. exact (proj2 HY).
      * specialize (HY (r - 4) 0 ltac:(cbn; lia) ltac:(cbn; lia)). rewrite (t_ylo (r - 4) ltac:(lia)) in HY. exact (proj1 HY).
Qed.
Example C65_instance : 0 < d_ph t_dl /\ reached qj qej t_dl t_ls t_lh /\ g_plant t_c = Some t_p /\ nreached qj t_dn 8 0 false t_ns t_nh /\
  twin t_dl t_dn 8 0 t_p t_c t_k (vec t_x0) (vec t_u0) /\ all_accepted t_k /\ gm t_x0 1 1 /\ sized t_u0 1 1 /\
  weights_nonneg t_dl t_c /\ commands_weighted t_dl t_c /\ qp_optimal (l_call t_dl t_ls t_x0 t_u0) t_z /\
  (exists zn, nlp_optimal t_dn exactly (n_call qj t_dn 8 0 t_ns t_x0 t_u0) zn).
Proof.
  assert (P : 0 < d_ph t_dl) by (cbn; lia). assert (G : gm t_x0 1 1) by (repeat split). assert (Su : sized t_u0 1 1) by (repeat split).
  refine (conj P (conj t_lreached (conj t_plant (conj t_nreached (conj t_twin (conj t_acc (conj G (conj Su (conj t_weights (conj t_weighted (conj t_optimal _))))))))))).
  apply (C65_same_solvability qj qej t_dl t_dn 8 0 false t_ls t_lh t_ns t_nh t_p t_x0 t_u0 P t_lreached t_plant t_nreached t_twin t_acc G Su). exists t_z. exact t_optimal.
Qed.

(** FINDING: with the same control horizon (below the prediction horizon) the two controllers do not accept the same trajectories, all else equal *)
Definition v_d : dims := mkDims 1 1 0 1 2 1.
Definition v_lops : list (lop Qc) := [ LSetModel one one one ].
Definition v_lh := wH v_d v_lops.
Definition v_f : dyn_t Qc := fun x u k l => (nth 0 x s0 + nth 0 u s0)%S.
Definition v_nops : list (nop Qc) := [NSetDynamics v_f (q 0) true].
Definition v_nh := nH v_d 0 0 v_nops.
Theorem C65_same_control_horizon_refuted :
  ~ (forall d sl hl sn hn p (x0 u0 : mat Qc) f X U, 0 < d_ch d -> d_ch d <= d_ph d -> reached qj qej d sl hl -> g_plant (cfg_run hl) = Some p ->
       nreached qj d 0 0 false sn hn -> hl <> [] ->
       k_ts (ncfg_run d 0 0 hn) = None -> k_dyn (ncfg_run d 0 0 hn) = Some f -> k_ieq (ncfg_run d 0 0 hn) = None -> k_eqc (ncfg_run d 0 0 hn) = None ->
       (forall j, k_sx (ncfg_run d 0 0 hn) j = s1) -> (forall j, k_su (ncfg_run d 0 0 hn) j = s1) ->
       (forall i l x u, l < d_nx d -> f (map x (seq 0 (d_nx d))) (map u (seq 0 (d_nu d))) i l =
          (ssum (d_nx d) (fun a => pl_A p l a * x a) + ssum (d_nu d) (fun a => pl_B p l a * u a))%S) -> d_ndu d = 0 ->
       gm x0 (d_nx d) 1 -> sized u0 (d_nu d) 1 -> (forall j, U (d_ph d) j = U (d_ph d - 1)%nat j) ->
       (* no bounds were set on either side *)
       (forall op r, In (op, r) hl -> exists A B C, op = LSetModel A B C) ->
       (forall i j, k_xlo (ncfg_run d 0 0 hn) i j = MInf /\ k_xhi (ncfg_run d 0 0 hn) i j = PInf /\ k_ulo (ncfg_run d 0 0 hn) i j = MInf /\ k_uhi (ncfg_run d 0 0 hn) i j = PInf) ->
       admissible d p (cfg_run hl) (vec x0) (vec u0) X U -> nl_admissible d 0 0 (ncfg_run d 0 0 hn) x0 exactly X U).
Proof.
  intros H.
  assert (Rl : reached qj qej v_d (wS v_d v_lops) v_lh) by w_reach.
  assert (Rn : nreached qj v_d 0 0 false (nS v_d 0 0 v_nops) v_nh) by n_reach.
  specialize (H v_d (wS v_d v_lops) v_lh (nS v_d 0 0 v_nops) v_nh (wp v_lh) (qv [0]%Z) (qv [0]%Z) v_f (fun i _ => qf [0; 0; 1]%Z i) (fun i _ => qf [0; 1; 1]%Z i)
    ltac:(cbn; lia) ltac:(cbn; lia) Rl).
  destruct H as (_ & H2 & _).
  - apply w_plant. vm_compute. reflexivity.
  - exact Rn.
  - intros E. apply (f_equal (@length _)) in E. vm_compute in E. discriminate E.
  - reflexivity.
  - reflexivity.
  - reflexivity.
  - reflexivity.
  - intros j. reflexivity.
  - intros j. reflexivity.
  - intros i l x u Hl. one_row l Hl. assert (EA : pl_A (wp v_lh) 0 0 = s1) by (vm_compute; reflexivity). assert (EB : pl_B (wp v_lh) 0 0 = s1) by (vm_compute; reflexivity).
    exact (lin1 (pl_A (wp v_lh) 0) (pl_B (wp v_lh) 0) x u EA EB).
  - reflexivity.
  - repeat split.
  - repeat split.
  - intros j. reflexivity.
  - intros op r [E|[]]. injection E as <- _. eauto.
  - intros i j. repeat split.
  - refine (conj (conj _ _) (conj _ (conj _ (conj _ (conj _ _))))).
    + intros j Hj. one_row j Hj. reflexivity.
    + intros k j Hk Hj. two_steps k Hk; one_row j Hj; apply qc_eq; vm_compute; reflexivity.
    + intros i j Hi Hj. split; exact I.
    + intros i j Hi Hj. split; exact I.
    + intros i j Hi Hj. split; exact I.
    + intros i j H1 Hi. cbn in *. lia.
    + intros i Hi. split; exact I.
  - specialize (H2 1 0 ltac:(cbn; lia) ltac:(cbn; lia)). apply (f_equal (fun x => sleb x s0)) in H2. vm_compute in H2. discriminate H2.
Qed.
