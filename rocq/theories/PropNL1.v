(** Properties C21 - C24, C29, C42: trajectories, bounds, dynamics and feasibility of the non-linear controller.
    [nreached] (SpecNLC.v): any history of API calls and solver answers.  [ncfg_run d ni ne h] (SpecNLC.v): the configuration it means.
    [n_call]: what the solver observes.  Trajectory vocabulary: SpecNL.v, SpecNLP.v. *)
From Coq Require Import Bool Arith ZArith List Lia QArith Qcanon Ring Field.
From Verif Require Import Scalar Sums Mat Slice Builder BuilderEnt LMPC SpecLMPC NLMap NLTraj NLFun SpecNL NLLoop NLGrad NLEval NLMPC SpecNLC SpecNLP NLRef NLRun NLCall NLObs Wit WitNL.
Import ListNotations.
Local Open Scope nat_scope.

Section Stmts.
  Context {F : Type} {SO : ScalarOps F} {SL : ScalarLaws F}.
  Add Field SFpn : (@s_field F SO SL).
  Variables (junk : nat -> nat -> F) (d : dims) (ni ne : nat) (dyn_eq : bool).
  Notation nx := (d_nx d). Notation nu := (d_nu d). Notation ny := (d_ny d).
  Notation ph := (d_ph d). Notation ch := (d_ch d).
  Notation reached := (nreached junk d ni ne dyn_eq). Notation cf := (ncfg_run d ni ne).
  Notation step := (n_step junk d ni ne dyn_eq). Notation call := (n_call junk d ni ne).
  Implicit Types (s : nmpc F) (h : list (nop F * ret F)).

  (** *** C21 *)
  (** the cost the solver sees is the user's cost on the trajectories of SpecNLP.v (commands: one block per step of the control
      horizon, the last one held, times the input scale) *)
  Theorem C21_cost_sees_the_trajectories s h x0 u0 z ev :
    0 < ch -> ch <= ph -> reached s h -> gm x0 nx 1 -> scaled d (cf h) -> length z = n_dec d ->
    nc_obj (call s x0 u0) = Some ev ->
    exists f g, k_obj (cf h) = Some f /\ length g = n_dec d /\
      ev z = Ok (f (tab (ph + 1) nx (x_traj d (cf h) x0 (dvar z))) (tab (ph + 1) ny (y_traj d (cf h) x0 (dvar z)))
                   (tab (ph + 1) nu (fun i j => k_su (cf h) j * dvar z (ph * nx + (Nat.min i (ch - 1) * nu + j)))%S) (dvar z (v_slack d)), g).
  Proof.
    intros C0 C Hr G Sc Lz Ho. pose proof (nreached_NR junk d ni ne dyn_eq C0 C s h Hr) as H.
    destruct (call_obj junk d ni ne s _ x0 H u0 ev Ho) as [B ->].
    destruct (cfg_inv_run d ni ne h) as (I & _). destruct (k_obj (cf h)) as [f|] eqn:Hf; [|now specialize (I B)].
    destruct (obj_ev junk d C0 C s _ x0 H G Sc z Lz f Hf) as (g & E & L & _). exists f, g. auto.
  Qed.
  Theorem C21_constraints_see_the_trajectories s h x0 u0 z k tol ev :
    0 < ch -> ch <= ph -> reached s h -> gm x0 nx 1 -> scaled d (cf h) -> length z = n_dec d ->
    In (k, tol, ev) (nc_cons (call s x0 u0)) ->
    exists v g, ev z = Ok (v, g) /\ length v = length tol /\ length g = n_dec d * length tol /\
      forall r, r < length tol -> match k with
        | KIneq => exists f, k_ieq (cf h) = Some f /\ nth r v s0 = ieq_of d (cf h) x0 f r (dvar z)
        | KEq => exists f, k_eqc (cf h) = Some f /\ nth r v s0 = eqc_of d (cf h) x0 f r (dvar z)
        | KDyn => exists f, k_dyn (cf h) = Some f /\
            nth r v s0 = dyn_res d f (k_ts (cf h)) (k_sx (cf h)) (x_traj d (cf h) x0 (dvar z)) (u_traj d (cf h) (dvar z)) (r / nx) (r mod nx)
        end.
  Proof.
    intros C0 C Hr G Sc Lz Ho. pose proof (nreached_NR junk d ni ne dyn_eq C0 C s h Hr) as H.
    destruct (call_con junk d ni ne s _ x0 H u0 k tol ev Ho) as [I ->].
    destruct (cfg_inv_run d ni ne h) as (_ & I1 & I2 & I3). destruct k.
    - destruct (I1 _ I) as [K L]. destruct (k_dyn (cf h)) as [f|] eqn:Hf; [|congruence].
      destruct (dyn_ev junk d ni ne C0 C s _ x0 H G Sc z Lz f Hf) as (v & g & E & L1 & L2 & Ev & _). rewrite L. exists v, g.
      refine (conj E (conj L1 (conj L2 _))). intros r Hr'. exists f. split; [reflexivity|].
      destruct (blk_split r ph nx Hr') as (i & j & Hi & Hj & ->). destruct (divmod_unique i j nx Hj) as [-> ->]. now apply Ev.
    - destruct (I2 _ I) as [K L]. destruct (k_ieq (cf h)) as [f|] eqn:Hf; [|congruence].
      destruct (ieq_ev junk d ni ne C0 C s _ x0 H G Sc z Lz f Hf) as (v & g & E & L1 & L2 & Ev & _). rewrite L. exists v, g.
      refine (conj E (conj L1 (conj L2 _))). eauto.
    - destruct (I3 _ I) as [K L]. destruct (k_eqc (cf h)) as [f|] eqn:Hf; [|congruence].
      destruct (eqc_ev junk d ni ne C0 C s _ x0 H G Sc z Lz f Hf) as (v & g & E & L1 & L2 & Ev & _). rewrite L. exists v, g.
      refine (conj E (conj L1 (conj L2 _))). eauto.
  Qed.
  (** the returned commands *)
  Theorem C21_returned_commands s h x0 u0 z code cost s' r :
    0 < ch -> ch <= ph -> reached s h -> gm x0 nx 1 -> scaled d (cf h) ->
    step s (NOptimize x0 u0 (NSolved z code cost)) = Ok (s', r) ->
    exists res, r = RResult res /\ gm (r_cmd res) nu 1 /\ gm (q_input (n_seq s')) (ph + 1) nu /\
      (forall j, j < nu -> ent (r_cmd res) j 0 = (k_su (cf h) j * z (ph * nx + j)%nat)%S) /\
      (forall i j, i < ch -> j < nu -> ent (q_input (n_seq s')) i j = (k_su (cf h) j * z (ph * nx + (i * nu + j))%nat)%S) /\
      (forall i j, ch <= i -> i <= ph -> j < nu -> ent (q_input (n_seq s')) i j = ent (q_input (n_seq s')) (ch - 1) j).
  Proof.
    intros C0 C Hr G Sc E. pose proof (nreached_NR junk d ni ne dyn_eq C0 C s h Hr) as H.
    destruct (solved_obs junk d ni ne dyn_eq C0 C s _ x0 u0 z code cost s' r H G Sc E) as (res & -> & _ & _ & _ & [Gu Eu] & Gc & Ec & _).
    exists res. refine (conj eq_refl (conj Gc (conj Gu (conj _ (conj _ _))))).
    - intros j Hj. rewrite Ec by exact Hj. unfold u_traj, in_traj, v_input, held. reflexivity.
    - intros i j Hi Hj. rewrite Eu by lia. unfold u_traj, in_traj, v_input, held. now rewrite Nat.min_l by lia.
    - intros i j Hi Hi' Hj. rewrite !Eu by lia. unfold u_traj, in_traj, v_input, held. now rewrite Nat.min_r, Nat.min_l by lia.
  Qed.
  (** decision variables to trajectory and back *)
  Theorem C21_round_trip s h v r :
    0 < ch -> ch <= ph -> reached s h -> (forall j, j < nu -> k_su (cf h) j <> s0) -> gm v (nu * ch) 1 -> r < nu * ch ->
    ent (mmul (mp_u2z (n_map s)) (mmul (mp_z2u (n_map s)) v)) r 0 = ent v r 0.
  Proof.
    intros C0 C Hr Su G Hr'. pose proof (nreached_NR junk d ni ne dyn_eq C0 C s h Hr) as H. pose proof (nr_map d s _ H) as HM.
    destruct (blk_split r ch nu ltac:(lia)) as (b & p & Hb & Hp & ->).
    destruct (mi_z2u d _ _ _ HM) as (_ & K1 & _). destruct (mi_u2z d _ _ _ HM) as (_ & K2 & _). cbn [mmul ent]. rewrite K2.
    rewrite (u2z_mul d (n_map s) _ _ HM (ph_pos d C0 C) C0 C (fun r => ssum (mcols (mp_z2u (n_map s))) (fun k => (ent (mp_z2u (n_map s)) r k * ent v k 0)%S)) b p Hb Hp).
    rewrite K1, (z2u_mul d (n_map s) _ _ HM (ph_pos d C0 C) C0 C (fun k => ent v k 0) b p) by (try assumption; lia). rewrite Nat.min_l by lia. field. auto.
  Qed.

  (** *** C22 *)
  (** row 0 of the state trajectory is the measured state times the state scale: for the callbacks, [x_traj] by definition
      (with C21); for the returned sequence: *)
  Theorem C22_first_row s h x0 u0 z code cost s' r :
    0 < ch -> ch <= ph -> reached s h -> gm x0 nx 1 -> scaled d (cf h) ->
    step s (NOptimize x0 u0 (NSolved z code cost)) = Ok (s', r) ->
    (forall j, j < nx -> ent (q_state (n_seq s')) 0 j = (k_sx (cf h) j * ent x0 j 0)%S) /\
    (forall i j, i < ph -> j < nx -> ent (q_state (n_seq s')) (i + 1) j = (k_sx (cf h) j * z (i * nx + j)%nat)%S).
  Proof.
    intros C0 C Hr G Sc E. pose proof (nreached_NR junk d ni ne dyn_eq C0 C s h Hr) as H.
    destruct (solved_obs junk d ni ne dyn_eq C0 C s _ x0 u0 z code cost s' r H G Sc E) as (res & -> & _ & [_ Ex] & _).
    split; [intros j Hj|intros i j Hi Hj]; rewrite Ex by lia; unfold x_traj, st_traj; [reflexivity|].
    destruct (Nat.eqb_spec (i + 1) 0); [lia|]. unfold v_state. now replace (i + 1 - 1) with i by lia.
  Qed.
  (** hence it is the measured state exactly when the scale is 1 (or the state 0) *)
  Theorem C22_first_row_is_x0_iff s h x0 u0 z code cost s' r j :
    0 < ch -> ch <= ph -> reached s h -> gm x0 nx 1 -> scaled d (cf h) ->
    step s (NOptimize x0 u0 (NSolved z code cost)) = Ok (s', r) -> j < nx ->
    ent (q_state (n_seq s')) 0 j = ent x0 j 0 <-> k_sx (cf h) j = s1 \/ ent x0 j 0 = s0.
  Proof.
    intros C0 C Hr G Sc E Hj. destruct (C22_first_row s h x0 u0 z code cost s' r C0 C Hr G Sc E) as [-> _]; [|exact Hj].
    set (a := k_sx (cf h) j). set (b := ent x0 j 0). split.
    - intros K. destruct (sleb b s0 && sleb s0 b) eqn:B.
      + right. apply andb_true_iff in B as [B1 B2]. now apply s_le_antisym.
      + left. assert (b <> s0) by (intros ->; rewrite !s_le_refl in B; discriminate). transitivity (a * b / b)%S; [field; assumption|]. rewrite K. field. assumption.
    - intros [->| ->]; ring.
  Qed.

  (** *** C23 *)
  Definition in_box (nc : ncall F) (z : list F) : Prop := forall r, r < n_dec d -> within (nth r (nc_lo nc) PInf) (nth r (nc_hi nc) MInf) (dvar z r).
  (** the box handed to the solver bounds the decision variables by the numbers the user gave ... *)
  Theorem C23_box s h x0 u0 z :
    0 < ch -> ch <= ph -> reached s h -> 
    in_box (call s x0 u0) z <->
      (forall k j, k < ph -> j < nx -> within (k_xlo (cf h) k j) (k_xhi (cf h) k j) (dvar z (k * nx + j))) /\
      (forall k j, k < ch -> j < nu -> within (k_ulo (cf h) k j) (k_uhi (cf h) k j) (dvar z (ph * nx + (k * nu + j)))) /\
      dvar z (v_slack d) = s0.
  Proof.
    intros C0 C Hr. pose proof (nreached_NR junk d ni ne dyn_eq C0 C s h Hr) as H.
    destruct (nr_lb d s _ H) as (Gl & Xl & Ul & El). destruct (nr_ub d s _ H) as (Gu & Xu & Uu & Eu).
    unfold in_box, n_call. cbn [nc_lo nc_hi]. rewrite (nr_slb d s _ H), (nr_sub d s _ H).
    assert (E1 : forall r, r < n_dec d -> nth r (elst (n_lb s)) PInf = ent (n_lb s) r 0) by (intros r Hr'; apply elst_nth; destruct Gl as (-> & _); exact Hr').
    assert (E2 : forall r, r < n_dec d -> nth r (elst (n_ub s)) MInf = ent (n_ub s) r 0) by (intros r Hr'; apply elst_nth; destruct Gu as (-> & _); exact Hr').
    assert (N1 : forall k j, k < ph -> j < nx -> k * nx + j < n_dec d) by (intros k j Hk Hj; pose proof (blk_lt k ph nx j Hk Hj); unfold n_dec; lia).
    assert (N2 : forall k j, k < ch -> j < nu -> ph * nx + (k * nu + j) < n_dec d) by (intros k j Hk Hj; pose proof (blk_lt k ch nu j Hk Hj); unfold n_dec; lia).
    assert (N3 : v_slack d < n_dec d) by (unfold v_slack, n_dec; lia).
    assert (X1 : forall k j, k < ph -> j < nx -> ent (n_lb s) (k * nx + j) 0 = k_xlo (cf h) k j).
    { intros k j Hk Hj. rewrite <- Xl by assumption. unfold v_state. now replace (S k - 1) with k by lia. }
    assert (X2 : forall k j, k < ph -> j < nx -> ent (n_ub s) (k * nx + j) 0 = k_xhi (cf h) k j).
    { intros k j Hk Hj. rewrite <- Xu by assumption. unfold v_state. now replace (S k - 1) with k by lia. }
    split.
    - intros B. refine (conj _ (conj _ _)).
      + intros k j Hk Hj. specialize (B _ (N1 k j Hk Hj)). rewrite E1, E2, X1, X2 in B by auto. exact B.
      + intros k j Hk Hj. specialize (B _ (N2 k j Hk Hj)). rewrite E1, E2 in B by auto. rewrite <- Ul, <- Uu by assumption. exact B.
      + specialize (B _ N3). rewrite E1, E2, El, Eu in B by exact N3. destruct B as [B1 B2]. cbn in B1, B2. now apply s_le_antisym.
    - intros (B1 & B2 & B3) r Hr'. rewrite E1, E2 by exact Hr'. unfold n_dec in Hr'.
      destruct (Nat.ltb_spec r (ph * nx)) as [L|L].
      + destruct (blk_split r ph nx L) as (k & j & Hk & Hj & ->). rewrite X1, X2 by assumption. auto.
      + destruct (Nat.ltb_spec r (ph * nx + nu * ch)) as [L'|L'].
        * destruct (blk_split (r - ph * nx) ch nu ltac:(lia)) as (k & j & Hk & Hj & Er). replace r with (ph * nx + (k * nu + j)) by lia.
          specialize (B2 k j Hk Hj). rewrite <- Ul, <- Uu in B2 by assumption. exact B2.
        * replace r with (v_slack d) by (unfold v_slack; lia). rewrite El, Eu, B3. split; cbn; apply s_le_refl.
  Qed.
  (** ... so what is bounded is state and command divided by the scales *)
  Theorem C23_bounds_in_scaled_units s h x0 u0 z :
    0 < ch -> ch <= ph -> reached s h -> scaled d (cf h) -> (forall j, j < nu -> k_su (cf h) j <> s0) ->
    in_box (call s x0 u0) z ->
    (forall k j, k < ph -> j < nx ->
      within (k_xlo (cf h) k j) (k_xhi (cf h) k j) (x_traj d (cf h) x0 (dvar z) (k + 1) j / k_sx (cf h) j)%S) /\
    (forall i j, i <= ph -> j < nu ->
      within (k_ulo (cf h) (held d i) j) (k_uhi (cf h) (held d i) j) (u_traj d (cf h) (dvar z) i j / k_su (cf h) j)%S).
  Proof.
    intros C0 C Hr Sx Su B. apply (C23_box s h x0 u0 z C0 C Hr) in B as (B1 & B2 & _). split.
    - intros k j Hk Hj. unfold x_traj, st_traj. destruct (Nat.eqb_spec (k + 1) 0); [lia|]. unfold v_state. replace (k + 1 - 1) with k by lia.
      replace (k_sx (cf h) j * dvar z (k * nx + j)%nat / k_sx (cf h) j)%S with (dvar z (k * nx + j)) by (field; auto). auto.
    - intros i j Hi Hj. unfold u_traj, in_traj, v_input.
      replace (k_su (cf h) j * dvar z (ph * nx + (held d i * nu + j))%nat / k_su (cf h) j)%S with (dvar z (ph * nx + (held d i * nu + j))) by (field; auto).
      apply B2; [unfold held; lia|exact Hj].
  Qed.
  Corollary C23_unit_scales s h x0 u0 z :
    0 < ch -> ch <= ph -> reached s h -> (forall j, j < nx -> k_sx (cf h) j = s1) -> (forall j, j < nu -> k_su (cf h) j = s1) ->
    in_box (call s x0 u0) z ->
    (forall k j, k < ph -> j < nx -> within (k_xlo (cf h) k j) (k_xhi (cf h) k j) (x_traj d (cf h) x0 (dvar z) (k + 1) j)) /\
    (forall i j, i <= ph -> j < nu -> within (k_ulo (cf h) (held d i) j) (k_uhi (cf h) (held d i) j) (u_traj d (cf h) (dvar z) i j)).
  Proof.
    intros C0 C Hr Sx Su B. assert (N1 : (s1 : F) <> s0) by apply (F_1_neq_0 s_field).
    destruct (C23_bounds_in_scaled_units s h x0 u0 z C0 C Hr) as [B1 B2].
    - intros j Hj. rewrite Sx by exact Hj. exact N1.
    - intros j Hj. rewrite Su by exact Hj. exact N1.
    - exact B.
    - split; intros k j Hk Hj; [specialize (B1 k j Hk Hj); rewrite Sx in B1 by exact Hj|specialize (B2 k j Hk Hj); rewrite Su in B2 by exact Hj].
      + replace (x_traj d (cf h) x0 (dvar z) (k + 1) j / s1)%S with (x_traj d (cf h) x0 (dvar z) (k + 1) j) in B1 by (field; exact N1). exact B1.
      + replace (u_traj d (cf h) (dvar z) k j / s1)%S with (u_traj d (cf h) (dvar z) k j) in B2 by (field; exact N1). exact B2.
  Qed.

  (** *** C24 *)
  Theorem C24_dynamics_constraint s h x0 u0 z tol ev :
    0 < ch -> ch <= ph -> reached s h -> gm x0 nx 1 -> scaled d (cf h) -> length z = n_dec d ->
    In (KDyn, tol, ev) (nc_cons (call s x0 u0)) ->
    exists f v g, k_dyn (cf h) = Some f /\ ev z = Ok (v, g) /\ length v = ph * nx /\
      ((forall r, r < ph * nx -> nth r v s0 = s0) <->
       (forall i l, i < ph -> l < nx -> obeys d f (k_ts (cf h)) (x_traj d (cf h) x0 (dvar z)) (u_traj d (cf h) (dvar z)) i l)).
  Proof.
    intros C0 C Hr G Sc Lz Ho. pose proof (nreached_NR junk d ni ne dyn_eq C0 C s h Hr) as H.
    destruct (call_con junk d ni ne s _ x0 H u0 KDyn tol ev Ho) as [I ->].
    destruct (cfg_inv_run d ni ne h) as (_ & I1 & _). destruct (I1 _ I) as [K L]. destruct (k_dyn (cf h)) as [f|] eqn:Hf; [|congruence].
    destruct (dyn_ev junk d ni ne C0 C s _ x0 H G Sc z Lz f Hf) as (v & g & E & L1 & L2 & Ev & _). exists f, v, g.
    refine (conj eq_refl (conj E (conj L1 _))).
    assert (Q : forall a b t : F, t <> s0 -> ((a - b) / t)%S = s0 <-> a = b).
    { intros a b t Ht. split.
      - intros K'. transitivity (b + t * ((a - b) / t))%S; [field; exact Ht|]. rewrite K'. ring.
      - intros ->. field. exact Ht. }
    assert (Z : forall i l, i < ph -> l < nx -> nth (i * nx + l) v s0 = s0 <-> obeys d f (k_ts (cf h)) (x_traj d (cf h) x0 (dvar z)) (u_traj d (cf h) (dvar z)) i l).
    { intros i l Hi Hl. rewrite Ev by assumption. unfold dyn_res, obeys. destruct (k_ts (cf h)); rewrite Q by (now apply Sc); split; intros E'; auto; congruence. }
    split.
    - intros A i l Hi Hl. apply Z; [exact Hi|exact Hl|]. apply A. now apply blk_lt.
    - intros A r Hr'. destruct (blk_split r ph nx Hr') as (i & l & Hi & Hl & ->). apply Z; auto.
  Qed.

  (** *** C29 *)
  Theorem C29_feasible_iff s h x0 u0 z code cost s' r :
    0 < ch -> ch <= ph -> reached s h -> gm x0 nx 1 -> scaled d (cf h) ->
    step s (NOptimize x0 u0 (NSolved z code cost)) = Ok (s', r) ->
    exists res, r = RResult res /\
      (r_feasible res = true <->
        (forall f, k_ieq (cf h) = Some f -> forall k, k < ni -> (ieq_of d (cf h) x0 f k z <= k_itol (cf h))%S) /\
        (forall f, k_eqc (cf h) = Some f -> forall k, k < ne -> (sabs (eqc_of d (cf h) x0 f k z) <= k_etol (cf h))%S)).
  Proof.
    intros C0 C Hr G Sc E. pose proof (nreached_NR junk d ni ne dyn_eq C0 C s h Hr) as H.
    destruct (solved_obs junk d ni ne dyn_eq C0 C s _ x0 u0 z code cost s' r H G Sc E) as (res & -> & _ & _ & _ & _ & _ & _ & _ & _ & _ & Hf). exists res. auto.
  Qed.
  (** values that are not a number ([None]): the test of the code (Constraints.hpp:163) accepts exactly the vectors whose numeric entries are
      within tolerance *)
  Theorem C29_nan_values_pass (vs : list (option F)) (t : F) :
    any_gt vs t = false <-> forall v, In (Some v) vs -> (v <= t)%S.
  Proof.
    unfold any_gt. induction vs as [|[a|] vs IH]; cbn; [split; [intros _ ? []|reflexivity]| |].
    - rewrite orb_false_iff, IH, sltb_false. split; [intros [H1 H2] b [E|I]; [inversion E; subst; exact H1|auto]|intros H; split; auto].
    - rewrite IH. split; [intros H b [E|I]; [discriminate|auto]|intros H b I; auto].
  Qed.

  (** *** C42 *)
  Theorem C42_outputs s h x0 u0 z code cost s' r :
    0 < ch -> ch <= ph -> reached s h -> gm x0 nx 1 -> scaled d (cf h) ->
    step s (NOptimize x0 u0 (NSolved z code cost)) = Ok (s', r) ->
    gm (q_output (n_seq s')) (ph + 1) ny /\
    forall i k, i <= ph -> k < ny -> ent (q_output (n_seq s')) i k =
      match k_out (cf h) with
      | None => s0
      | Some g => g (map (ent (q_state (n_seq s')) i) (seq 0 nx)) (map (ent (q_input (n_seq s')) i) (seq 0 nu)) i k
      end.
  Proof.
    intros C0 C Hr G Sc E. pose proof (nreached_NR junk d ni ne dyn_eq C0 C s h Hr) as H.
    destruct (solved_obs junk d ni ne dyn_eq C0 C s _ x0 u0 z code cost s' r H G Sc E) as (res & -> & _ & [_ Ex] & [Gy Ey] & [_ Eu] & _).
    split; [exact Gy|]. intros i k Hi Hk. rewrite Ey by lia. unfold y_traj, out_traj. destruct (k_out (cf h)) as [g|]; [|reflexivity].
    unfold traj_row. f_equal; apply map_seq_ext; intros j Hj; symmetry; [apply Ex|apply Eu]; lia.
  Qed.
End Stmts.

(** *** Instances and refutations *)
Local Notation wit := (nreached_NR qj nd 2 1 false nd_ch nd_ph _ _ n_ops_reached).
Example C21_instance : 0 < d_ch nd /\ d_ch nd <= d_ph nd /\ nreached qj nd 2 1 false (nS nd 2 1 n_ops) (nH nd 2 1 n_ops) /\ gm n_x0 (d_nx nd) 1 /\
  scaled nd (ncfg_run nd 2 1 (nH nd 2 1 n_ops)) /\ length n_z = n_dec nd /\
  (exists ev, nc_obj (n_call qj nd 2 1 (nS nd 2 1 n_ops) n_x0 n_u0) = Some ev) /\
  (exists tol ev, In (KDyn, tol, ev) (nc_cons (n_call qj nd 2 1 (nS nd 2 1 n_ops) n_x0 n_u0))) /\
  (exists tol ev, In (KIneq, tol, ev) (nc_cons (n_call qj nd 2 1 (nS nd 2 1 n_ops) n_x0 n_u0))) /\
  (exists tol ev, In (KEq, tol, ev) (nc_cons (n_call qj nd 2 1 (nS nd 2 1 n_ops) n_x0 n_u0))) /\
  (exists s' r, n_step qj nd 2 1 false (nS nd 2 1 n_ops) n_opt_op = Ok (s', RResult r)).
Proof.
  refine (conj nd_ch (conj nd_ph (conj n_ops_reached (conj _ (conj n_c_scaled (conj n_z_len (conj _ (conj _ (conj _ (conj _ n_opt_runs)))))))))).
  - repeat split.
  - apply has_obj. vm_compute. reflexivity.
  - apply has_con. vm_compute. reflexivity.
  - apply has_con. vm_compute. reflexivity.
  - apply has_con. vm_compute. reflexivity.
Qed.
(** C22 as intended: first row = measured state *)
Theorem C22_intended_refuted :
  ~ (forall d ni ne s h x0 u0 z code cost s' r, 0 < d_ch d -> d_ch d <= d_ph d -> nreached qj d ni ne false s h -> gm x0 (d_nx d) 1 ->
       scaled d (ncfg_run d ni ne h) -> n_step qj d ni ne false s (NOptimize x0 u0 (NSolved z code cost)) = Ok (s', r) ->
       forall j, j < d_nx d -> ent (q_state (n_seq s')) 0 j = ent x0 j 0).
Proof.
  intros H. destruct n_opt_runs as (s' & r & E). unfold n_opt_op in E.
  assert (G : gm n_x0 (d_nx nd) 1) by (repeat split).
  specialize (H nd 2 1 _ _ n_x0 n_u0 n_zf 1%Z (Fin (q 3)) s' _ nd_ch nd_ph n_ops_reached G n_c_scaled E 0 ltac:(cbn; lia)).
  apply (C22_first_row_is_x0_iff qj nd 2 1 false _ _ _ _ _ _ _ _ _ 0 nd_ch nd_ph n_ops_reached G n_c_scaled E ltac:(cbn; lia)) in H.
  destruct H as [H|H].
  - apply (f_equal (fun x => sleb (q 2) x)) in H. assert (K : sleb (q 2) (k_sx (ncfg_run nd 2 1 (nH nd 2 1 n_ops)) 0) = true) by (vm_compute; reflexivity).
    rewrite K in H. vm_compute in H. discriminate H.
  - apply (f_equal (fun x => sleb x (q 0))) in H. vm_compute in H. discriminate H.
Qed.
(** C23 as intended: bounds in user units *)
Theorem C23_intended_refuted :
  ~ (forall d ni ne s h x0 u0 z, 0 < d_ch d -> d_ch d <= d_ph d -> nreached qj d ni ne false s h -> gm x0 (d_nx d) 1 -> length z = n_dec d ->
       scaled d (ncfg_run d ni ne h) -> in_box d (n_call qj d ni ne s x0 u0) z ->
       (forall k j, k < d_ph d -> j < d_nx d -> within (k_xlo (ncfg_run d ni ne h) k j) (k_xhi (ncfg_run d ni ne h) k j) (x_traj d (ncfg_run d ni ne h) x0 (dvar z) (k + 1) j)) /\
       (forall i j, i <= d_ph d -> j < d_nu d ->
         within (k_ulo (ncfg_run d ni ne h) (held d i) j) (k_uhi (ncfg_run d ni ne h) (held d i) j) (u_traj d (ncfg_run d ni ne h) (dvar z) i j))).
Proof.
  intros H. set (z := map q [9; 2; 3; 4; 5; 6; 1; 2; 0]%Z).
  destruct (H nd 2 1 _ _ n_x0 n_u0 z nd_ch nd_ph n_ops_reached) as [A B]; [repeat split|reflexivity|exact n_c_scaled| |].
  - apply (C23_box qj nd 2 1 false _ _ n_x0 n_u0 z nd_ch nd_ph n_ops_reached). refine (conj _ (conj _ _)).
    + intros k j Hk Hj. apply within_b_ok. destruct k as [|[|[|k]]], j as [|[|j]]; try (cbn in Hk, Hj; lia); vm_compute; reflexivity.
    + intros k j Hk Hj. apply within_b_ok. destruct k as [|[|k]], j as [|j]; try (cbn in Hk, Hj; lia); vm_compute; reflexivity.
    + vm_compute. reflexivity.
  - specialize (A 0 0 ltac:(cbn; lia) ltac:(cbn; lia)). revert A. apply within_dec_false. vm_compute. reflexivity.
Qed.
(** C29 as intended for all values: a constraint vector containing not-a-number is not satisfied, but passes *)
Example C29_nan_witness : any_gt [Some (q 0); None] (q 1) = false. Proof. vm_compute. reflexivity. Qed.
(** the flag ignores the dynamics: here it is true although the returned states do not obey the dynamics *)
Theorem C29_flag_ignores_dynamics :
  exists s' res, n_step qj nd 2 1 false (nS nd 2 1 n_cfg) (NOptimize n_x0 n_u0 (NSolved (fun _ => q 0) 1 (Fin (q 3)))) = Ok (s', RResult res) /\
    nreached qj nd 2 1 false (nS nd 2 1 n_cfg) (nH nd 2 1 n_cfg) /\ r_feasible res = true /\
    ~ (forall i l, i < 3 -> l < 2 -> obeys nd n_f None (x_traj nd (ncfg_run nd 2 1 (nH nd 2 1 n_cfg)) n_x0 (fun _ => q 0)) (u_traj nd (ncfg_run nd 2 1 (nH nd 2 1 n_cfg)) (fun _ => q 0)) i l).
Proof.
  assert (Rr : nreached qj nd 2 1 false (nS nd 2 1 n_cfg) (nH nd 2 1 n_cfg)) by n_reach.
  destruct (is_res_ok (n_step qj nd 2 1 false (nS nd 2 1 n_cfg) (NOptimize n_x0 n_u0 (NSolved (fun _ => q 0) 1 (Fin (q 3))))) ltac:(vm_compute; reflexivity)) as (s' & res & E).
  exists s', res. refine (conj E (conj Rr (conj _ _))).
  - assert (K : match n_step qj nd 2 1 false (nS nd 2 1 n_cfg) (NOptimize n_x0 n_u0 (NSolved (fun _ => q 0) 1 (Fin (q 3)))) with Ok (_, RResult r) => r_feasible r | _ => false end = true) by (vm_compute; reflexivity).
    rewrite E in K. exact K.
  - intros K. specialize (K 0 0 ltac:(lia) ltac:(lia)). unfold obeys in K. apply (f_equal (fun x => sleb x (q 1))) in K. vm_compute in K. discriminate K.
Qed.
