(** Property C52: what the solver of the non-linear controller observes is a function of the configuration, not of the history that
    produced it nor of uninitialised memory. *)
From Coq Require Import Bool Arith ZArith List Lia QArith Qcanon Ring Field.
From Verif Require Import Scalar Sums Mat Slice Builder BuilderEnt LMPC SpecLMPC NLMap NLTraj NLFun SpecNL NLLoop NLGrad NLEval NLDyn NLMPC SpecNLC SpecNLP NLRef NLRun NLCall NLObs Wit WitNL PropNL1 PropNL3.
Import ListNotations.
Local Open Scope nat_scope.

(** *** Specification: two configurations agree *)
Record nagree {F} {SO : ScalarOps F} (d : dims) (c c' : ncfg F) : Prop := {
  na_su : k_su c = k_su c'; na_sx : k_sx c = k_sx c'; na_ts : k_ts c = k_ts c';
  na_obj : k_obj c = k_obj c'; na_dyn : k_dyn c = k_dyn c'; na_out : k_out c = k_out c'; na_ieq : k_ieq c = k_ieq c'; na_eqc : k_eqc c = k_eqc c';
  na_xlo : forall k j, k < d_ph d -> j < d_nx d -> k_xlo c k j = k_xlo c' k j; na_xhi : forall k j, k < d_ph d -> j < d_nx d -> k_xhi c k j = k_xhi c' k j;
  na_ulo : forall k j, k < d_ch d -> j < d_nu d -> k_ulo c k j = k_ulo c' k j; na_uhi : forall k j, k < d_ch d -> j < d_nu d -> k_uhi c k j = k_uhi c' k j;
  na_bobj : k_bobj c = k_bobj c'; na_cons : k_cons c = k_cons c'; na_par : k_par c = k_par c'; na_warm : k_warm c = k_warm c';
  (* memory of the last successful optimization *)
  na_first : k_first c = k_first c'; na_slack : k_slack c = k_slack c';
  na_vec : forall r, r < d_ph d * d_nx d + d_nu d * d_ch d -> k_vec c r = k_vec c' r }.

Section Stmts.
  Context {F : Type} {SO : ScalarOps F} {SL : ScalarLaws F}.
  Add Field SFpn5 : (@s_field F SO SL).
  Variables (junk junk' : nat -> nat -> F) (d : dims) (ni ne : nat) (dyn_eq : bool).
  Notation nx := (d_nx d). Notation nu := (d_nu d). Notation ny := (d_ny d).
  Notation ph := (d_ph d). Notation ch := (d_ch d). Notation N := (n_dec d).
  Notation cf := (ncfg_run d ni ne).

  (** every decision variable is a state, an input or the slack *)
  Lemma dec_cases r : r < N -> (exists k j, k < ph /\ j < nx /\ r = v_state d (S k) j) \/ (exists b j, b < ch /\ j < nu /\ r = v_input d b j) \/ r = v_slack d.
  Proof.
    intros Hr. unfold n_dec in Hr. unfold v_state, v_input, v_slack. destruct (Nat.lt_ge_cases r (ph * nx)) as [L|L].
    - left. destruct (blk_split r ph nx L) as (k & j & Hk & Hj & ->). exists k, j. replace (S k - 1) with k by lia. auto.
    - destruct (Nat.lt_ge_cases r (ph * nx + nu * ch)) as [L2|L2]; [|right; right; lia].
      right; left. destruct (blk_split (r - ph * nx) ch nu ltac:(lia)) as (b & j & Hb & Hj & E). exists b, j. repeat split; lia.
  Qed.
  Lemma lst_eq (V V' : mat F) n : gm V n 1 -> gm V' n 1 -> (forall r, r < n -> ent V r 0 = ent V' r 0) -> lst V = lst V'.
  Proof.
    intros (R & _) (R' & _) E. apply (nth_ext _ _ s0 s0); rewrite !lst_len; [congruence|]. intros r Hr. rewrite !lst_nth by congruence. apply E. congruence.
  Qed.
  Lemma elst_eq (V V' : mat (ext F)) n : gm V n 1 -> gm V' n 1 -> (forall r, r < n -> ent V r 0 = ent V' r 0) -> elst V = elst V'.
  Proof.
    intros (R & _) (R' & _) E. apply (nth_ext _ _ PInf PInf); rewrite !elst_len; [congruence|]. intros r Hr. rewrite !elst_nth by congruence. apply E. congruence.
  Qed.
  Lemma brep_eq (M M' : mat (ext F)) X U X' U' e : brep d M X U e -> brep d M' X' U' e ->
    (forall k j, k < ph -> j < nx -> X k j = X' k j) -> (forall k j, k < ch -> j < nu -> U k j = U' k j) -> elst M = elst M'.
  Proof.
    intros (G & A1 & A2 & A3) (G' & A1' & A2' & A3') HX HU. apply (elst_eq M M' N G G'). intros r Hr.
    destruct (dec_cases r Hr) as [(k & j & Hk & Hj & ->)|[(b & j & Hb & Hj & ->)| ->]].
    - rewrite A1, A1' by assumption. auto.
    - rewrite A2, A2' by assumption. auto.
    - congruence.
  Qed.

  Section Two.
  Variables (s s' : nmpc F) (c c' : ncfg F).
  Hypothesis C0 : 0 < ch.
  Hypothesis C : ch <= ph.
  Hypothesis H : NR d s c.
  Hypothesis H' : NR d s' c'.
  Hypothesis A : nagree d c c'.
  Let P : 0 < ph := ph_pos d C0 C.

  Lemma base_eq x0 u0 r : r < ph * nx + nu * ch -> base_vec d c x0 u0 r = base_vec d c' x0 u0 r.
  Proof.
    intros Hr. unfold base_vec. rewrite (na_first d c c' A), (na_warm d c c' A). destruct (k_first c' || negb (k_warm c')).
    - unfold constant_vec. destruct (r <? ph * nx); [reflexivity|]. destruct (Nat.ltb_spec r (ph * nx + nu * ch)); [reflexivity|lia].
    - now apply (na_vec d c c' A).
  Qed.
  Lemma guess_eq x0 u0 : lst (n_guess junk d s x0 u0) = lst (n_guess junk' d s' x0 u0).
  Proof.
    destruct (guess_rep junk d C0 C s c x0 u0 H) as (G & E1 & E2 & E3). destruct (guess_rep junk' d C0 C s' c' x0 u0 H') as (G' & E1' & E2' & E3').
    apply (lst_eq _ _ N G G'). intros r Hr. destruct (dec_cases r Hr) as [(k & j & Hk & Hj & ->)|[(b & j & Hb & Hj & ->)| ->]].
    - rewrite E1, E1' by assumption. apply base_eq. replace (Nat.min (S (S k)) ph) with (S (Nat.min (S (S k)) ph - 1)) by lia.
      pose proof (v_state_lt d C0 C (Nat.min (S (S k)) ph - 1) j ltac:(lia) Hj). lia.
    - rewrite E2, E2' by assumption. rewrite <- (na_su d c c' A). f_equal. f_equal. apply base_eq. apply (v_input_lt d C0 C); [|assumption]. unfold held. lia.
    - rewrite E3, E3'. apply (na_slack d c c' A).
  Qed.
  Section Eval.
  Variables (x0 : mat F) (z : list F).
  Hypothesis G0 : gm x0 nx 1.
  Hypothesis Sc : scaled d c.
  Hypothesis Lz : length z = N.
  Let GZ := vec_of_gm z N Lz.
  Let EZ : forall k, k < N -> ent (vec_of z) k 0 = dvar z k := fun k _ => vec_of_ent z k.
  Let xi := fun j => (k_sx c j * vec x0 j)%S.
  Let Hxi : forall j, j < nx -> xi j = (k_sx c j * ent x0 j 0)%S := fun j _ => eq_refl.
  Let HM := nr_map d s c H.
  Lemma map' : map_is d (n_map s') (k_su c) (k_sx c).
  Proof. rewrite (na_su d c c' A), (na_sx d c c' A). exact (nr_map d s' c' H'). Qed.

  Lemma eval_obj_eq : eval_obj junk d s x0 z = eval_obj junk' d s' x0 z.
  Proof.
    unfold eval_obj. rewrite (nr_obj d s c H), (nr_out d s c H), (nr_obj d s' c' H'), (nr_out d s' c' H'), <- (na_obj d c c' A), <- (na_out d c c' A). destruct (k_obj c) as [f|]; [|reflexivity].
    pose proof (obj_evaluate_ent junk d (n_map s) _ _ HM P C0 C (vec_of z) x0 _ _ GZ G0 EZ Sc Hxi f (k_out c)) as E.
    pose proof (obj_evaluate_ent junk' d (n_map s') _ _ map' P C0 C (vec_of z) x0 _ _ GZ G0 EZ Sc Hxi f (k_out c)) as E'.
    destruct (obj_evaluate junk _ _ _ _ _ _) as [v g]. destruct (obj_evaluate junk' _ _ _ _ _ _) as [v' g'].
    destruct E as (Ev & G & E1 & E2 & E3). destruct E' as (Ev' & G' & E1' & E2' & E3'). subst v v'. rewrite (proj2 (proj2 G)), (proj2 (proj2 G')). f_equal. f_equal.
    apply (lst_eq _ _ N G G'). intros r Hr. destruct (dec_cases r Hr) as [(k & j & Hk & Hj & ->)|[(b & j & Hb & Hj & ->)| ->]]; unfold v_state, v_input, v_slack.
    - replace (S k - 1) with k by lia. rewrite E1, E1' by assumption. reflexivity.
    - rewrite E2, E2' by assumption. reflexivity.
    - rewrite E3, E3'. reflexivity.
  Qed.
  (** the rows of a Jacobian *)
  Lemma jac_eq (g g' : mat F) n : gm g (N * n) 1 -> gm g' (N * n) 1 -> (forall k r, k < n -> r < N -> ent g (k * N + r) 0 = ent g' (k * N + r) 0) -> lst g = lst g'.
  Proof.
    intros G G' E. apply (lst_eq _ _ _ G G'). intros r Hr. destruct (blk_split r n N ltac:(lia)) as (k & j & Hk & Hj & ->). now apply E.
  Qed.
  Lemma eval_con_eq k : eval_con junk d ni ne s x0 k z = eval_con junk' d ni ne s' x0 k z.
  Proof.
    unfold eval_con.
    rewrite (nr_dyn d s c H), (nr_dyn d s' c' H'), (nr_ts d s c H), (nr_ts d s' c' H'), (nr_ieq d s c H), (nr_ieq d s' c' H'), (nr_eqc d s c H), (nr_eqc d s' c' H'), (nr_out d s c H), (nr_out d s' c' H').
    rewrite <- (na_dyn d c c' A), <- (na_ts d c c' A), <- (na_ieq d c c' A), <- (na_eqc d c c' A), <- (na_out d c c' A). destruct k.
    - destruct (k_dyn c) as [f|]; [|reflexivity].
      pose proof (seq_evaluate_ent junk d (n_map s) _ _ HM P C0 C (vec_of z) x0 _ _ GZ G0 EZ Sc Hxi f (k_ts c)) as E.
      pose proof (seq_evaluate_ent junk' d (n_map s') _ _ map' P C0 C (vec_of z) x0 _ _ GZ G0 EZ Sc Hxi f (k_ts c)) as E'.
      destruct (seq_evaluate junk _ _ _ _ _ _) as [v g]. destruct (seq_evaluate junk' _ _ _ _ _ _) as [v' g'].
      destruct E as (Gv & Ev & G & E1 & E2 & E3). destruct E' as (Gv' & Ev' & G' & E1' & E2' & E3').
      rewrite (proj2 (proj2 G)), (proj2 (proj2 G')), (proj2 (proj2 Gv)), (proj2 (proj2 Gv')). cbn [andb]. f_equal. f_equal.
      + apply (lst_eq _ _ _ Gv Gv'). intros r Hr. destruct (blk_split r ph nx Hr) as (i & l & Hi & Hl & ->). rewrite Ev, Ev' by assumption. reflexivity.
      + apply (jac_eq g g' (ph * nx) G G'). intros k r Hk Hr. destruct (blk_split k ph nx Hk) as (i & l & Hi & Hl & ->).
        destruct (dec_cases r Hr) as [(a & j & Ha & Hj & ->)|[(b & j & Hb & Hj & ->)| ->]]; unfold v_state, v_input, v_slack.
        * replace (S a - 1) with a by lia. rewrite E1, E1' by assumption. reflexivity.
        * rewrite E2, E2' by assumption. reflexivity.
        * rewrite E3, E3' by assumption. reflexivity.
    - destruct (k_ieq c) as [f|]; [|reflexivity].
      pose proof (ieq_evaluate_ent junk d ni (n_map s) _ _ HM P C0 C (vec_of z) x0 _ _ GZ G0 EZ Sc Hxi f (k_out c)) as E.
      pose proof (ieq_evaluate_ent junk' d ni (n_map s') _ _ map' P C0 C (vec_of z) x0 _ _ GZ G0 EZ Sc Hxi f (k_out c)) as E'.
      destruct (ieq_evaluate junk _ _ _ _ _ _ _) as [v g]. destruct (ieq_evaluate junk' _ _ _ _ _ _ _) as [v' g'].
      destruct E as (Gv & Ev & G & E1 & E2 & E3). destruct E' as (Gv' & Ev' & G' & E1' & E2' & E3').
      rewrite (proj2 (proj2 G)), (proj2 (proj2 G')), (proj2 (proj2 Gv)), (proj2 (proj2 Gv')). cbn [andb]. f_equal. f_equal.
      + apply (lst_eq _ _ _ Gv Gv'). intros r Hr. rewrite Ev, Ev'. reflexivity.
      + apply (jac_eq g g' ni G G'). intros k r Hk Hr. destruct (dec_cases r Hr) as [(a & j & Ha & Hj & ->)|[(b & j & Hb & Hj & ->)| ->]]; unfold v_state, v_input, v_slack.
        * replace (S a - 1) with a by lia. rewrite E1, E1' by assumption. reflexivity.
        * rewrite E2, E2' by assumption. reflexivity.
        * rewrite E3, E3' by assumption. reflexivity.
    - destruct (k_eqc c) as [f|]; [|reflexivity].
      pose proof (eqc_evaluate_ent junk d ne (n_map s) _ _ HM P C0 C (vec_of z) x0 _ _ GZ G0 EZ Sc Hxi f) as E.
      pose proof (eqc_evaluate_ent junk' d ne (n_map s') _ _ map' P C0 C (vec_of z) x0 _ _ GZ G0 EZ Sc Hxi f) as E'.
      destruct (eqc_evaluate junk _ _ _ _ _ _) as [v g]. destruct (eqc_evaluate junk' _ _ _ _ _ _) as [v' g'].
      destruct E as (Gv & Ev & G & E1 & E2 & E3). destruct E' as (Gv' & Ev' & G' & E1' & E2' & E3').
      rewrite (proj2 (proj2 G)), (proj2 (proj2 G')), (proj2 (proj2 Gv)), (proj2 (proj2 Gv')). cbn [andb]. f_equal. f_equal.
      + apply (lst_eq _ _ _ Gv Gv'). intros r Hr. rewrite Ev, Ev'. reflexivity.
      + apply (jac_eq g g' ne G G'). intros k r Hk Hr. destruct (dec_cases r Hr) as [(a & j & Ha & Hj & ->)|[(b & j & Hb & Hj & ->)| ->]]; unfold v_state, v_input, v_slack.
        * replace (S a - 1) with a by lia. rewrite E1, E1' by assumption. reflexivity.
        * rewrite E2, E2' by assumption. reflexivity.
        * rewrite E3, E3' by assumption. reflexivity.
  Qed.
  End Eval.
  End Two.

  (** C52: agreeing configurations give the solver the same starting point, bounds and stopping criteria, the same constraint kinds and tolerances
      in the same order, and cost and constraint functions with the same values and gradients everywhere - whatever the histories, and whatever the
      contents [junk] of uninitialised memory *)
  Theorem C52_call_determined_by_configuration s s' h h' x0 u0 :
    0 < ch -> ch <= ph -> nreached junk d ni ne dyn_eq s h -> nreached junk' d ni ne dyn_eq s' h' -> nagree d (cf h) (cf h') -> gm x0 nx 1 -> scaled d (cf h) ->
    let q := n_call junk d ni ne s x0 u0 in let q' := n_call junk' d ni ne s' x0 u0 in
    nc_guess q = nc_guess q' /\ nc_lo q = nc_lo q' /\ nc_hi q = nc_hi q' /\ nc_par q = nc_par q' /\
    match nc_obj q, nc_obj q' with
    | Some ev, Some ev' => forall z, length z = N -> ev z = ev' z
    | None, None => True
    | _, _ => False end /\
    Forall2 (fun '(k, tol, ev) '(k', tol', ev') => k = k' /\ tol = tol' /\ forall z, length z = N -> ev z = ev' z) (nc_cons q) (nc_cons q').
  Proof.
    intros C0 C Hr Hr' A G Sc. pose proof (nreached_NR junk d ni ne dyn_eq C0 C s h Hr) as H. pose proof (nreached_NR junk' d ni ne dyn_eq C0 C s' h' Hr') as H'.
    cbn [n_call nc_guess nc_lo nc_hi nc_par nc_obj nc_cons]. refine (conj _ (conj _ (conj _ (conj _ (conj _ _))))).
    - exact (guess_eq s s' _ _ C0 C H H' A x0 u0).
    - rewrite (nr_slb d s _ H), (nr_slb d s' _ H'). apply (brep_eq _ _ _ _ _ _ _ (nr_lb d s _ H) (nr_lb d s' _ H')); [apply (na_xlo d _ _ A)|apply (na_ulo d _ _ A)].
    - rewrite (nr_sub d s _ H), (nr_sub d s' _ H'). apply (brep_eq _ _ _ _ _ _ _ (nr_ub d s _ H) (nr_ub d s' _ H')); [apply (na_xhi d _ _ A)|apply (na_uhi d _ _ A)].
    - rewrite (nr_par d s _ H), (nr_par d s' _ H'). apply (na_par d _ _ A).
    - rewrite (nr_bobj d s _ H), (nr_bobj d s' _ H'), <- (na_bobj d _ _ A). destruct (k_bobj (cf h)); [|exact I]. intros z Lz. exact (eval_obj_eq s s' _ _ C0 C H H' A x0 z G Sc Lz).
    - rewrite (nr_cons d s _ H), (nr_cons d s' _ H'), <- (na_cons d _ _ A). induction (k_cons (cf h)) as [|[k t] l IH]; cbn [map]; constructor; [|exact IH].
      refine (conj eq_refl (conj eq_refl _)). intros z Lz. exact (eval_con_eq s s' _ _ C0 C H H' A x0 z G Sc Lz k).
  Qed.
End Stmts.

(** *** Instance: setters in another order, some called twice, other uninitialised memory *)
Definition n_perm : list (nop Qc) :=
  [NSetParams (NPNonLinear (mkNP 50 (q 9) true (q 1) (q 1) (q 1) (q 1) false)); NSetInputScale (qv [7]%Z);
   NSetInputBounds (qe [-3]%Z) (qe [3]%Z) (mkSlice 0 1); NSetStateBounds (qe [-10; -20]%Z) (qe [10; 20]%Z) (mkSlice 1 2);
   NSetOutput n_g; NSetDynamics n_f (q 0) true; NSetInputScale (qv [4]%Z); NSetStateScale (qv [2; 5]%Z); NSetIneq n_ci (q 1) true;
   NSetEq n_ce (q 2) true; NSetStateBounds (qe [-10; -20]%Z) (qe [10; 20]%Z) (mkSlice (-1) (-1)); NSetObjective n_J false; NSetObjective n_J true].
Definition not_false (e : nop Qc * ret Qc) : bool := match snd e with RBool false => false | _ => true end.
Definition all_accepted junk ops : bool := match n_life junk nd 2 1 false ops with Ok (_, h) => forallb not_false h | UB => false end.
Definition meant (ops : list (nop Qc)) : ncfg Qc := fold_left (fun c op => ncfg_apply nd 2 1 op c) ops ncfg0.
Lemma play_cfg junk ops : Forall (nop_sized nd) ops -> all_accepted junk ops = true -> exists s h, nreached junk nd 2 1 false s h /\ ncfg_run nd 2 1 h = meant ops.
Proof.
  intros Hs Ha. unfold all_accepted in Ha. destruct (n_life junk nd 2 1 false ops) as [[s h]|] eqn:E; [|discriminate Ha]. exists s, h. split; [exists ops; auto|].
  unfold n_life in E. destruct (n_new nd) as [s1|]; [|discriminate E]. unfold ncfg_run, meant. clear Hs. revert s1 s h E Ha. generalize (ncfg0 : ncfg Qc) as c.
  induction ops as [|op ops IH]; intros c s1 s h E Ha; cbn [n_play] in E; [inversion E; reflexivity|].
  destruct (n_step junk nd 2 1 false s1 op) as [[s2 r]|] eqn:E1; [|discriminate E]. destruct (n_play junk nd 2 1 false s2 ops) as [[s3 h3]|] eqn:E2; [|discriminate E].
  inversion E; subst. cbn [forallb] in Ha. apply andb_true_iff in Ha as [Ha1 Ha2]. cbn [fold_left]. rewrite <- (IH _ _ _ _ E2 Ha2). f_equal.
  unfold not_false in Ha1. cbn [snd] in Ha1. unfold ncfg_step. destruct op; try reflexivity; destruct r as [[]| | |]; try reflexivity; discriminate Ha1.
Qed.
Example C52_instance : exists s h s' h', nreached qj nd 2 1 false s h /\ nreached (fun _ _ => q 77) nd 2 1 false s' h' /\ nagree nd (ncfg_run nd 2 1 h) (ncfg_run nd 2 1 h') /\
  scaled nd (ncfg_run nd 2 1 h).
Proof.
  destruct (play_cfg qj n_ops) as (s & h & R & E); [all_sized|vm_compute; reflexivity|]. destruct (play_cfg (fun _ _ => q 77) n_perm) as (s' & h' & R' & E'); [all_sized|vm_compute; reflexivity|].
  exists s, h, s', h'. refine (conj R (conj R' _)). rewrite E, E'. clear. split.
  - split; intros; try reflexivity.
    all: match goal with Hk : ?k < _, Hj : ?j < _ |- _ => change (k < 3) in Hk || change (k < 2) in Hk; change (j < 2) in Hj || change (j < 1) in Hj;
           destruct k as [|[|[|k]]]; try (exfalso; lia); (destruct j as [|[|j]]; try (exfalso; lia)); vm_compute; reflexivity end.
  - intros j Hj K. cbn in Hj. destruct j as [|[|j]]; [| |lia]; apply (f_equal (fun x => sleb x s0)) in K; vm_compute in K; discriminate K.
Qed.
