(** The Jacobian of the dynamics constraint is the derivative of the residual. *)
From Coq Require Import Bool Arith List Lia Ring Field BinPos.
From Verif Require Import Scalar Sums Mat Builder BuilderEnt NLMap NLTraj NLFun SpecNL NLLoop NLGrad NLEval NLDyn NLSlope.
Import ListNotations.

Section DynSlope.
  Context {F : Type} {SO : ScalarOps F} {SL : ScalarLaws F}.
  Variable junk : nat -> nat -> F.
  Variable d : dims.
  Notation nx := (d_nx d). Notation nu := (d_nu d). Notation ny := (d_ny d).
  Notation ph := (d_ph d). Notation ch := (d_ch d).
  Add Field SFds : s_field.

  Lemma dynv_ext (f : dyn_t F) p l xv uv yv wv : (forall b, b < nx -> xv b = yv b) -> (forall b, b < nu -> uv b = wv b) -> dynv d f p l xv uv = dynv d f p l yv wv.
  Proof. intros H1 H2. unfold dynv. now rewrite (map_seq_ext xv yv nx H1), (map_seq_ext uv wv nu H2). Qed.
  Lemma sum_pick n (a : nat -> F) j t : j < n -> ssum n (fun b => (a b * (t * delta j b))%S) = (t * a j)%S.
  Proof. intros Hj. rewrite (ssum_single n j); [rewrite delta_refl; ring|exact Hj|]. intros i _ N. rewrite delta_neq by congruence. ring. Qed.
  Lemma dyn_bump_x f p l xv uv ax bu : dyn_grad d f p l xv uv ax bu -> forall j, j < nx -> exists Q, forall t,
    dynv d f p l (bump xv j t) uv = (dynv d f p l xv uv + t * ax j + t * t * Q)%S.
  Proof.
    intros (Q & H1 & H2) j Hj. cbn zeta in *. exists (Q (delta j) (fun _ => s0)). intros t.
    specialize (H1 (fun b => (t * delta j b)%S) (fun b => (t * s0)%S)). rewrite (H2 t (delta j) (fun _ => s0)) in H1.
    rewrite (sum_pick nx ax j t Hj) in H1. rewrite (ssum_zero nu (fun b => (bu b * (t * s0))%S)) in H1 by (intros; ring).
    transitivity (dynv d f p l xv uv + (t * ax j + s0) + t * t * Q (delta j) (fun _ => s0))%S; [|ring].
    unfold dynv at 2. rewrite <- H1. apply dynv_ext.
    - intros b _. unfold bump, delta. rewrite (Nat.eqb_sym j b). destruct (b =? j); ring.
    - intros b _. ring.
  Qed.
  Lemma dyn_bump_u f p l xv uv ax bu : dyn_grad d f p l xv uv ax bu -> forall j, j < nu -> exists Q, forall t,
    dynv d f p l xv (bump uv j t) = (dynv d f p l xv uv + t * bu j + t * t * Q)%S.
  Proof.
    intros (Q & H1 & H2) j Hj. cbn zeta in *. exists (Q (fun _ => s0) (delta j)). intros t.
    specialize (H1 (fun b => (t * s0)%S) (fun b => (t * delta j b)%S)). rewrite (H2 t (fun _ => s0) (delta j)) in H1.
    rewrite (sum_pick nu bu j t Hj) in H1. rewrite (ssum_zero nx (fun b => (ax b * (t * s0))%S)) in H1 by (intros; ring).
    transitivity (dynv d f p l xv uv + (s0 + t * bu j) + t * t * Q (fun _ => s0) (delta j))%S; [|ring].
    unfold dynv at 2. rewrite <- H1. apply dynv_ext.
    - intros b _. ring.
    - intros b _. unfold bump, delta. rewrite (Nat.eqb_sym j b). destruct (b =? j); ring.
  Qed.
  Lemma jac_x_exact f p l xv uv ax bu j : dyn_grad d f p l xv uv ax bu -> j < nx -> jac_x d f p xv uv l j = ax j.
  Proof.
    intros H Hj. destruct (dyn_bump_x f p l xv uv ax bu H j Hj) as [Q E]. unfold jac_x. rewrite !E. apply ctr_quad. apply con_step_neq1.
  Qed.
  Lemma jac_u_exact f p l xv uv ax bu j : dyn_grad d f p l xv uv ax bu -> j < nu -> jac_u d f p xv uv l j = bu j.
  Proof.
    intros H Hj. destruct (dyn_bump_u f p l xv uv ax bu H j Hj) as [Q E]. unfold jac_u. rewrite !E. apply ctr_quad. apply con_step_neq1.
  Qed.

  Variables (m : mapping F) (su sx xi z : nat -> F) (x x0 : mat F).
  Hypothesis HM : map_is d m su sx.
  Hypothesis P : 0 < ph.
  Hypothesis C0 : 0 < ch.
  Hypothesis C : ch <= ph.
  Hypothesis HX : gm x (n_dec d) 1.
  Hypothesis HX0 : gm x0 nx 1.
  Hypothesis HZ : forall k, k < n_dec d -> ent x k 0 = z k.
  Hypothesis Sx0 : forall j, j < nx -> sx j <> s0.
  Hypothesis Hxi : forall j, j < nx -> xi j = (sx j * ent x0 j 0)%S.
  Notation Xt := (st_traj d sx xi z). Notation Ut := (in_traj d su z).

  Lemma dyn_res_v f ts X U i l : dyn_res d f ts sx X U i l =
    match ts with
    | None => ((X (S i) l - dynv d f i l (X i) (U i)) / sx l)%S
    | Some t => ((X i l + t / s2 * (dynv d f i l (X i) (U i) + dynv d f i l (X (S i)) (U i)) - X (S i) l) / sx l)%S
    end.
  Proof. reflexivity. Qed.
  Lemma dyn_res_ext f ts X U Y V i l : i < ph -> l < nx -> (forall a b, a < ph + 1 -> b < nx -> X a b = Y a b) -> (forall a b, a < ph + 1 -> b < nu -> U a b = V a b) ->
    dyn_res d f ts sx X U i l = dyn_res d f ts sx Y V i l.
  Proof.
    intros Hi Hl HX' HU'. rewrite !dyn_res_v. rewrite (HX' i l), (HX' (S i) l) by lia.
    rewrite (dynv_ext f i l (X i) (U i) (Y i) (V i)) by (intros; (apply HX' || apply HU'); lia).
    rewrite (dynv_ext f i l (X (S i)) (U i) (Y (S i)) (V i)) by (intros; (apply HX' || apply HU'); lia). reflexivity.
  Qed.

  Lemma seq_grad f ts i l A0 B0 A1 B1 : i < ph -> l < nx ->
    dyn_grad d f i l (Xt i) (Ut i) A0 B0 ->
    (ts <> None -> dyn_grad d f i l (Xt (S i)) (Ut i) A1 B1) ->
    forall r, r < n_dec d ->
      slope (fun t => dyn_res d f ts sx (st_traj d sx xi (bump z r t)) (in_traj d su (bump z r t)) i l)
        (ent (snd (seq_evaluate junk d m f ts x0 x)) ((i * nx + l) * n_dec d + r) 0).
  Proof.
    intros Hi Hl G0 G1 r Hr. pose proof (seq_evaluate_ent junk d m su sx HM P C0 C x x0 z xi HX HX0 HZ Sx0 Hxi f ts) as H.
    destruct (seq_evaluate junk d m f ts x0 x) as [v g]. destruct H as (_ & _ & _ & ES & EU & EE). cbn [snd].
    pose proof (Sx0 l Hl) as N. pose proof (s2_neq_0 (F := F)) as N2.
    destruct (var_cases d r Hr C0) as [(i' & j & Hi' & Hj & ->)|[(b & j & Hb & Hj & ->)| -> ]].
    - rewrite ES by assumption.
      apply (slope_ext (fun t => dyn_res d f ts sx (pert Xt (i' + 1) j (sx j * t)%S) Ut i l)).
      { intros t. apply dyn_res_ext; try assumption; intros a c Ha Hc; symmetry.
        - now apply st_bump_state.
        - now apply in_bump_state. }
      assert (Hl' : forall a t c, pert Xt (i' + 1) j (sx j * t)%S a c = if a =? i' + 1 then bump (Xt a) j (sx j * t)%S c else Xt a c).
      { intros a t c. unfold pert, bump. destruct (Nat.eqb_spec a (i' + 1)); cbn [andb]; reflexivity. }
      assert (D0 : forall t, dynv d f i l (pert Xt (i' + 1) j (sx j * t)%S i) (Ut i) = if i =? i' + 1 then dynv d f i l (bump (Xt i) j (sx j * t)%S) (Ut i) else dynv d f i l (Xt i) (Ut i)).
      { intros t. destruct (Nat.eqb_spec i (i' + 1)) as [Q|Q]; apply dynv_ext; intros c Hc; try reflexivity; rewrite Hl'; destruct (Nat.eqb_spec i (i' + 1)); try lia; reflexivity. }
      assert (D1 : forall t, dynv d f i l (pert Xt (i' + 1) j (sx j * t)%S (S i)) (Ut i) = if S i =? i' + 1 then dynv d f i l (bump (Xt (S i)) j (sx j * t)%S) (Ut i) else dynv d f i l (Xt (S i)) (Ut i)).
      { intros t. destruct (Nat.eqb_spec (S i) (i' + 1)) as [Q|Q]; apply dynv_ext; intros c Hc; try reflexivity; rewrite Hl'; destruct (Nat.eqb_spec (S i) (i' + 1)); try lia; reflexivity. }
      assert (BL : forall (w : nat -> F) t, bump w j (sx j * t)%S l = (w l + delta l j * (sx j * t))%S).
      { intros w t. unfold bump, delta. destruct (l =? j); ring. }
      assert (DS : (delta l j * sx j)%S = (delta l j * sx l)%S).
      { unfold delta. destruct (Nat.eqb_spec l j); [now subst|ring]. }
      destruct (Nat.eqb_spec i' i) as [->|Ni]; [|destruct (Nat.eqb_spec (S i') i) as [<-|Ns]].
      + (* row S i *)
        unfold dblk. destruct ts as [h|].
        * destruct (dyn_bump_x f i l (Xt (S i)) (Ut i) A1 B1 (G1 ltac:(discriminate)) j Hj) as [Q E].
          exists (h / s2 * (sx j * sx j * Q) / sx l)%S. intros t. rewrite !dyn_res_v, !D0, !D1, !Hl'.
          destruct (Nat.eqb_spec i (i + 1)); [lia|]. destruct (Nat.eqb_spec (S i) (i + 1)); [|lia]. rewrite !E, !BL, (jac_x_exact f i l _ _ A1 B1 j (G1 ltac:(discriminate)) Hj).
          replace (- delta l j)%S with (- (delta l j * sx j) / sx l)%S by (rewrite DS; field; repeat split; assumption). field; repeat split; assumption.
        * exists s0. intros t. rewrite !dyn_res_v, !D0, !Hl'.
          destruct (Nat.eqb_spec i (i + 1)); [lia|]. destruct (Nat.eqb_spec (S i) (i + 1)); [|lia]. rewrite !BL.
          replace (delta l j)%S with ((delta l j * sx j) / sx l)%S at 3 by (rewrite DS; field; repeat split; assumption). field; repeat split; assumption.
      + (* row i *)
        unfold oblk. destruct ts as [h|].
        * destruct (dyn_bump_x f (S i') l (Xt (S i')) (Ut (S i')) A0 B0 G0 j Hj) as [Q E].
          exists (h / s2 * (sx j * sx j * Q) / sx l)%S. intros t. rewrite !dyn_res_v, !D0, !D1, !Hl'.
          destruct (Nat.eqb_spec (S i') (i' + 1)); [|lia]. destruct (Nat.eqb_spec (S (S i')) (i' + 1)); [lia|]. rewrite !E, !BL, (jac_x_exact f (S i') l _ _ A0 B0 j G0 Hj).
          replace (delta l j + h / s2 * (s1 / sx l) * A0 j * sx j)%S with ((delta l j * sx j) / sx l + h / s2 * (s1 / sx l) * A0 j * sx j)%S by (rewrite DS; field; repeat split; assumption). field; repeat split; assumption.
        * destruct (dyn_bump_x f (S i') l (Xt (S i')) (Ut (S i')) A0 B0 G0 j Hj) as [Q E].
          exists (- (sx j * sx j * Q) / sx l)%S. intros t. rewrite !dyn_res_v, !D0, !Hl'.
          destruct (Nat.eqb_spec (S i') (i' + 1)); [|lia]. destruct (Nat.eqb_spec (S (S i')) (i' + 1)); [lia|]. rewrite !E, (jac_x_exact f (S i') l _ _ A0 B0 j G0 Hj).
          field; repeat split; assumption.
      + exists s0. intros t. rewrite !dyn_res_v, !D0, !D1, !Hl'.
        destruct (Nat.eqb_spec i (i' + 1)); [lia|]. destruct (Nat.eqb_spec (S i) (i' + 1)); [lia|]. destruct ts; ring.
    - rewrite EU by assumption.
      apply (slope_ext (fun t => dyn_res d f ts sx Xt (fun a c => if (held d a =? b) && (c =? j) then (Ut a c + su j * t)%S else Ut a c) i l)).
      { intros t. apply dyn_res_ext; try assumption; intros a c Ha Hc; symmetry.
        - apply st_bump_high; try assumption. lia.
        - now apply in_bump_input. }
      assert (DU : forall w t, dynv d f i l w ((fun a c => if (held d a =? b) && (c =? j) then (Ut a c + su j * t)%S else Ut a c) i) =
                   if held d i =? b then dynv d f i l w (bump (Ut i) j (su j * t)%S) else dynv d f i l w (Ut i)).
      { intros w t. destruct (held d i =? b) eqn:Q; apply dynv_ext; intros c Hc; try reflexivity; cbn [andb]; rewrite ?Q; reflexivity. }
      destruct (held d i =? b) eqn:Hh.
      + destruct (dyn_bump_u f i l (Xt i) (Ut i) A0 B0 G0 j Hj) as [Q0 E0]. unfold bblk. destruct ts as [h|].
        * destruct (dyn_bump_u f i l (Xt (S i)) (Ut i) A1 B1 (G1 ltac:(discriminate)) j Hj) as [Q1 E1].
          exists (h / s2 * (su j * su j * (Q0 + Q1)) / sx l)%S. intros t. rewrite !dyn_res_v, !DU, !E0, !E1.
          rewrite (jac_u_exact f i l _ _ A0 B0 j G0 Hj), (jac_u_exact f i l _ _ A1 B1 j (G1 ltac:(discriminate)) Hj). field; repeat split; assumption.
        * exists (- (su j * su j * Q0) / sx l)%S. intros t. rewrite !dyn_res_v, !DU, !E0.
          rewrite (jac_u_exact f i l _ _ A0 B0 j G0 Hj). field; repeat split; assumption.
      + exists s0. intros t. rewrite !dyn_res_v, !DU. destruct ts; ring.
    - rewrite EE by assumption. exists s0. intros t.
      rewrite (dyn_res_ext f ts _ (in_traj d su (bump z (ph * nx + nu * ch) t)) Xt Ut i l Hi Hl), (dyn_res_ext f ts _ (in_traj d su (bump z (ph * nx + nu * ch) s0)) Xt Ut i l Hi Hl); [ring| | | |];
        intros a c Ha Hc; try (apply in_bump_slack; assumption); apply st_bump_high; try assumption; lia.
  Qed.
End DynSlope.
