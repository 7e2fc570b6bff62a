(** A concrete scaled, constrained non-linear controller over the rationals, used to exhibit instances. *)
From Coq Require Import Bool Arith ZArith List Lia QArith Qcanon.
From Verif Require Import Scalar Sums Mat Slice Builder LMPC SpecLMPC NLMap NLFun SpecNL NLMPC SpecNLC SpecNLP Wit.
Import ListNotations.
Local Open Scope nat_scope.

Definition nS (d : dims) (ni ne : nat) (ops : list (nop Qc)) : nmpc Qc :=
  match n_life qj d ni ne false ops with Ok (s, _) => s | UB => n_init d end.
Definition nH (d : dims) (ni ne : nat) (ops : list (nop Qc)) : list (nop Qc * ret Qc) :=
  match n_life qj d ni ne false ops with Ok (_, h) => h | UB => [] end.
Lemma n_reached d ni ne ops : Forall (nop_sized d) ops -> is_ok (n_life qj d ni ne false ops) = true ->
  nreached qj d ni ne false (nS d ni ne ops) (nH d ni ne ops).
Proof.
  intros H1 H2. exists ops. refine (conj H1 _). unfold nS, nH.
  destruct (n_life qj d ni ne false ops) as [[s h]|]; [reflexivity|discriminate].
Qed.
Ltac n_reach := apply n_reached; [all_sized|vm_compute; reflexivity].

(** two states, one input, one output, ph = 3, ch = 2; state scale (2, 5), input scale 4 *)
Definition nd : dims := mkDims 2 1 0 1 3 2.
Definition at2 (X : rows Qc) (i j : nat) : Qc := nth j (nth i X []) (q 0).
Definition n_f : dyn_t Qc := fun x u k l => (if l =? 0 then nth 0 x (q 0) + nth 1 x (q 0) else nth 1 x (q 0) + nth 0 u (q 0))%S.
Definition n_g : out_t Qc := fun x u k l => (nth 0 x (q 0) + nth 0 u (q 0) + q (Z.of_nat k))%S.
Definition n_J : obj_t Qc := fun X Y U e => (at2 X 1 0 * at2 X 1 0 + at2 X 3 1 + at2 U 0 0 + at2 Y 2 0 + q 2 * e)%S.
Definition n_ci : ieq_t Qc := fun X Y U e k => (if k =? 0 then at2 X 2 0 * at2 U 1 0 - q 50 else at2 U 3 0 - e - q 7)%S.
Definition n_ce : eqc_t Qc := fun X U k => (at2 X 3 0 - at2 U 2 0)%S.
Definition n_scales : list (nop Qc) := [NSetStateScale (qv [2; 5]%Z); NSetInputScale (qv [4]%Z)].
Definition n_cfg : list (nop Qc) :=
  [NSetObjective n_J true; NSetDynamics n_f (q 0) true; NSetOutput n_g; NSetIneq n_ci (q 1) true; NSetEq n_ce (q 2) true;
   NSetStateBounds (qe [-10; -20]%Z) (qe [10; 20]%Z) (mkSlice (-1) (-1)); NSetInputBounds (qe [-3]%Z) (qe [3]%Z) (mkSlice 0 1);
   NSetParams (NPNonLinear (mkNP 50 (q 9) true (q 1) (q 1) (q 1) (q 1) false))].
Definition n_ops : list (nop Qc) := n_scales ++ n_cfg.
Definition n_x0 : mat Qc := qv [1; 2]%Z.
Definition n_u0 : mat Qc := qv [1]%Z.
Definition n_z : list Qc := map q [1; 2; 3; 4; 5; 6; 1; 2; 0]%Z.
Definition n_zf (r : nat) : Qc := nth r n_z (q 0).
Lemma nd_ch : 0 < d_ch nd. Proof. cbn. lia. Qed.
Lemma nd_ph : d_ch nd <= d_ph nd. Proof. cbn. lia. Qed.
Example n_ops_reached : nreached qj nd 2 1 false (nS nd 2 1 n_ops) (nH nd 2 1 n_ops).
Proof. n_reach. Qed.
Definition n_c : ncfg Qc := ncfg_run nd 2 1 (nH nd 2 1 n_ops).
Lemma n_c_scaled : scaled nd n_c.
Proof. intros j Hj. destruct j as [|[|j]]; [| |cbn in Hj; lia]; intros E; apply (f_equal (fun x => sleb x s0)) in E; vm_compute in E; discriminate. Qed.
Lemma n_z_len : length n_z = n_dec nd. Proof. reflexivity. Qed.
Definition n_opt_op : nop Qc := NOptimize n_x0 n_u0 (NSolved n_zf 1 (Fin (q 3))).
Definition is_res (o : outcome (nmpc Qc * ret Qc)) : bool := match o with Ok (_, RResult _) => true | _ => false end.
Lemma is_res_ok o : is_res o = true -> exists s' r, o = Ok (s', RResult r).
Proof. destruct o as [[s' []]|]; try discriminate. eauto. Qed.
Example n_opt_runs : exists s' r, n_step qj nd 2 1 false (nS nd 2 1 n_ops) n_opt_op = Ok (s', RResult r).
Proof. apply is_res_ok. vm_compute. reflexivity. Qed.
Definition kind_eqb (a b : ckind) : bool := match a, b with KDyn, KDyn | KIneq, KIneq | KEq, KEq => true | _, _ => false end.
Lemma has_con d ni ne (s : nmpc Qc) x0 u0 k : existsb (fun kt => kind_eqb (fst kt) k) (n_cons s) = true ->
  exists tol ev, In (k, tol, ev) (nc_cons (n_call qj d ni ne s x0 u0)).
Proof.
  intros H. apply existsb_exists in H as ([k' t] & I & E). assert (k' = k) as -> by (destruct k', k; cbn in E; congruence).
  exists t. eexists. cbn [nc_cons n_call]. apply in_map_iff. exists (k, t). split; [reflexivity|exact I].
Qed.
Lemma has_obj d ni ne (s : nmpc Qc) x0 u0 : n_bobj s = true -> exists ev, nc_obj (n_call qj d ni ne s x0 u0) = Some ev.
Proof. intros H. cbn [nc_obj n_call]. rewrite H. eauto. Qed.
