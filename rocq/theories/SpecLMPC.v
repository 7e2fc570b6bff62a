(** Independent specification of linear MPC: plant, constraints, cost, configuration.
    Nothing here refers to the QP matrices of the code. Steps and components are numbered
    from 0; [k] is a prediction step, [j] a component. *)
From Coq Require Import Bool Arith ZArith List.
From Verif Require Import Scalar Sums Mat Slice Builder LMPC.
Import ListNotations.

Section Spec.
  Context {F : Type} {SO : ScalarOps F}.
  Local Open Scope S_scope.
  Local Open Scope nat_scope.

  (** A user's configuration, step by step. *)
  Record plant := mkPlant { pl_A : nat -> nat -> F; pl_B : nat -> nat -> F; pl_C : nat -> nat -> F }.
  Record cfg := mkCfg {
    g_plant : option plant;                     (* last setStateSpaceModel *)
    g_Bd : nat -> nat -> F; g_Dd : nat -> nat -> F;
    g_wy : nat -> nat -> F; g_wu : nat -> nat -> F; g_wdu : nat -> nat -> F;      (* weights of step k *)
    g_xlo : nat -> nat -> ext F; g_xhi : nat -> nat -> ext F;
    g_ylo : nat -> nat -> ext F; g_yhi : nat -> nat -> ext F;
    g_ulo : nat -> nat -> ext F; g_uhi : nat -> nat -> ext F;
    g_slo : nat -> ext F; g_shi : nat -> ext F; g_sX : nat -> F; g_sU : nat -> F; (* scalar constraint *)
    g_yr : nat -> nat -> F; g_ur : nat -> nat -> F; g_dur : nat -> nat -> F;      (* references *)
    g_d : nat -> nat -> F;                                                       (* measured disturbance *)
    g_par : lparams F }.

  Definition cfg0 : cfg :=
    let z := fun _ _ => s0 in
    mkCfg None z z z z z (fun _ _ => MInf) (fun _ _ => PInf) (fun _ _ => MInf) (fun _ _ => PInf)
      (fun _ _ => MInf) (fun _ _ => PInf) (fun _ => MInf) (fun _ => PInf) (fun _ => s0) (fun _ => s0)
      z z z z (mkLP 100 s0 false (sdec 16%positive 10%positive) (sdec 1%positive 1000000%positive) (sdec 1%positive 10000%positive) (sdec 1%positive 10000%positive)
        (sdec 1%positive 1000%positive) (sdec 1%positive 1000%positive) false true true).   (* LParameters: iterations, time limit, warm start, alpha, rho, the four tolerances, verbose, adaptive rho, polish *)

  (** Does slice [sl] designate step [k]?  (the documented half-open interval, or everything) *)
  Definition in_slice (sl : slice) (k : nat) : bool :=
    slice_unset sl || ((sl_start sl <=? Z.of_nat k)%Z && (Z.of_nat k <? sl_end sl)%Z).

  (** write vector v at the steps selected by [sel] *)
  Definition put {T} (sel : nat -> bool) (v : nat -> T) (f : nat -> nat -> T) : nat -> nat -> T :=
    fun k j => if sel k then v j else f k j.
  Definition put1 {T} (sel : nat -> bool) (v : T) (f : nat -> T) : nat -> T :=
    fun k => if sel k then v else f k.
  (** column k of a matrix given by the user: the values of step k *)
  Definition cols {T} (M : mat T) : nat -> nat -> T := fun k j => ent M j k.
  Definition vec {T} (M : mat T) : nat -> T := fun j => ent M j 0.

  Definition set_plant c p := mkCfg p (g_Bd c) (g_Dd c) (g_wy c) (g_wu c) (g_wdu c) (g_xlo c) (g_xhi c)
    (g_ylo c) (g_yhi c) (g_ulo c) (g_uhi c) (g_slo c) (g_shi c) (g_sX c) (g_sU c) (g_yr c) (g_ur c) (g_dur c) (g_d c) (g_par c).
  Definition set_dmodel c bd dd := mkCfg (g_plant c) bd dd (g_wy c) (g_wu c) (g_wdu c) (g_xlo c) (g_xhi c)
    (g_ylo c) (g_yhi c) (g_ulo c) (g_uhi c) (g_slo c) (g_shi c) (g_sX c) (g_sU c) (g_yr c) (g_ur c) (g_dur c) (g_d c) (g_par c).
  Definition set_weights c a b e := mkCfg (g_plant c) (g_Bd c) (g_Dd c) a b e (g_xlo c) (g_xhi c)
    (g_ylo c) (g_yhi c) (g_ulo c) (g_uhi c) (g_slo c) (g_shi c) (g_sX c) (g_sU c) (g_yr c) (g_ur c) (g_dur c) (g_d c) (g_par c).
  Definition set_xb c lo hi := mkCfg (g_plant c) (g_Bd c) (g_Dd c) (g_wy c) (g_wu c) (g_wdu c) lo hi
    (g_ylo c) (g_yhi c) (g_ulo c) (g_uhi c) (g_slo c) (g_shi c) (g_sX c) (g_sU c) (g_yr c) (g_ur c) (g_dur c) (g_d c) (g_par c).
  Definition set_yb c lo hi := mkCfg (g_plant c) (g_Bd c) (g_Dd c) (g_wy c) (g_wu c) (g_wdu c) (g_xlo c) (g_xhi c)
    lo hi (g_ulo c) (g_uhi c) (g_slo c) (g_shi c) (g_sX c) (g_sU c) (g_yr c) (g_ur c) (g_dur c) (g_d c) (g_par c).
  Definition set_ub c lo hi := mkCfg (g_plant c) (g_Bd c) (g_Dd c) (g_wy c) (g_wu c) (g_wdu c) (g_xlo c) (g_xhi c)
    (g_ylo c) (g_yhi c) lo hi (g_slo c) (g_shi c) (g_sX c) (g_sU c) (g_yr c) (g_ur c) (g_dur c) (g_d c) (g_par c).
  Definition set_sc c lo hi X U := mkCfg (g_plant c) (g_Bd c) (g_Dd c) (g_wy c) (g_wu c) (g_wdu c) (g_xlo c) (g_xhi c)
    (g_ylo c) (g_yhi c) (g_ulo c) (g_uhi c) lo hi X U (g_yr c) (g_ur c) (g_dur c) (g_d c) (g_par c).
  Definition set_refs c y u du := mkCfg (g_plant c) (g_Bd c) (g_Dd c) (g_wy c) (g_wu c) (g_wdu c) (g_xlo c) (g_xhi c)
    (g_ylo c) (g_yhi c) (g_ulo c) (g_uhi c) (g_slo c) (g_shi c) (g_sX c) (g_sU c) y u du (g_d c) (g_par c).
  Definition set_dist c dd := mkCfg (g_plant c) (g_Bd c) (g_Dd c) (g_wy c) (g_wu c) (g_wdu c) (g_xlo c) (g_xhi c)
    (g_ylo c) (g_yhi c) (g_ulo c) (g_uhi c) (g_slo c) (g_shi c) (g_sX c) (g_sU c) (g_yr c) (g_ur c) (g_dur c) dd (g_par c).
  Definition set_par c p := mkCfg (g_plant c) (g_Bd c) (g_Dd c) (g_wy c) (g_wu c) (g_wdu c) (g_xlo c) (g_xhi c)
    (g_ylo c) (g_yhi c) (g_ulo c) (g_uhi c) (g_slo c) (g_shi c) (g_sX c) (g_sU c) (g_yr c) (g_ur c) (g_dur c) (g_d c) p.

  (** Last writer wins: what an accepted call means for the configuration.
      (The scalar constraint has ONE multiplier pair for all steps: the last one given.) *)
  Definition cfg_apply (op : lop F) (c : cfg) : cfg :=
    let all := fun _ : nat => true in
    match op with
    | LSetModel A B C => set_plant c (Some (mkPlant (ent A) (ent B) (ent C)))
    | LSetDisturbances Bd Dd => set_dmodel c (ent Bd) (ent Dd)
    | LSetStateBoundsMat mn mx => set_xb c (cols mn) (cols mx)
    | LSetInputBoundsMat mn mx => set_ub c (cols mn) (cols mx)
    | LSetOutputBoundsMat mn mx => set_yb c (cols mn) (cols mx)
    | LSetStateBounds mn mx sl => set_xb c (put (in_slice sl) (vec mn) (g_xlo c)) (put (in_slice sl) (vec mx) (g_xhi c))
    | LSetInputBounds mn mx sl => set_ub c (put (in_slice sl) (vec mn) (g_ulo c)) (put (in_slice sl) (vec mx) (g_uhi c))
    | LSetOutputBounds mn mx sl => set_yb c (put (in_slice sl) (vec mn) (g_ylo c)) (put (in_slice sl) (vec mx) (g_yhi c))
    | LSetWeightsMat a b e => set_weights c (cols a) (cols b) (cols e)
    | LSetWeights a b e sl => set_weights c (put (in_slice sl) (vec a) (g_wy c)) (put (in_slice sl) (vec b) (g_wu c))
                                          (put (in_slice sl) (vec e) (g_wdu c))
    | LSetScalar mn mx X U sl => set_sc c (put1 (in_slice sl) mn (g_slo c)) (put1 (in_slice sl) mx (g_shi c)) (vec X) (vec U)
    | LSetScalarIdx i mn mx X U => set_sc c (put1 (Nat.eqb (N.to_nat i)) mn (g_slo c))
                                           (put1 (Nat.eqb (N.to_nat i)) mx (g_shi c)) (vec X) (vec U)
    | LSetExoMat M => set_dist c (cols M)
    | LSetExo v sl => set_dist c (put (in_slice sl) (vec v) (g_d c))
    | LSetRefsMat y u du => set_refs c (cols y) (cols u) (cols du)
    | LSetRefs y u du sl => set_refs c (put (in_slice sl) (vec y) (g_yr c)) (put (in_slice sl) (vec u) (g_ur c))
                                       (put (in_slice sl) (vec du) (g_dur c))
    | LSetParams (PLinear p) => set_par c p
    | LSetParams PNonLinear => c
    | LSetWarm _ _ | LSetSampling | LSetInputScale | LSetStateScale | LOptimize _ _ _ => c
    end.
  (** rejected calls (false, or an exception) mean nothing *)
  Definition cfg_step (c : cfg) (opr : lop F * ret F) : cfg :=
    match snd opr with RBool false | RThrow => c | _ => cfg_apply (fst opr) c end.
  Definition cfg_run (h : list (lop F * ret F)) : cfg := fold_left cfg_step h cfg0.

  (** ** The plant and the optimal control problem *)
  Variable d : dims.
  Notation nx := (d_nx d). Notation nu := (d_nu d). Notation ndu := (d_ndu d).
  Notation ny := (d_ny d). Notation ph := (d_ph d). Notation ch := (d_ch d).

  (** stage 0 and stage 1 share the settings of step 0, stage k>0 uses those of step k-1 *)
  Definition stp (i : nat) : nat := Nat.pred i.

  (** a trajectory: states x 0 .. x ph, commands u 0 .. u (ph-1), previous command um *)
  Definition ucmd (um : nat -> F) (u : nat -> nat -> F) (i : nat) : nat -> F :=   (* u(i-1) *)
    match i with O => um | S k => u k end.
  Definition dcmd (um : nat -> F) (u : nat -> nat -> F) (i j : nat) : F :=        (* u(i)-u(i-1) *)
    (u i j - ucmd um u i j)%S.

  Definition trajectory (p : plant) (c : cfg) (x0 : nat -> F) (x u : nat -> nat -> F) : Prop :=
    (forall j, j < nx -> x 0 j = x0 j) /\
    (forall k j, k < ph -> j < nx ->
       x (S k) j = (ssum nx (fun l => pl_A p j l * x k l) + ssum nu (fun l => pl_B p j l * u k l)
                    + ssum ndu (fun l => g_Bd c j l * g_d c k l))%S).
  Definition output (p : plant) (c : cfg) (x : nat -> nat -> F) (i j : nat) : F :=
    (ssum nx (fun l => pl_C p j l * x i l) + ssum ndu (fun l => g_Dd c j l * g_d c (stp i) l))%S.

  Definition state_ok (c : cfg) (x : nat -> nat -> F) : Prop :=
    forall i j, i <= ph -> j < nx -> within (g_xlo c (stp i) j) (g_xhi c (stp i) j) (x i j).
  Definition output_ok (p : plant) (c : cfg) (x : nat -> nat -> F) : Prop :=
    forall i j, i <= ph -> j < ny -> within (g_ylo c (stp i) j) (g_yhi c (stp i) j) (output p c x i j).
  (** what the code imposes on commands: the bound of step i constrains u(i-1); the last also u(ph-1) *)
  Definition input_ok (c : cfg) (um : nat -> F) (u : nat -> nat -> F) : Prop :=
    forall i j, i <= ph -> j < nu ->
      within (g_ulo c (Nat.min i (ph - 1)) j) (g_uhi c (Nat.min i (ph - 1)) j) (ucmd um u i j).
  (** what the code imposes on increments: frozen after step ch *)
  Definition frozen (um : nat -> F) (u : nat -> nat -> F) : Prop :=
    forall i j, ch < i -> i < ph -> j < nu -> u i j = ucmd um u i j.
  Definition scalar_ok (c : cfg) (um : nat -> F) (x u : nat -> nat -> F) : Prop :=
    forall i, i <= ph -> within (g_slo c (stp i)) (g_shi c (stp i))
      (ssum nx (fun l => g_sX c l * x i l) + ssum nu (fun l => g_sU c l * ucmd um u i l))%S.

  Definition admissible (p : plant) (c : cfg) (x0 um : nat -> F) (x u : nat -> nat -> F) : Prop :=
    trajectory p c x0 x u /\ state_ok c x /\ output_ok p c x /\ input_ok c um u /\ frozen um u /\
    scalar_ok c um x u.

  Definition sq (a : F) : F := (a * a)%S.
  (** weighted tracking cost over the horizon *)
  Definition tracking_cost (p : plant) (c : cfg) (um : nat -> F) (x u : nat -> nat -> F) : F :=
    (ssum (ph + 1) (fun i => ssum ny (fun j => g_wy c (stp i) j * sq (output p c x i j - g_yr c (stp i) j)))
     + ssum (ph + 1) (fun i => ssum nu (fun j => g_wu c (stp i) j * sq (ucmd um u i j - g_ur c (stp i) j)))
     + ssum ph (fun i => ssum nu (fun j => g_wdu c i j * sq (dcmd um u i j - g_dur c (stp i) j))))%S.

  (** *** documented argument sizes *)
  Definition op_sized (op : lop F) : Prop :=
    match op with
    | LSetModel A B C => sized A nx nx /\ sized B nx nu /\ sized C ny nx
    | LSetDisturbances Bd Dd => sized Bd nx ndu /\ sized Dd ny ndu
    | LSetStateBoundsMat mn mx => sized mn nx ph /\ sized mx nx ph
    | LSetInputBoundsMat mn mx => sized mn nu ch /\ sized mx nu ch
    | LSetOutputBoundsMat mn mx => sized mn ny ph /\ sized mx ny ph
    | LSetStateBounds mn mx _ => sized mn nx 1 /\ sized mx nx 1
    | LSetInputBounds mn mx _ => sized mn nu 1 /\ sized mx nu 1
    | LSetOutputBounds mn mx _ => sized mn ny 1 /\ sized mx ny 1
    | LSetWeightsMat a b e => sized a ny ph /\ sized b nu ph /\ sized e nu ph
    | LSetWeights a b e _ => sized a ny 1 /\ sized b nu 1 /\ sized e nu 1
    | LSetScalar _ _ X U _ => sized X nx 1 /\ sized U nu 1
    | LSetScalarIdx _ _ _ X U => sized X nx 1 /\ sized U nu 1
    | LSetExoMat M => sized M ndu ph
    | LSetExo v _ => sized v ndu 1
    | LSetRefsMat y u du => sized y ny ph /\ sized u nu ph /\ sized du nu ph
    | LSetRefs y u du _ => sized y ny 1 /\ sized u nu 1 /\ sized du nu 1
    | LOptimize x0 u0 _ => sized x0 nx 1 /\ sized u0 nu 1
    | LSetParams _ | LSetWarm _ _ | LSetSampling | LSetInputScale | LSetStateScale => True
    end.
  Definition slice_of (op : lop F) : option slice :=
    match op with
    | LSetStateBounds _ _ sl | LSetInputBounds _ _ sl | LSetOutputBounds _ _ sl
    | LSetWeights _ _ _ sl | LSetScalar _ _ _ _ sl | LSetExo _ sl | LSetRefs _ _ _ sl => Some sl
    | _ => None end.
  (** the slices a setter that works on a horizon of [H] steps accepts: 'all', or a nonempty interval that ends within the horizon and whose start and
      end add up to at most the horizon (the rule the code applies, C09) *)
  Definition slice_accepted (H : nat) (sl : slice) : Prop :=
    slice_unset sl = true \/ (sl_start sl < sl_end sl /\ sl_end sl <= Z.of_nat H /\ sl_start sl + sl_end sl <= Z.of_nat H)%Z.
  (** slices that are 'all' or start at a non-negative step *)
  Definition slice_proper (sl : slice) : Prop := slice_unset sl = true \/ (0 <= sl_start sl)%Z.
  Definition op_proper (op : lop F) : Prop :=
    match slice_of op with Some sl => slice_proper sl | None => True end.

  (** *** configurations equal on the horizon (only the entries that exist are compared) *)
  Definition eqm {T} (r c : nat) (f g : nat -> nat -> T) : Prop := forall i j, i < r -> j < c -> f i j = g i j.
  Definition eqv {T} (n : nat) (f g : nat -> T) : Prop := forall j, j < n -> f j = g j.
  Definition same_plant (a b : option plant) : Prop :=
    match a, b with
    | None, None => True
    | Some p, Some q => eqm nx nx (pl_A p) (pl_A q) /\ eqm nx nu (pl_B p) (pl_B q) /\ eqm ny nx (pl_C p) (pl_C q)
    | _, _ => False end.
  Definition same_model (a b : cfg) : Prop :=
    same_plant (g_plant a) (g_plant b) /\ eqm nx ndu (g_Bd a) (g_Bd b) /\ eqm ny ndu (g_Dd a) (g_Dd b).
  Definition same_weights (a b : cfg) : Prop :=
    eqm ph ny (g_wy a) (g_wy b) /\ eqm ph nu (g_wu a) (g_wu b) /\ eqm ph nu (g_wdu a) (g_wdu b).
  Definition same_xb (a b : cfg) : Prop := eqm ph nx (g_xlo a) (g_xlo b) /\ eqm ph nx (g_xhi a) (g_xhi b).
  Definition same_yb (a b : cfg) : Prop := eqm ph ny (g_ylo a) (g_ylo b) /\ eqm ph ny (g_yhi a) (g_yhi b).
  Definition same_ub (a b : cfg) : Prop := eqm ph nu (g_ulo a) (g_ulo b) /\ eqm ph nu (g_uhi a) (g_uhi b).
  Definition same_sb (a b : cfg) : Prop := eqv ph (g_slo a) (g_slo b) /\ eqv ph (g_shi a) (g_shi b).
  Definition same_mult (a b : cfg) : Prop := eqv nx (g_sX a) (g_sX b) /\ eqv nu (g_sU a) (g_sU b).
  Definition same_refs (a b : cfg) : Prop :=
    eqm ph ny (g_yr a) (g_yr b) /\ eqm ph nu (g_ur a) (g_ur b) /\ eqm ph nu (g_dur a) (g_dur b).
  Definition same_dist (a b : cfg) : Prop := eqm ph ndu (g_d a) (g_d b).
  Record ceq (a b : cfg) : Prop := {
    ce_model : same_model a b; ce_w : same_weights a b; ce_xb : same_xb a b; ce_yb : same_yb a b; ce_ub : same_ub a b;
    ce_sb : same_sb a b; ce_mult : same_mult a b; ce_refs : same_refs a b; ce_dist : same_dist a b;
    ce_par : g_par a = g_par b }.

  (** *** which arguments are safe *)
  Definition slice_safe (sl : slice) : Prop :=
    slice_unset sl = true \/ (sl_end sl <= sl_start sl)%Z \/ (0 <= sl_end sl)%Z.
  Definition op_safe (op : lop F) : Prop :=
    match op with
    | LSetModel A B C => gm A nx nx /\ gm B nx nu /\ gm C ny nx
    | LSetDisturbances Bd Dd => gm Bd nx ndu /\ gm Dd ny ndu
    | LSetStateBoundsMat mn mx => gm mn nx ph /\ gm mx nx ph
    | LSetInputBoundsMat mn mx => gm mn nu ch /\ gm mx nu ch /\ ch = ph
    | LSetOutputBoundsMat mn mx => gm mn ny ph /\ gm mx ny ph
    | LSetStateBounds mn mx sl => gm mn nx 1 /\ gm mx nx 1 /\ slice_int sl /\ slice_safe sl
    | LSetInputBounds mn mx sl => gm mn nu 1 /\ gm mx nu 1 /\ slice_int sl /\ slice_safe sl /\
                                  (slice_unset sl = true -> ch = ph)
    | LSetOutputBounds mn mx sl => gm mn ny 1 /\ gm mx ny 1 /\ slice_int sl /\ slice_safe sl
    | LSetWeightsMat a b e => gm a ny ph /\ gm b nu ph /\ gm e nu ph
    | LSetWeights a b e sl => gm a ny 1 /\ gm b nu 1 /\ gm e nu 1 /\ slice_int sl /\ slice_safe sl
    | LSetScalar _ _ X U sl => gm X nx 1 /\ gm U nu 1 /\ slice_int sl /\ slice_safe sl
    | LSetScalarIdx _ _ _ X U => gm X nx 1 /\ gm U nu 1
    | LSetExoMat M => gm M ndu ph
    | LSetExo v sl => gm v ndu 1 /\ slice_int sl /\ slice_safe sl
    | LSetRefsMat y u du => gm y ny ph /\ gm u nu ph /\ gm du nu ph
    | LSetRefs y u du sl => gm y ny 1 /\ gm u nu 1 /\ gm du nu 1 /\ slice_int sl /\ slice_safe sl
    | LSetParams p => p <> PNonLinear
    | LSetWarm wx wy => wx = [] \/ wy = [] \/ (n_var d <= length wx /\ n_con d <= length wy)
    | LSetSampling | LSetInputScale | LSetStateScale => True
    | LOptimize x0 u0 a => gm x0 nx 1 /\ gm u0 nu 1 /\ a <> ASetupFailed
    end.
End Spec.
Arguments plant F : clear implicits. Arguments cfg F : clear implicits.

(** An LMPC object [s] obtained from construction by the calls and answers listed in [h]: arguments of the
    documented sizes, slices 'all' or starting at a non-negative step, no undefined behaviour on the way. *)
Definition reached {F} {SO : ScalarOps F} (junk : nat -> nat -> F) (ejunk : nat -> nat -> ext F) (d : dims)
    (s : lmpc F) (h : list (lop F * ret F)) : Prop :=
  exists ops, Forall (op_sized d) ops /\ Forall op_proper ops /\
              l_play junk ejunk d (l_init junk ejunk d) ops = Ok (s, h).
