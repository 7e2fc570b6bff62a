(** Specification of the configuration of a non-linear controller: what a history of calls and solver answers means,
    in the user's terms.  Nothing here refers to the state of the modelled objects. *)
From Coq Require Import Bool Arith ZArith List.
From Verif Require Import Scalar Sums Mat Slice Builder LMPC NLMap NLFun SpecNL NLMPC SpecLMPC.
Import ListNotations.

Section SpecNLC.
  Context {F : Type} {SO : ScalarOps F}.
  Variable junk : nat -> nat -> F.
  Variable d : dims.
  Variables ni ne : nat.
  Variable dyn_eq : bool.
  Notation nx := (d_nx d). Notation nu := (d_nu d). Notation ny := (d_ny d).
  Notation ph := (d_ph d). Notation ch := (d_ch d).

  Record ncfg := mkNcfg {
    k_su : nat -> F; k_sx : nat -> F;                              (* scalings *)
    k_ts : option F;                                               (* continuous time, with this sampling time *)
    k_obj : option (obj_t F); k_dyn : option (dyn_t F); k_out : option (out_t F);
    k_ieq : option (ieq_t F); k_itol : F; k_eqc : option (eqc_t F); k_etol : F;
    k_xlo : nat -> nat -> ext F; k_xhi : nat -> nat -> ext F;      (* step k of the prediction horizon: decision variables of state k+1 *)
    k_ulo : nat -> nat -> ext F; k_uhi : nat -> nat -> ext F;      (* step k of the control horizon *)
    k_bobj : bool; k_cons : list (ckind * list F);                 (* what the solver accepted *)
    k_par : sparams F; k_warm : bool;
    (* memory of past optimizations: no success so far?, vector the next warm start shifts, slack *)
    k_first : bool; k_vec : nat -> F; k_slack : F }.

  (** stopping criteria after setOptimizerParameters: the time limit is only taken over when positive *)
  Definition par_of (p : nparams F) (old : sparams F) : sparams F :=
    mkSP (np_rftol p) (np_rxtol p) (np_aftol p) (np_axtol p)
         (if sltb s0 (np_tlim p) then np_tlim p else sp_maxtime old) (np_maxit p).

  Definition ncfg0 : ncfg :=
    mkNcfg (fun _ => s1) (fun _ => s1) None None None None None s0 None s0
      (fun _ _ => MInf) (fun _ _ => PInf) (fun _ _ => MInf) (fun _ _ => PInf)
      false [] (mkSP (sopp s1) (sopp s1) (sopp s1) (sopp s1) s0 100) false true (fun _ => s0) s0.

  Definition kset_scale c su sx := mkNcfg su sx (k_ts c) (k_obj c) (k_dyn c) (k_out c) (k_ieq c) (k_itol c) (k_eqc c) (k_etol c)
    (k_xlo c) (k_xhi c) (k_ulo c) (k_uhi c) (k_bobj c) (k_cons c) (k_par c) (k_warm c) (k_first c) (k_vec c) (k_slack c).
  Definition kset_model c ts f g := mkNcfg (k_su c) (k_sx c) ts (k_obj c) f g (k_ieq c) (k_itol c) (k_eqc c) (k_etol c)
    (k_xlo c) (k_xhi c) (k_ulo c) (k_uhi c) (k_bobj c) (k_cons c) (k_par c) (k_warm c) (k_first c) (k_vec c) (k_slack c).
  Definition kset_obj c f b := mkNcfg (k_su c) (k_sx c) (k_ts c) f (k_dyn c) (k_out c) (k_ieq c) (k_itol c) (k_eqc c) (k_etol c)
    (k_xlo c) (k_xhi c) (k_ulo c) (k_uhi c) b (k_cons c) (k_par c) (k_warm c) (k_first c) (k_vec c) (k_slack c).
  Definition kset_ieq c f t := mkNcfg (k_su c) (k_sx c) (k_ts c) (k_obj c) (k_dyn c) (k_out c) f t (k_eqc c) (k_etol c)
    (k_xlo c) (k_xhi c) (k_ulo c) (k_uhi c) (k_bobj c) (k_cons c) (k_par c) (k_warm c) (k_first c) (k_vec c) (k_slack c).
  Definition kset_eqc c f t := mkNcfg (k_su c) (k_sx c) (k_ts c) (k_obj c) (k_dyn c) (k_out c) (k_ieq c) (k_itol c) f t
    (k_xlo c) (k_xhi c) (k_ulo c) (k_uhi c) (k_bobj c) (k_cons c) (k_par c) (k_warm c) (k_first c) (k_vec c) (k_slack c).
  Definition kset_bounds c xl xh ul uh := mkNcfg (k_su c) (k_sx c) (k_ts c) (k_obj c) (k_dyn c) (k_out c) (k_ieq c) (k_itol c) (k_eqc c) (k_etol c)
    xl xh ul uh (k_bobj c) (k_cons c) (k_par c) (k_warm c) (k_first c) (k_vec c) (k_slack c).
  Definition kset_cons c l := mkNcfg (k_su c) (k_sx c) (k_ts c) (k_obj c) (k_dyn c) (k_out c) (k_ieq c) (k_itol c) (k_eqc c) (k_etol c)
    (k_xlo c) (k_xhi c) (k_ulo c) (k_uhi c) (k_bobj c) l (k_par c) (k_warm c) (k_first c) (k_vec c) (k_slack c).
  Definition kset_par c p w := mkNcfg (k_su c) (k_sx c) (k_ts c) (k_obj c) (k_dyn c) (k_out c) (k_ieq c) (k_itol c) (k_eqc c) (k_etol c)
    (k_xlo c) (k_xhi c) (k_ulo c) (k_uhi c) (k_bobj c) (k_cons c) p w (k_first c) (k_vec c) (k_slack c).
  Definition kset_mem c fi v sl := mkNcfg (k_su c) (k_sx c) (k_ts c) (k_obj c) (k_dyn c) (k_out c) (k_ieq c) (k_itol c) (k_eqc c) (k_etol c)
    (k_xlo c) (k_xhi c) (k_ulo c) (k_uhi c) (k_bobj c) (k_cons c) (k_par c) (k_warm c) fi v sl.

  (** steps designated by a slice: the half-open interval, with -1 as the beginning resp. the end of the horizon; a start
      below -1 designates nothing *)
  Definition nl_sel (H : nat) (sl : slice) (k : nat) : bool :=
    (-1 <=? sl_start sl)%Z &&
    ((if (sl_start sl =? -1)%Z then 0%Z else sl_start sl) <=? Z.of_nat k)%Z &&
    (Z.of_nat k <? (if (sl_end sl =? -1)%Z then Z.of_nat H else sl_end sl))%Z.

  (** the constant vector: state x0 at every predicted step, command u0 at every control step *)
  Definition constant_vec (x0 u0 : nat -> F) (old : nat -> F) (r : nat) : F :=
    if r <? ph * nx then x0 (r mod nx) else if r <? ph * nx + nu * ch then u0 ((r - ph * nx) mod nu) else old r.
  (** the vector an optimization starts from, before it is shifted *)
  Definition base_vec (c : ncfg) (x0 u0 : nat -> F) : nat -> F :=
    if k_first c || negb (k_warm c) then constant_vec x0 u0 (k_vec c) else k_vec c.

  Definition ncfg_apply (op : nop F) (c : ncfg) : ncfg :=
    match op with
    | NSetSampling ts => kset_model c (Some ts) (k_dyn c) (k_out c)
    | NSetParams (NPNonLinear p) => kset_par c (par_of p (k_par c)) (np_warm p)
    | NSetParams NPLinear => c
    | NSetInputScale sc => kset_scale c (vec sc) (k_sx c)
    | NSetStateScale sc => kset_scale c (k_su c) (vec sc)
    | NSetObjective f acc => kset_obj c (Some f) (k_bobj c || acc)
    | NSetDynamics f tol acc =>
        let c := kset_model c (k_ts c) (Some f) (k_out c) in
        if acc then kset_cons c (k_cons c ++ [(KDyn, repeat tol (ph * nx))]) else c
    | NSetOutput g => kset_model c (k_ts c) (k_dyn c) (Some g)
    | NSetIneq f tol acc =>
        let c := kset_ieq c (Some f) tol in if acc then kset_cons c (k_cons c ++ [(KIneq, repeat tol ni)]) else c
    | NSetEq f tol acc =>
        let c := kset_eqc c (Some f) tol in if acc then kset_cons c (k_cons c ++ [(KEq, repeat tol ne)]) else c
    | NSetStateBoundsMat lo hi => kset_bounds c (cols lo) (cols hi) (k_ulo c) (k_uhi c)
    | NSetInputBoundsMat lo hi => kset_bounds c (k_xlo c) (k_xhi c) (cols lo) (cols hi)
    | NSetStateBounds lo hi sl =>
        kset_bounds c (put (nl_sel ph sl) (vec lo) (k_xlo c)) (put (nl_sel ph sl) (vec hi) (k_xhi c)) (k_ulo c) (k_uhi c)
    | NSetInputBounds lo hi sl =>
        kset_bounds c (k_xlo c) (k_xhi c) (put (nl_sel ch sl) (vec lo) (k_ulo c)) (put (nl_sel ch sl) (vec hi) (k_uhi c))
    | NSetOutputBoundsMat _ _ | NSetOutputBounds _ _ _ => c
    | NOptimize x0 u0 NThrow => kset_mem c (k_first c) (base_vec c (vec x0) (vec u0)) (k_slack c)
    | NOptimize x0 u0 (NSolved z _ _) => kset_mem c false z (z (v_slack d))
    end.
  (** calls that returned false because of their slice, or threw, change nothing (setStateSpaceFunction also
      replaces the dynamics when it returns false) *)
  Definition ncfg_step (c : ncfg) (e : nop F * ret F) : ncfg :=
    match e with
    | (NSetStateBounds _ _ _, RBool false) | (NSetInputBounds _ _ _, RBool false) => c
    | (op, _) => ncfg_apply op c end.
  Definition ncfg_run (h : list (nop F * ret F)) : ncfg := fold_left ncfg_step h ncfg0.

  (** documented argument sizes; matrices that were themselves built within bounds *)
  Definition nop_sized (op : nop F) : Prop :=
    match op with
    | NSetInputScale sc => gm sc nu 1
    | NSetStateScale sc => gm sc nx 1
    | NSetStateBoundsMat lo hi => gm lo nx ph /\ gm hi nx ph
    | NSetInputBoundsMat lo hi => gm lo nu ch /\ gm hi nu ch
    | NSetStateBounds lo hi _ => gm lo nx 1 /\ gm hi nx 1
    | NSetInputBounds lo hi _ => gm lo nu 1 /\ gm hi nu 1
    | NOptimize x0 u0 _ => gm x0 nx 1 /\ gm u0 nu 1
    | _ => True end.

  (** an NLMPC object reached from construction by the calls and answers in [h] without undefined behaviour *)
  Definition nreached (s : nmpc F) (h : list (nop F * ret F)) : Prop :=
    exists ops, Forall nop_sized ops /\ n_life junk d ni ne dyn_eq ops = Ok (s, h).

  (** calls without undefined behaviour *)
  Definition nslice_safe (sl : slice) : Prop := slice_int sl /\ (slice_unset sl = true \/ (sl_end sl <= sl_start sl)%Z \/ (-1 <= sl_end sl /\ int_min < sl_start sl)%Z).
  Definition nop_safe (op : nop F) : Prop :=
    nop_sized op /\
    match op with
    | NSetParams p => p <> NPLinear
    | NSetEq _ _ _ => dyn_eq = false /\ 0 < ne
    | NSetStateBounds _ _ sl | NSetInputBounds _ _ sl => nslice_safe sl
    | _ => True end.
End SpecNLC.
Arguments ncfg F : clear implicits.
