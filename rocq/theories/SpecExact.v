(** Reading the data of one arithmetic as numbers of another: a configuration, a controller's QP data, number by number.
    Used to say what the QP built in IEEE doubles means over the rationals. *)
From Coq Require Import Bool Arith ZArith List.
From Verif Require Import Scalar Sums Mat Slice Csc Builder LMPC SpecLMPC.
Import ListNotations.

Section Map.
  Context {F G : Type}.
  Variable val : F -> G.
  (** bounds: infinities stay infinities *)
  Definition emap (a : ext F) : ext G := match a with Fin x => Fin (val x) | PInf => PInf | MInf => MInf end.
  Definition plant_map (p : plant F) : plant G :=
    mkPlant (fun i j => val (pl_A p i j)) (fun i j => val (pl_B p i j)) (fun i j => val (pl_C p i j)).
  Definition lp_map (p : lparams F) : lparams G :=
    mkLP (lp_maxit p) (val (lp_tlim p)) (lp_warm p) (val (lp_alpha p)) (val (lp_rho p)) (val (lp_eps_rel p)) (val (lp_eps_abs p))
      (val (lp_eps_pinf p)) (val (lp_eps_dinf p)) (lp_verbose p) (lp_adaptive p) (lp_polish p).
  Definition cfg_map (c : cfg F) : cfg G :=
    let f := fun (g : nat -> nat -> F) i j => val (g i j) in
    let e := fun (g : nat -> nat -> ext F) i j => emap (g i j) in
    mkCfg (option_map plant_map (g_plant c)) (f (g_Bd c)) (f (g_Dd c)) (f (g_wy c)) (f (g_wu c)) (f (g_wdu c))
      (e (g_xlo c)) (e (g_xhi c)) (e (g_ylo c)) (e (g_yhi c)) (e (g_ulo c)) (e (g_uhi c))
      (fun k => emap (g_slo c k)) (fun k => emap (g_shi c k)) (fun j => val (g_sX c j)) (fun j => val (g_sU c j))
      (f (g_yr c)) (f (g_ur c)) (f (g_dur c)) (f (g_d c)) (lp_map (g_par c)).
  Definition csc_map (M : csc F) : csc G := mkCsc (c_rows M) (c_cols M) (c_p M) (c_i M) (map val (c_x M)).
  (** the data handed to the solver *)
  Definition call_map (c : call F) : call G :=
    mkCall (cl_n c) (cl_m c) (csc_map (cl_P c)) (map val (cl_q c)) (csc_map (cl_A c)) (map emap (cl_l c)) (map emap (cl_u c))
      (lp_map (cl_par c)) (option_map (fun xy => (map val (fst xy), map val (snd xy))) (cl_warm c)).

  (** every number of the configuration that enters the constraints satisfies [good] (weights and references do not) *)
  Variable good : F -> Prop.
  Definition egood (a : ext F) : Prop := match a with Fin x => good x | _ => True end.
  Variable d : dims.
  Notation nx := (d_nx d). Notation nu := (d_nu d). Notation ndu := (d_ndu d).
  Notation ny := (d_ny d). Notation ph := (d_ph d).
  Definition allm (r c : nat) {T} (P : T -> Prop) (f : nat -> nat -> T) : Prop := forall i j, i < r -> j < c -> P (f i j).
  Record constraints_good (p : plant F) (c : cfg F) : Prop := {
    cg_A : allm nx nx good (pl_A p); cg_B : allm nx nu good (pl_B p); cg_C : allm ny nx good (pl_C p);
    cg_Bd : allm nx ndu good (g_Bd c); cg_Dd : allm ny ndu good (g_Dd c); cg_d : allm ph ndu good (g_d c);
    cg_xlo : allm ph nx egood (g_xlo c); cg_xhi : allm ph nx egood (g_xhi c);
    cg_ylo : allm ph ny egood (g_ylo c); cg_yhi : allm ph ny egood (g_yhi c);
    cg_ulo : allm ph nu egood (g_ulo c); cg_uhi : allm ph nu egood (g_uhi c);
    cg_slo : forall k, k < ph -> egood (g_slo c k); cg_shi : forall k, k < ph -> egood (g_shi c k);
    cg_sX : forall j, j < nx -> good (g_sX c j); cg_sU : forall j, j < nu -> good (g_sU c j) }.
End Map.
