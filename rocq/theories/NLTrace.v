(** Model of WHERE the code calls the user's functions while NLopt evaluates the problem: the same loops as in [NLFun.v] (Objective.hpp,
    Constraints.hpp, Model.hpp), keeping the arguments of the calls, in order, instead of the values.  [hg] is `hasGradient` (NLOptimizer.hpp:719,
    753, 791, 829): whether NLopt asked for the gradient. *)
From Coq Require Import Bool Arith List BinPos.
From Verif Require Import Scalar Sums Mat Builder NLMap NLFun NLMPC.
Import ListNotations.

Section Trace.
  Context {F : Type} {SO : ScalarOps F}.
  Variable d : dims.
  Notation nx := (d_nx d). Notation nu := (d_nu d). Notation ny := (d_ny d).
  Notation ph := (d_ph d). Notation ch := (d_ch d).

  (** one call of a user function with its arguments: trajectories as lists of rows, vectors as lists *)
  Inductive ucall :=
    | UObj (X Y U : rows F) (e : F)
    | UIeq (X Y U : rows F) (e : F)
    | UEqc (X U : rows F)
    | UDyn (x u : list F) (p : nat)
    | UOut (x u : list F) (i : nat).

  (** Model::getOutput, Model.hpp:73-97 *)
  Definition out_calls (og : option (out_t F)) (X U : mat F) : list ucall :=
    match og with
    | None => []
    | Some _ => loop (ph + 1) (fun i L => L ++ [UOut (lst (mtrans (mrow X i))) (lst (mtrans (mrow U i))) i]) []
    end.
  (** `fuser(X, model->getOutput(X, U), U, e)`, e.g. Objective.hpp:99, and the corresponding two statements for the inequalities, e.g. Constraints.hpp:213-214 *)
  Definition obj_pt og (X U : mat F) (e : F) : list ucall := out_calls og X U ++ [UObj (rows_of X) (rows_of (get_output d og X U)) (rows_of U) e].
  Definition ieq_pt og (X U : mat F) (e : F) : list ucall := out_calls og X U ++ [UIeq (rows_of X) (rows_of (get_output d og X U)) (rows_of U) e].
  Definition eqc_pt (X U : mat F) : list ucall := [UEqc (rows_of X) (rows_of U)].

  (** Objective.hpp:203-217 *)
  Definition obj_jx_calls og (X U : mat F) (e : F) : mat F * list ucall :=
    let Xa := abs1 X in
    loop ph (fun i st => loop nx (fun j '(x, L) =>
      let ix := i + 1 in
      let dx := smul dv_obj (lin Xa j) in
      let x := set_entry x ix j (sadd (ent x ix j) dx) in
      let L := L ++ obj_pt og x U e in
      let x := set_entry x ix j (ssub (ent x ix j) dx) in
      (x, L)) st) (X, []).
  (** Objective.hpp:223-237 *)
  Definition obj_ju_calls og (Ua X U : mat F) (e : F) : mat F * list ucall :=
    loop (ph - 1) (fun i st => loop nu (fun j '(u, L) =>
      let du := smul dv_obj (lin Ua j) in
      let u := set_entry u i j (sadd (ent u i j) du) in
      let L := L ++ obj_pt og X u e in
      let u := set_entry u i j (ssub (ent u i j) du) in
      (u, L)) st) (U, []).
  (** Objective.hpp:239-252 *)
  Definition obj_jl_calls og (Ua X U : mat F) (e : F) : mat F * list ucall :=
    loop nu (fun j '(u, L) =>
      let du := smul dv_obj (lin Ua j) in
      let u := set_entry u (ph - 1) j (sadd (ent u (ph - 1) j) du) in
      let u := set_entry u ph j (sadd (ent u ph j) du) in
      let L := L ++ obj_pt og X u e in
      let u := set_entry u (ph - 1) j (ssub (ent u (ph - 1) j) du) in
      let u := set_entry u ph j (ssub (ent u ph j) du) in
      (u, L)) (U, []).
  (** Objective.hpp:254-258 *)
  Definition obj_je_calls og (X U : mat F) (e : F) : list ucall :=
    let ea := smax (sdec 1%positive 1000000%positive) (sabs e) in
    let de := smul ea dv_obj in
    obj_pt og X U (sadd e de) ++ obj_pt og X U (ssub e de).
  (** Objective::evaluate, Objective.hpp:89-137 *)
  Definition obj_calls (m : mapping F) (hg : bool) og (x0 x : mat F) : list ucall :=
    let X := unwrap_X d m x x0 in let U := unwrap_U d m x in let e := unwrap_e x in
    obj_pt og X U e ++
    if hg then
      let '(X', Lx) := obj_jx_calls og X U e in
      let Ua := abs1 U in
      let '(U', Lu) := obj_ju_calls og Ua X' U e in
      let '(U'', Ll) := obj_jl_calls og Ua X' U' e in
      Lx ++ Lu ++ Ll ++ obj_je_calls og X' U'' e
    else [].

  (** computeIneqJacobian, Constraints.hpp:642-722 *)
  Definition ieq_jx_calls og (X U : mat F) (e : F) : mat F * list ucall :=
    let Xa := abs1 X in
    loop ph (fun i st => loop nx (fun j '(x, L) =>
      let ix := i + 1 in
      let dx := smul dv_con (lin Xa j) in
      let x := set_entry x ix j (sadd (ent x ix j) dx) in
      let L := L ++ ieq_pt og x U e in
      let x := set_entry x ix j (ssub (ent x ix j) (smul s2 dx)) in
      let L := L ++ ieq_pt og x U e in
      let x := set_entry x ix j (sadd (ent x ix j) dx) in
      (x, L)) st) (X, []).
  Definition ieq_ju_calls og (X U : mat F) (e : F) : mat F * list ucall :=
    let Ua := abs1 U in
    loop ph (fun i st => loop nu (fun j '(u, L) =>
      let du := smul dv_con (lin Ua j) in
      let u := set_entry u i j (sadd (ent u i j) du) in
      let L := L ++ ieq_pt og X u e in
      let u := set_entry u i j (ssub (ent u i j) (smul s2 du)) in
      let L := L ++ ieq_pt og X u e in
      let u := set_entry u i j (sadd (ent u i j) du) in
      (u, L)) st) (U, []).
  Definition ieq_je_calls og (X U : mat F) (e : F) : list ucall :=
    let ea := smax dv_con (sabs e) in
    let de := smul ea dv_con in
    ieq_pt og X U (sadd e de) ++ ieq_pt og X U (ssub e de).
  (** evaluateIneq, Constraints.hpp:199-310: the Jacobian is computed whatever [hg] *)
  Definition ieq_calls (m : mapping F) og (x0 x : mat F) : list ucall :=
    let X := unwrap_X d m x x0 in let U := unwrap_U d m x in let e := unwrap_e x in
    ieq_pt og X U e ++
    let '(X', Lx) := ieq_jx_calls og X U e in
    let '(U', Lu) := ieq_ju_calls og X' U e in
    Lx ++ Lu ++ ieq_je_calls og X' U' e.

  (** computeEqJacobian, Constraints.hpp:732-833 *)
  Definition eqc_jx_calls (X U : mat F) : mat F * list ucall :=
    let Xa := abs1 X in
    loop ph (fun i st => loop nx (fun j '(x, L) =>
      let ix := i + 1 in
      let dx := smul dv_con (ent Xa ix j) in
      let x := set_entry x ix j (sadd (ent x ix j) dx) in
      let L := L ++ eqc_pt x U in
      let x := set_entry x ix j (ssub (ent x ix j) (smul s2 dx)) in
      let L := L ++ eqc_pt x U in
      let x := set_entry x ix j (sadd (ent x ix j) dx) in
      (x, L)) st) (X, []).
  Definition eqc_ju_calls (Ua X U : mat F) : mat F * list ucall :=
    loop (ph - 1) (fun i st => loop nu (fun j '(u, L) =>
      let du := smul dv_con (ent Ua (ph - 1) j) in
      let u := set_entry u i j (sadd (ent u i j) du) in
      let L := L ++ eqc_pt X u in
      let u := set_entry u i j (ssub (ent u i j) (smul s2 du)) in
      let L := L ++ eqc_pt X u in
      let u := set_entry u i j (sadd (ent u i j) du) in
      (u, L)) st) (U, []).
  Definition eqc_jl_calls (Ua X U : mat F) : mat F * list ucall :=
    loop nu (fun j '(u, L) =>
      let du := smul dv_con (ent Ua (ph - 1) j) in
      let u := set_entry u (ph - 1) j (sadd (ent u (ph - 1) j) du) in
      let u := set_entry u ph j (sadd (ent u ph j) du) in
      let L := L ++ eqc_pt X u in
      let u := set_entry u (ph - 1) j (ssub (ent u (ph - 1) j) (smul s2 du)) in
      let u := set_entry u ph j (ssub (ent u ph j) (smul s2 du)) in
      let L := L ++ eqc_pt X u in
      let u := set_entry u (ph - 1) j (sadd (ent u (ph - 1) j) du) in
      let u := set_entry u ph j (sadd (ent u ph j) du) in
      (u, L)) (U, []).
  (** evaluateEq, Constraints.hpp:365-448: the Jacobian is computed whatever [hg] *)
  Definition eqc_calls (m : mapping F) (x0 x : mat F) : list ucall :=
    let X := unwrap_X d m x x0 in let U := unwrap_U d m x in
    eqc_pt X U ++
    let '(X', Lx) := eqc_jx_calls X U in
    let Ua := abs1 U in
    let '(U', Lu) := eqc_ju_calls Ua X' U in
    let '(_, Ll) := eqc_jl_calls Ua X' U' in
    Lx ++ Lu ++ Ll.

  (** computeStateEqJacobian, Constraints.hpp:845-906 *)
  Definition dyn_pt (x u : mat F) (p : nat) : list ucall := [UDyn (lst x) (lst u) p].
  Definition dyn_jac_calls (x u : mat F) (p : nat) : list ucall :=
    let Xa := abs1 x in
    let Lx := loop nx (fun i L =>
      let dx := smul dv_con (ent Xa i 0) in
      L ++ dyn_pt (set_entry x i 0 (sadd (ent x i 0) dx)) u p ++ dyn_pt (set_entry x i 0 (ssub (ent x i 0) dx)) u p) [] in
    let Ua := abs1 u in
    let Lu := loop nu (fun i L =>
      let du := smul dv_con (ent Ua i 0) in
      L ++ dyn_pt x (set_entry u i 0 (sadd (ent u i 0) du)) p ++ dyn_pt x (set_entry u i 0 (ssub (ent u i 0) du)) p) [] in
    Lx ++ Lu.
  (** getStateEqConstraints, Constraints.hpp:493-629, and evaluateStateModelEq 319-356; [cont]: continuous-time model *)
  Definition dyn_calls (m : mapping F) (hg cont : bool) (x0 x : mat F) : list ucall :=
    let X := unwrap_X d m x x0 in let U := unwrap_U d m x in
    loop ph (fun i L =>
      let uk := mtrans (mrow U i) in let xk := mtrans (mrow X i) in let xk1 := mtrans (mrow X (i + 1)) in
      L ++ dyn_pt xk uk i ++
      (if cont then dyn_pt xk1 uk i else []) ++
      (if hg then dyn_jac_calls xk uk i else []) ++
      (if hg && cont then dyn_jac_calls xk1 uk i else [])) [].

  (** the calls made when NLopt evaluates a function registered by controller [s] at [z] (compare [eval_obj], [eval_con]) *)
  Definition eval_obj_calls (hg : bool) (s : nmpc F) (x0 : mat F) (z : list F) : list ucall := obj_calls (n_map s) hg (n_out s) x0 (vec_of z).
  Definition eval_con_calls (hg : bool) (s : nmpc F) (x0 : mat F) (k : ckind) (z : list F) : list ucall :=
    match k with
    | KDyn => dyn_calls (n_map s) hg (match n_ts s with Some _ => true | None => false end) x0 (vec_of z)
    | KIneq => ieq_calls (n_map s) (n_out s) x0 (vec_of z)
    | KEq => eqc_calls (n_map s) x0 (vec_of z)
    end.
End Trace.
Arguments ucall F : clear implicits.
