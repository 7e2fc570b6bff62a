(** Where the user's functions are evaluated: specification.  [X], [U], [e] are the trajectories and the slack described by the decision vector NLopt asks
    about; the lists give, in order, the trajectories (and slack) on which a user function is called. *)
From Coq Require Import Bool Arith List BinPos.
From Verif Require Import Scalar Sums Builder NLFun SpecNL NLMPC NLTrace.
Import ListNotations.

Section SpecTrace.
  Context {F : Type} {SO : ScalarOps F}.
  Variable d : dims.
  Notation nx := (d_nx d). Notation nu := (d_nu d). Notation ny := (d_ny d).
  Notation ph := (d_ph d). Notation ch := (d_ch d).
  Notation traj := (nat -> nat -> F).

  (** increments are relative to a magnitude of at least one *)
  Definition mag (v : F) : F := smax (sabs v) s1.
  (** the entry with linear index [j] of a table of ph+1 rows read column by column *)
  Definition nth_entry (X : traj) (j : nat) : F := X (j mod (ph + 1)) (j / (ph + 1)).
  (** the last two rows (they hold the same input) moved together *)
  Definition pert2 (U : traj) (j : nat) (t : F) : traj := pert (pert U (ph - 1) j t) ph j t.
  (** for each row 0..n-1 and each component 0..m-1 *)
  Definition each {T} (n m : nat) (f : nat -> nat -> list T) : list T := flat_map (fun i => flat_map (f i) (seq 0 m)) (seq 0 n).

  (** objective, when NLopt asks for the gradient: forward differences of size 1e-6 (central for the slack) *)
  Definition obj_points (X U : traj) (e : F) : list (traj * traj * F) :=
    let dx j := (dv_obj * mag (nth_entry X j))%S in
    let du j := (dv_obj * mag (nth_entry U j))%S in
    let de := (smax (sdec 1%positive 1000000%positive) (sabs e) * dv_obj)%S in
    [(X, U, e)] ++
    each ph nx (fun i j => [(pert X (i + 1) j (dx j), U, e)]) ++
    each (ph - 1) nu (fun i j => [(X, pert U i j (du j), e)]) ++
    flat_map (fun j => [(X, pert2 U j (du j), e)]) (seq 0 nu) ++
    [(X, U, (e + de)%S); (X, U, (e - de)%S)].
  (** inequality constraints: central differences of size 2^-26 *)
  Definition ieq_points (X U : traj) (e : F) : list (traj * traj * F) :=
    let dx j := (dv_con * mag (nth_entry X j))%S in
    let du j := (dv_con * mag (nth_entry U j))%S in
    let de := (smax dv_con (sabs e) * dv_con)%S in
    [(X, U, e)] ++
    each ph nx (fun i j => [(pert X (i + 1) j (dx j), U, e); (pert X (i + 1) j (- dx j)%S, U, e)]) ++
    each ph nu (fun i j => [(X, pert U i j (du j), e); (X, pert U i j (- du j)%S, e)]) ++
    [(X, U, (e + de)%S); (X, U, (e - de)%S)].
  (** equality constraints *)
  Definition eqc_points (X U : traj) : list (traj * traj) :=
    let dx i j := (dv_con * mag (X (i + 1)%nat j))%S in
    let du j := (dv_con * mag (U (ph - 1)%nat j))%S in
    [(X, U)] ++
    each ph nx (fun i j => [(pert X (i + 1) j (dx i j), U); (pert X (i + 1) j (- dx i j)%S, U)]) ++
    each (ph - 1) nu (fun i j => [(X, pert U i j (du j)); (X, pert U i j (- du j)%S)]) ++
    flat_map (fun j => [(X, pert2 U j (du j)); (X, pert2 U j (- du j)%S)]) (seq 0 nu).
  (** dynamics f(x, u, p): around the point (x, u) *)
  Definition dyn_around (x u : nat -> F) : list ((nat -> F) * (nat -> F)) :=
    flat_map (fun j => let t := (dv_con * mag (x j))%S in [(bump x j t, u); (bump x j (- t)%S, u)]) (seq 0 nx) ++
    flat_map (fun j => let t := (dv_con * mag (u j))%S in [(x, bump u j t); (x, bump u j (- t)%S)]) (seq 0 nu).
  (** step p of the horizon; [cont]: continuous-time model (the trapezoidal rule needs both ends of the interval); [hg]: gradient requested *)
  Definition dyn_points (hg cont : bool) (X U : traj) (p : nat) : list ((nat -> F) * (nat -> F)) :=
    [(X p, U p)] ++
    (if cont then [(X (p + 1)%nat, U p)] else []) ++
    (if hg then dyn_around (X p) (U p) else []) ++
    (if hg && cont then dyn_around (X (p + 1)%nat) (U p) else []).

  (** the calls that go with one pair of trajectories: the output function at every step, if there is one, then the function itself *)
  Definition outs (og : option (out_t F)) (X U : traj) : list (ucall F) :=
    match og with None => [] | Some _ => map (fun i => UOut (traj_row nx X i) (traj_row nu U i) i) (seq 0 (ph + 1)) end.
  Definition obj_shown og '(X, U, e) : list (ucall F) :=
    outs og X U ++ [UObj (tab (ph + 1) nx X) (tab (ph + 1) ny (out_traj d og X U)) (tab (ph + 1) nu U) e].
  Definition ieq_shown og '(X, U, e) : list (ucall F) :=
    outs og X U ++ [UIeq (tab (ph + 1) nx X) (tab (ph + 1) ny (out_traj d og X U)) (tab (ph + 1) nu U) e].
  Definition eqc_shown '(X, U) : list (ucall F) := [UEqc (tab (ph + 1) nx X) (tab (ph + 1) nu U)].
  Definition dyn_shown (p : nat) '(x, u) : list (ucall F) := [UDyn (map x (seq 0 nx)) (map u (seq 0 nu)) p].

  (** how many calls of each function a list contains *)
  Definition is_out (c : ucall F) : bool := match c with UOut _ _ _ => true | _ => false end.
  Definition n_outs (L : list (ucall F)) : nat := length (filter is_out L).
  Definition n_mains (L : list (ucall F)) : nat := length (filter (fun c => negb (is_out c)) L).
End SpecTrace.

(** two controllers whose user functions give the same answer to the call [c] (the function's whole output buffer) *)
Definition same_answer {F} (s s' : nmpc F) (c : ucall F) : Prop :=
  match c with
  | UObj X Y U e => option_map (fun f => f X Y U e) (n_obj s) = option_map (fun f => f X Y U e) (n_obj s')
  | UIeq X Y U e => option_map (fun f => f X Y U e) (n_ieq s) = option_map (fun f => f X Y U e) (n_ieq s')
  | UEqc X U => option_map (fun f => f X U) (n_eqc s) = option_map (fun f => f X U) (n_eqc s')
  | UDyn x u p => option_map (fun f => f x u p) (n_dyn s) = option_map (fun f => f x u p) (n_dyn s')
  | UOut x u i => option_map (fun f => f x u i) (n_out s) = option_map (fun f => f x u i) (n_out s')
  end.
