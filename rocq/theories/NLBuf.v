(** Model of the memory the user's functions write into.  A user function that fills a vector (vector field, output function, constraints) receives a
    reference to it; [NLFun.v] idealises such a function to its result.  Here the function is what it is in C++ - a map from the content it finds
    in the vector to the content it leaves there - and the loops of Constraints.hpp are repeated with, at every call, the vector that is handed over:
    - `model->outUser`: set to zero just before (Model.hpp:86-88);
    - `model->vectorField`: a local vector that was resized but not initialised (Constraints.hpp:540-545, 597-600, 869-876, 893-900);
    - `ieqUser`, `eqUser` on the perturbed points: local, resized, not initialised (664-666, 691-693, 711-713; 752-753, 760-761, 784-785, 792-793, 815-816, 824-825);
    - `ieqUser`, `eqUser` at the nominal point and in isFeasible: the members cineq_user, ceq_user (214, 158; 375, 177), which keep what the previous call
      left there, were resized but not initialised by onInit (75, 78), and are touched by nothing else while the constraint is registered.
    What is found in memory that was not initialised is an arbitrary function [mem] of the call (identified by its place in the loops) and the index. *)
From Coq Require Import Bool Arith List BinPos.
From Verif Require Import Scalar Sums Mat Builder LMPC Slice NLMap NLFun NLMPC.
Import ListNotations.

(** user functions as they are called: first argument the content found, result the content left *)
Definition dynb (F : Type) : Type := list F -> list F -> list F -> nat -> list F.
Definition outb (F : Type) : Type := list F -> list F -> list F -> nat -> list F.
Definition ieqb (F : Type) : Type := list F -> rows F -> rows F -> rows F -> F -> list F.
Definition eqcb (F : Type) : Type := list F -> rows F -> rows F -> list F.

Section Buf.
  Context {F : Type} {SO : ScalarOps F}.
  Variable junk : nat -> nat -> F.
  Variable d : dims.
  Variables ni ne : nat.
  Notation nx := (d_nx d). Notation nu := (d_nu d). Notation ny := (d_ny d).
  Notation ph := (d_ph d). Notation ch := (d_ch d).

  Definition zeros (n : nat) : list F := map (fun _ => s0) (seq 0 n).
  (** the functions on a zeroed vector, in the form of [NLFun.v] *)
  Definition out_z (g : outb F) : out_t F := fun x u i k => nth k (g (zeros ny) x u i) s0.
  Definition dyn_z (f : dynb F) : dyn_t F := fun x u p k => nth k (f (zeros nx) x u p) s0.
  Definition ieq_z (c : ieqb F) : ieq_t F := fun X Y U e k => nth k (c (zeros ni) X Y U e) s0.
  Definition eqc_z (c : eqcb F) : eqc_t F := fun X U k => nth k (c (zeros ne) X U) s0.
  (** the vector read back by the library *)
  Definition vec_l (n : nat) (l : list F) : mat F := mvec n (fun k => nth k l s0).

  Variable m : mapping F.
  (** content of a vector of n entries that was not initialised *)
  Definition found (mem : list nat -> nat -> F) (n : nat) (site : list nat) : list F := map (mem site) (seq 0 n).

  (** *** inequalities; [call site X U e] is the result of `y = getOutput(X, U); ieqUser(f, X, y, U, e)`, Constraints.hpp:642-722 *)
  Section I.
    Variable call : list nat -> mat F -> mat F -> F -> mat F.
    Definition ieqb_jx (X U : mat F) (e : F) : mat F * mat F :=
      let Xa := abs1 X in
      loop ph (fun i st => loop nx (fun j '(x, J) =>
        let ix := i + 1 in
        let dx := smul dv_con (lin Xa j) in
        let x := set_entry x ix j (sadd (ent x ix j) dx) in
        let fp := call [0; i; j; 0] x U e in
        let x := set_entry x ix j (ssub (ent x ix j) (smul s2 dx)) in
        let fm := call [0; i; j; 1] x U e in
        let x := set_entry x ix j (sadd (ent x ix j) dx) in
        (x, set_blkcol J nx i j (cdiff fp fm dx))) st) (X, mzero ni (ph * nx)).
    Definition ieqb_ju (X U : mat F) (e : F) : mat F * mat F :=
      let Ua := abs1 U in
      loop ph (fun i st => loop nu (fun j '(u, J) =>
        let du := smul dv_con (lin Ua j) in
        let u := set_entry u i j (sadd (ent u i j) du) in
        let fp := call [1; i; j; 0] X u e in
        let u := set_entry u i j (ssub (ent u i j) (smul s2 du)) in
        let fm := call [1; i; j; 1] X u e in
        let u := set_entry u i j (sadd (ent u i j) du) in
        (u, set_blkcol J nu i j (cdiff fp fm du))) st) (U, mzero ni (ph * nu)).
    Definition ieqb_je (X U : mat F) (e : F) : mat F :=
      let ea := smax dv_con (sabs e) in
      let de := smul ea dv_con in
      cdiff (call [2; 0] X U (sadd e de)) (call [2; 1] X U (ssub e de)) de.
    Definition ieqb_grad (X U : mat F) (e : F) : mat F :=
      let '(X', Jx) := ieqb_jx X U e in
      let '(U', Jmv) := ieqb_ju X' U e in
      let Je := ieqb_je X' U' e in
      mflat (scale_rows d m (glue junk d m ni (mjunk junk (n_dec d) ni) Jx Jmv Je)).
  End I.
  (** *** equalities, Constraints.hpp:732-833 *)
  Section E.
    Variable call : list nat -> mat F -> mat F -> mat F.
    Definition eqcb_jx (X U : mat F) : mat F * mat F :=
      let Xa := abs1 X in
      loop ph (fun i st => loop nx (fun j '(x, J) =>
        let ix := i + 1 in
        let dx := smul dv_con (ent Xa ix j) in
        let x := set_entry x ix j (sadd (ent x ix j) dx) in
        let fp := call [0; i; j; 0] x U in
        let x := set_entry x ix j (ssub (ent x ix j) (smul s2 dx)) in
        let fm := call [0; i; j; 1] x U in
        let x := set_entry x ix j (sadd (ent x ix j) dx) in
        (x, set_blkcol J nx i j (cdiff fp fm dx))) st) (X, mzero ne (ph * nx)).
    Definition eqcb_ju_inner (Ua X U J : mat F) : mat F * mat F :=
      loop (ph - 1) (fun i st => loop nu (fun j '(u, J) =>
        let du := smul dv_con (ent Ua (ph - 1) j) in
        let u := set_entry u i j (sadd (ent u i j) du) in
        let fp := call [1; i; j; 0] X u in
        let u := set_entry u i j (ssub (ent u i j) (smul s2 du)) in
        let fm := call [1; i; j; 1] X u in
        let u := set_entry u i j (sadd (ent u i j) du) in
        (u, set_blkcol J nu i j (cdiff fp fm du))) st) (U, J).
    Definition eqcb_ju_last (Ua X U J : mat F) : mat F * mat F :=
      loop nu (fun j '(u, J) =>
        let du := smul dv_con (ent Ua (ph - 1) j) in
        let u := set_entry u (ph - 1) j (sadd (ent u (ph - 1) j) du) in
        let u := set_entry u ph j (sadd (ent u ph j) du) in
        let fp := call [2; j; 0] X u in
        let u := set_entry u (ph - 1) j (ssub (ent u (ph - 1) j) (smul s2 du)) in
        let u := set_entry u ph j (ssub (ent u ph j) (smul s2 du)) in
        let fm := call [2; j; 1] X u in
        let u := set_entry u (ph - 1) j (sadd (ent u (ph - 1) j) du) in
        let u := set_entry u ph j (sadd (ent u ph j) du) in
        (u, set_blkcol J nu (ph - 1) j (cdiff fp fm du))) (U, J).
    Definition eqcb_grad (X U : mat F) : mat F :=
      let '(X', Jx) := eqcb_jx X U in
      let Ua := abs1 U in
      let '(U', Jmv) := eqcb_ju_inner Ua X' U (mzero ne (ph * nu)) in
      let '(_, Jmv) := eqcb_ju_last Ua X' U' Jmv in
      mflat (scale_rows d m (glue junk d m ne (mjunk junk (n_dec d) ne) Jx Jmv (mzero ne 1))).
  End E.
  (** *** dynamics, Constraints.hpp:493-629, 845-906; sites: nominal [i; 0], [i; 1]; Jacobian at the first / second point [i; 2 or 3; state 0 / input 1; entry; sign] *)
  Section D.
    Variable call : list nat -> mat F -> mat F -> nat -> mat F.
    Definition dynb_jac (b : nat) (x u : mat F) (p : nat) : mat F * mat F :=
      let Xa := abs1 x in
      let Jx := loop nx (fun i J =>
        let dx := smul dv_con (ent Xa i 0) in
        let fp := call [p; b; 0; i; 0] (set_entry x i 0 (sadd (ent x i 0) dx)) u p in
        let fm := call [p; b; 0; i; 1] (set_entry x i 0 (ssub (ent x i 0) dx)) u p in
        set_mcol J i (cdiff fp fm dx)) (mzero nx nx) in
      let Ua := abs1 u in
      let Jmv := loop nu (fun i J =>
        let du := smul dv_con (ent Ua i 0) in
        let fp := call [p; b; 1; i; 0] x (set_entry u i 0 (sadd (ent u i 0) du)) p in
        let fm := call [p; b; 1; i; 1] x (set_entry u i 0 (ssub (ent u i 0) du)) p in
        set_mcol J i (cdiff fp fm du)) (mzero nx nu) in
      (Jx, Jmv).
    Definition seqb_cont (ts : F) (X U : mat F) (i : nat) (st : nat * mat F * mat F * mat F) : nat * mat F * mat F * mat F :=
      let '(ic, ceq, Jx, Jmv) := st in
      let Ix := mident nx nx in let Sx := mdiag (mp_inv m) in let Tx := mdiag (mp_st m) in
      let uk := mtrans (mrow U i) in let xk := mtrans (mrow X i) in
      let h := sdiv ts s2 in
      let xk1 := mtrans (mrow X (i + 1)) in
      let fk := call [i; 0] xk uk i in let fk1 := call [i; 1] xk1 uk i in
      let ceq := set_middle_rows ceq ic nx (msub (madd xk (mscale h (madd fk fk1))) xk1) in
      let ceq := set_middle_rows ceq ic nx (div_rows (middle_rows ceq ic nx) (mp_st m)) in
      let '(Ak, Bk) := dynb_jac 2 xk uk i in
      let '(Ak1, Bk1) := dynb_jac 3 xk1 uk i in
      let Jx := if 0 <? i then set_blk d Jx ic nx (i - 1) (madd Ix (mmul (mmul (mscale h Sx) Ak) Tx)) else Jx in
      let Jx := set_blk d Jx ic nx i (madd (mopp Ix) (mmul (mmul (mscale h Sx) Ak1) Tx)) in
      let Jmv := set_blk d Jmv ic nu i (mmul (mscale h Sx) (madd Bk Bk1)) in
      (ic + nx, ceq, Jx, Jmv).
    Definition seqb_disc (X U : mat F) (i : nat) (st : nat * mat F * mat F * mat F) : nat * mat F * mat F * mat F :=
      let '(ic, ceq, Jx, Jmv) := st in
      let Ix := mident nx nx in let Sx := mdiag (mp_inv m) in let Tx := mdiag (mp_st m) in
      let uk := mtrans (mrow U i) in let xk := mtrans (mrow X i) in
      let xk1 := call [i; 0] xk uk i in
      let ceq := set_middle_rows ceq ic nx (msub (mtrans (mrow X (i + 1))) xk1) in
      let ceq := set_middle_rows ceq ic nx (div_rows (middle_rows ceq ic nx) (mp_st m)) in
      let '(Ak, Bk) := dynb_jac 2 xk uk i in
      let Ak := mmul (mmul Sx Ak) Tx in
      let Bk := mmul Sx Bk in
      let Jx := set_blk d Jx ic nx i Ix in
      let Jx := if 0 <? i then set_blk d Jx ic nx (i - 1) (mopp Ak) else Jx in
      let Jmv := set_blk d Jmv ic nu i (mopp Bk) in
      (ic + nx, ceq, Jx, Jmv).
    Definition seqb_evaluate (ts : option F) (x0 x : mat F) : mat F * mat F :=
      let X := unwrap_X d m x x0 in let U := unwrap_U d m x in
      let '(_, ceq, Jx, Jmv) :=
        loop ph (match ts with Some t => seqb_cont t X U | None => seqb_disc X U end)
          (0, mzero (ph * nx) 1, mzero (ph * nx) (ph * nx), mzero (ph * nx) (ph * nu)) in
      (ceq, mflat (glue junk d m (ph * nx) (mzero (n_dec d) (ph * nx)) Jx Jmv (mzero (ph * nx) 1))).
  End D.

  (** the calls *)
  Definition icall (c : ieqb F) (og : option (out_t F)) (buf : list F) (X U : mat F) (e : F) : list F :=
    c buf (rows_of X) (rows_of (get_output d og X U)) (rows_of U) e.
  Definition ecall (c : eqcb F) (buf : list F) (X U : mat F) : list F := c buf (rows_of X) (rows_of U).
  Definition dcall (f : dynb F) (buf : list F) (x u : mat F) (p : nat) : list F := f buf (lst x) (lst u) p.
End Buf.

(** *** The controller *)
Section Ctl.
  Context {F : Type} {SO : ScalarOps F}.
  Variable junk : nat -> nat -> F.
  Variable d : dims.
  Variables ni ne : nat.

  (** the user's functions, and the members cineq_user and ceq_user *)
  Record ufun := mkUF { uf_dyn : option (dynb F); uf_out : option (outb F); uf_ieq : option (ieqb F); uf_eqc : option (eqcb F) }.
  Definition bufs : Type := list F * list F.
  Definition memory : Type := list nat -> nat -> F.

  (** what the solver receives when it asks for a constraint; the members are overwritten.  [s] supplies scalings, sampling time and tolerances. *)
  Definition evalb_con (mem : memory) (u : ufun) (s : nmpc F) (b : bufs) (x0 : mat F) (k : ckind) (z : list F) : outcome (list F * list F) * bufs :=
    let fin '(v, g) := if mok v && mok g then Ok (lst v, lst g) else UB in
    let m := n_map s in let og := option_map (out_z d) (uf_out u) in
    let X := unwrap_X d m (vec_of z) x0 in let U := unwrap_U d m (vec_of z) in let e := unwrap_e (vec_of z) in
    match k with
    | KDyn => match uf_dyn u with
              | None => (UB, b)
              | Some f => (fin (seqb_evaluate junk d m (fun site x v p => vec_l (d_nx d) (dcall f (found mem (d_nx d) site) x v p)) (n_ts s) x0 (vec_of z)), b)
              end
    | KIneq => match uf_ieq u with
               | None => (UB, b)
               | Some c => let v := icall d c og (fst b) X U e in
                           (fin (vec_l ni v, ieqb_grad junk d ni m (fun site X U e => vec_l ni (icall d c og (found mem ni site) X U e)) X U e), (v, snd b))
               end
    | KEq => match uf_eqc u with
             | None => (UB, b)
             | Some c => let v := ecall c (snd b) X U in
                         (fin (vec_l ne v, eqcb_grad junk d ne m (fun site X U => vec_l ne (ecall c (found mem ne site) X U)) X U), (fst b, v))
             end
    end.
  (** isFeasible, Constraints.hpp:145-190 *)
  Definition feasb (u : ufun) (s : nmpc F) (b : bufs) (x0 x : mat F) : bool * bufs :=
    let m := n_map s in let og := option_map (out_z d) (uf_out u) in
    let X := unwrap_X d m x x0 in let U := unwrap_U d m x in let e := unwrap_e x in
    let '(ok, b) := match uf_ieq u with
                    | None => (true, b)
                    | Some c => let v := icall d c og (fst b) X U e in (negb (any_gt (map Some (lst (vec_l ni v))) (n_itol s)), (v, snd b))
                    end in
    if negb ok then (false, b) else
    match uf_eqc u with
    | None => (true, b)
    | Some c => let v := ecall c (snd b) X U in (negb (eq_violated (lst (vec_l ne v)) (n_etol s)), (fst b, v))
    end.
  (** the evaluations NLopt makes, one after the other: which constraint, where, and what lies in memory then *)
  Definition visits (u : ufun) (s : nmpc F) (x0 : mat F) (b : bufs) (vs : list (memory * ckind * list F)) : bufs :=
    fold_left (fun b '(mem, k, z) => snd (evalb_con mem u s b x0 k z)) vs b.
  (** optimize (NLOptimizer.hpp:498-607): NLopt evaluates at the points [vs] and returns [z]; the flag is that of [feasb], everything else as in [NLMPC.v] *)
  Variable dyn_eq : bool.
  Definition with_flag (fl : bool) (r : lresult F) : lresult F := mkRes (r_code r) fl (r_cost r) (r_status r) (r_cmd r).
  Definition optimizeb (u : ufun) (s : nmpc F) (b : bufs) (x0 u0 : mat F) (vs : list (memory * ckind * list F)) (a : nanswer F) : outcome (nmpc F * lresult F * bufs) :=
    let b := visits u s x0 b vs in
    match n_step junk d ni ne dyn_eq s (NOptimize x0 u0 a) with
    | Ok (s', RResult r) =>
        match a with
        | NThrow => Ok (s', r, b)
        | NSolved z _ _ => let '(fl, b) := feasb u s b x0 (mvec (n_dec d) z) in
                           Ok (with_run (n_opt s') (n_first s') (n_slack s') (with_flag fl r) (n_seq s') s', with_flag fl r, b)
        end
    | _ => UB
    end.
End Ctl.
Arguments ufun : clear implicits.
