(** Model of the functions the non-linear solver evaluates: include/mpc/NLMPC/Model.hpp (output), Objective.hpp and
    Constraints.hpp.  User callbacks are total functions of the values they receive (rows of the trajectories as lists), so
    a stateful callback is outside the model (throwing ones: NLExc.v).  Callbacks that fill a vector are modelled by the value of each
    component; components beyond the size the code allocates are never read. *)
From Coq Require Import Bool Arith List BinPos.
From Verif Require Import Scalar Sums Mat Builder NLMap.
Import ListNotations.

Section Rows.
  Context {F : Type}.
  (** a trajectory as the callback sees it: the list of its rows *)
  Definition rows : Type := list (list F).
  Definition tab (n m : nat) (X : nat -> nat -> F) : rows := map (fun i => map (X i) (seq 0 m)) (seq 0 n).
  Definition rows_of (M : mat F) : rows := tab (mrows M) (mcols M) (ent M).
  (** a column vector as the callback sees it *)
  Definition lst (V : mat F) : list F := map (fun i => ent V i 0) (seq 0 (mrows V)).

  (** callback types, IDimensionable.hpp:94-149 *)
  Definition dyn_t : Type := list F -> list F -> nat -> nat -> F.   (** state, input, step; component *)
  Definition out_t : Type := list F -> list F -> nat -> nat -> F.
  Definition obj_t : Type := rows -> rows -> rows -> F -> F.       (** states, outputs, inputs, slack *)
  Definition ieq_t : Type := rows -> rows -> rows -> F -> nat -> F.
  Definition eqc_t : Type := rows -> rows -> nat -> F.
End Rows.
Arguments rows : clear implicits. Arguments dyn_t : clear implicits. Arguments out_t : clear implicits.
Arguments obj_t : clear implicits. Arguments ieq_t : clear implicits. Arguments eqc_t : clear implicits.

Section Fun.
  Context {F : Type} {SO : ScalarOps F}.
  Variable junk : nat -> nat -> F.
  Variable d : dims.
  Variables ni ne : nat.
  Notation nx := (d_nx d). Notation nu := (d_nu d). Notation ny := (d_ny d).
  Notation ph := (d_ph d). Notation ch := (d_ch d).
  Variable m : mapping F.

  (** further Eigen preconditions an expression depends on *)
  Definition guard (b : bool) (M : mat F) : mat F := mkMat (mrows M) (mcols M) (ent M) (mok M && b).

  (** Model::getOutput, Model.hpp:73-97 *)
  Definition get_output (og : option (out_t F)) (X U : mat F) : mat F :=
    let Y := mzero (ph + 1) ny in
    match og with
    | None => Y
    | Some g => loop (ph + 1) (fun i Y =>
        let x := mtrans (mrow X i) in let u := mtrans (mrow U i) in
        set_mrow Y i (guard (mok x && mok u) (mtrans (mvec ny (g (lst x) (lst u) i))))) Y
    end.

  (** max(|.|, 1) of every entry: Objective.hpp:200-201, 220-221; Constraints.hpp:655, 683, 741, 771 *)
  Definition abs1 (M : mat F) : mat F := mkMat (mrows M) (mcols M) (fun i j => smax (sabs (ent M i j)) s1) (mok M).
  (** M.array()(k): linear index, column major *)
  Definition lin (M : mat F) (k : nat) : F := ent M (k mod mrows M) (k / mrows M).

  (** ** Objective.hpp *)
  (** line 194 *)
  Definition dv_obj : F := sdec 1%positive 1000000%positive.
  Definition obj_call (f : obj_t F) (og : option (out_t F)) (X U : mat F) (e : F) : F :=
    f (rows_of X) (rows_of (get_output og X U)) (rows_of U) e.
  (** lines 203-217 *)
  Definition obj_jx (f : obj_t F) og (X U : mat F) (e f0 : F) : mat F * mat F :=
    let Xa := abs1 X in
    loop ph (fun i st => loop nx (fun j '(x, J) =>
      let ix := i + 1 in
      let dx := smul dv_obj (lin Xa j) in
      let x := set_entry x ix j (sadd (ent x ix j) dx) in
      let fv := obj_call f og x U e in
      let x := set_entry x ix j (ssub (ent x ix j) dx) in
      let df := sdiv (ssub fv f0) dx in
      (x, set_entry J j i df)) st) (X, mzero nx ph).
  (** lines 223-237 *)
  Definition obj_ju_inner (f : obj_t F) og (Ua X U J : mat F) (e f0 : F) : mat F * mat F :=
    loop (ph - 1) (fun i st => loop nu (fun j '(u, J) =>
      let du := smul dv_obj (lin Ua j) in
      let u := set_entry u i j (sadd (ent u i j) du) in
      let fv := obj_call f og X u e in
      let u := set_entry u i j (ssub (ent u i j) du) in
      let df := sdiv (ssub fv f0) du in
      (u, set_entry J j i df)) st) (U, J).
  (** lines 239-252 *)
  Definition obj_ju_last (f : obj_t F) og (Ua X U J : mat F) (e f0 : F) : mat F * mat F :=
    loop nu (fun j '(u, J) =>
      let du := smul dv_obj (lin Ua j) in
      let u := set_entry u (ph - 1) j (sadd (ent u (ph - 1) j) du) in
      let u := set_entry u ph j (sadd (ent u ph j) du) in
      let fv := obj_call f og X u e in
      let u := set_entry u (ph - 1) j (ssub (ent u (ph - 1) j) du) in
      let u := set_entry u ph j (ssub (ent u ph j) du) in
      let df := sdiv (ssub fv f0) du in
      (u, set_entry J j (ph - 1) df)) (U, J).
  (** lines 254-258 *)
  Definition obj_je (f : obj_t F) og (X U : mat F) (e : F) : F :=
    let ea := smax (sdec 1%positive 1000000%positive) (sabs e) in
    let de := smul ea dv_obj in
    let f1 := obj_call f og X U (sadd e de) in
    let f2 := obj_call f og X U (ssub e de) in
    sdiv (ssub f1 f2) (smul s2 de).
  (** computeJacobian, lines 186-259: (Jx, Jmv, Je) *)
  Definition obj_jacobian (f : obj_t F) og (X U : mat F) (f0 e : F) : mat F * mat F * F :=
    let '(X, Jx) := obj_jx f og X U e f0 in
    let Ua := abs1 U in
    let '(U, Jmv) := obj_ju_inner f og Ua X U (mzero nu ph) e f0 in
    let '(U, Jmv) := obj_ju_last f og Ua X U Jmv e f0 in
    (Jx, Jmv, obj_je f og X U e).
  (** lines 112-119 and 125-132: write the columns of J one after the other into v, starting at position c *)
  Definition put_cols (J : mat F) (c : nat) (v : mat F) : nat * mat F :=
    loop (mcols J) (fun j st => loop (mrows J) (fun i '(c, v) => (S c, set_entry v c 0 (ent J i j))) st) (c, v).
  (** evaluate, lines 89-175.  The value is returned whether or not the gradient is requested; Xmat is rescaled at
      lines 104-107 after its last use. *)
  Definition obj_evaluate (f : obj_t F) og (x0 x : mat F) : F * mat F :=
    let X := unwrap_X d m x x0 in let U := unwrap_U d m x in let e := unwrap_e x in
    let value := obj_call f og X U e in
    let '(Jx, Jmv, Je) := obj_jacobian f og X U value e in
    let g := mjunk junk (n_dec d) 1 in
    let '(c, g) := put_cols Jx 0 g in
    let '(_, jv) := put_cols Jmv 0 (mjunk junk (ph * nu) 1) in
    let res := mmul (mtrans (mp_z2u m)) jv in
    let '(c, g) := loop (ch * nu) (fun j '(c, g) => (S c, set_entry g c 0 (ent res j 0))) (c, g) in
    (value, guard (mok res) (set_entry g (n_dec d - 1) 0 Je)).

  (** ** Constraints.hpp *)
  (** line 931: sqrt of the machine epsilon 2^-52 *)
  Definition dv_con : F := sdec 1%positive 67108864%positive.
  Definition ieq_call (c : ieq_t F) og (X U : mat F) (e : F) : mat F :=
    mvec ni (c (rows_of X) (rows_of (get_output og X U)) (rows_of U) e).
  Definition eqc_call (c : eqc_t F) (X U : mat F) : mat F := mvec ne (c (rows_of X) (rows_of U)).
  (** (f_plus - f_minus) / (2 * dx) *)
  Definition cdiff (fp fm : mat F) (dx : F) : mat F :=
    mkMat (mrows fp) (mcols fp) (fun i j => sdiv (ssub (ent fp i j) (ent fm i j)) (smul s2 dx)) (mok fp && mok fm && (mrows fp =? mrows fm)).
  (** J.middleCols(i * w, w).col(j) = v *)
  Definition set_blkcol (J : mat F) (w i j : nat) (v : mat F) : mat F :=
    guard ((i * w + w <=? mcols J) && (j <? w)) (set_mcol J (i * w + j) v).

  (** glueJacobian 461-485 *)
  Definition glue (n : nat) (Jres Jstate Jman Jcon : mat F) : mat F :=
    let Jres := loop ph (fun i J => set_middle_rows J (i * nx) nx (mtrans (block Jstate 0 (i * nx) (mrows Jstate) nx))) Jres in
    let Jm := loop ph (fun i J => set_block J 0 (i * nu) (mcols Jres) nu (block Jman 0 (i * nu) (mrows Jman) nu)) (mjunk junk n (ph * nu)) in
    let Jres := set_middle_rows Jres (ph * nx) (nu * ch) (mtrans (mmul Jm (mp_z2u m))) in
    set_middle_rows Jres (mrows Jres - 1) 1 (mtrans Jcon).
  (** lines 251-268 and 402-418: the state rows are multiplied by the state scaling *)
  Definition scale_rows (J : mat F) : mat F :=
    loop (mcols J) (fun j J => snd (loop ph (fun _ '(ioff, J) =>
      (ioff + nx, loop nx (fun ix J => set_entry J (ioff + ix) j (smul (ent J (ioff + ix) j) (ent (mp_st m) ix 0))) J)) (0, J))) J.

  (** computeIneqJacobian 642-722 *)
  Definition ieq_jx (c : ieq_t F) og (X U : mat F) (e : F) : mat F * mat F :=
    let Xa := abs1 X in
    loop ph (fun i st => loop nx (fun j '(x, J) =>
      let ix := i + 1 in
      let dx := smul dv_con (lin Xa j) in
      let x := set_entry x ix j (sadd (ent x ix j) dx) in
      let fp := ieq_call c og x U e in
      let x := set_entry x ix j (ssub (ent x ix j) (smul s2 dx)) in
      let fm := ieq_call c og x U e in
      let x := set_entry x ix j (sadd (ent x ix j) dx) in
      (x, set_blkcol J nx i j (cdiff fp fm dx))) st) (X, mzero ni (ph * nx)).
  Definition ieq_ju (c : ieq_t F) og (X U : mat F) (e : F) : mat F * mat F :=
    let Ua := abs1 U in
    loop ph (fun i st => loop nu (fun j '(u, J) =>
      let du := smul dv_con (lin Ua j) in
      let u := set_entry u i j (sadd (ent u i j) du) in
      let fp := ieq_call c og X u e in
      let u := set_entry u i j (ssub (ent u i j) (smul s2 du)) in
      let fm := ieq_call c og X u e in
      let u := set_entry u i j (sadd (ent u i j) du) in
      (u, set_blkcol J nu i j (cdiff fp fm du))) st) (U, mzero ni (ph * nu)).
  Definition ieq_je (c : ieq_t F) og (X U : mat F) (e : F) : mat F :=
    let ea := smax dv_con (sabs e) in
    let de := smul ea dv_con in
    cdiff (ieq_call c og X U (sadd e de)) (ieq_call c og X U (ssub e de)) de.
  (** evaluateIneq 199-310: values, and the gradients as the flat array of line 280 *)
  Definition ieq_evaluate (c : ieq_t F) og (x0 x : mat F) : mat F * mat F :=
    let X := unwrap_X d m x x0 in let U := unwrap_U d m x in let e := unwrap_e x in
    let value := ieq_call c og X U e in
    let '(X', Jx) := ieq_jx c og X U e in
    let '(U', Jmv) := ieq_ju c og X' U e in
    let Je := ieq_je c og X' U' e in
    let J := glue ni (mjunk junk (n_dec d) ni) Jx Jmv Je in
    (value, mflat (scale_rows J)).

  (** computeEqJacobian 732-833 *)
  Definition eqc_jx (c : eqc_t F) (X U : mat F) : mat F * mat F :=
    let Xa := abs1 X in
    loop ph (fun i st => loop nx (fun j '(x, J) =>
      let ix := i + 1 in
      let dx := smul dv_con (ent Xa ix j) in
      let x := set_entry x ix j (sadd (ent x ix j) dx) in
      let fp := eqc_call c x U in
      let x := set_entry x ix j (ssub (ent x ix j) (smul s2 dx)) in
      let fm := eqc_call c x U in
      let x := set_entry x ix j (sadd (ent x ix j) dx) in
      (x, set_blkcol J nx i j (cdiff fp fm dx))) st) (X, mzero ne (ph * nx)).
  Definition eqc_ju_inner (c : eqc_t F) (Ua X U J : mat F) : mat F * mat F :=
    loop (ph - 1) (fun i st => loop nu (fun j '(u, J) =>
      let du := smul dv_con (ent Ua (ph - 1) j) in
      let u := set_entry u i j (sadd (ent u i j) du) in
      let fp := eqc_call c X u in
      let u := set_entry u i j (ssub (ent u i j) (smul s2 du)) in
      let fm := eqc_call c X u in
      let u := set_entry u i j (sadd (ent u i j) du) in
      (u, set_blkcol J nu i j (cdiff fp fm du))) st) (U, J).
  Definition eqc_ju_last (c : eqc_t F) (Ua X U J : mat F) : mat F * mat F :=
    loop nu (fun j '(u, J) =>
      let du := smul dv_con (ent Ua (ph - 1) j) in
      let u := set_entry u (ph - 1) j (sadd (ent u (ph - 1) j) du) in
      let u := set_entry u ph j (sadd (ent u ph j) du) in
      let fp := eqc_call c X u in
      let u := set_entry u (ph - 1) j (ssub (ent u (ph - 1) j) (smul s2 du)) in
      let u := set_entry u ph j (ssub (ent u ph j) (smul s2 du)) in
      let fm := eqc_call c X u in
      let u := set_entry u (ph - 1) j (sadd (ent u (ph - 1) j) du) in
      let u := set_entry u ph j (sadd (ent u ph j) du) in
      (u, set_blkcol J nu (ph - 1) j (cdiff fp fm du))) (U, J).
  (** evaluateEq 365-448 *)
  Definition eqc_evaluate (c : eqc_t F) (x0 x : mat F) : mat F * mat F :=
    let X := unwrap_X d m x x0 in let U := unwrap_U d m x in
    let value := eqc_call c X U in
    let '(X', Jx) := eqc_jx c X U in
    let Ua := abs1 U in
    let '(U', Jmv) := eqc_ju_inner c Ua X' U (mzero ne (ph * nu)) in
    let '(_, Jmv) := eqc_ju_last c Ua X' U' Jmv in
    let J := glue ne (mjunk junk (n_dec d) ne) Jx Jmv (mzero ne 1) in
    (value, mflat (scale_rows J)).

  (** computeStateEqJacobian 845-906 *)
  Definition dyn_call (f : dyn_t F) (x u : mat F) (p : nat) : mat F := mvec nx (f (lst x) (lst u) p).
  Definition dyn_jac (f : dyn_t F) (x u : mat F) (p : nat) : mat F * mat F :=
    let Xa := abs1 x in
    let Jx := loop nx (fun i J =>
      let dx := smul dv_con (ent Xa i 0) in
      let fp := dyn_call f (set_entry x i 0 (sadd (ent x i 0) dx)) u p in
      let fm := dyn_call f (set_entry x i 0 (ssub (ent x i 0) dx)) u p in
      set_mcol J i (cdiff fp fm dx)) (mzero nx nx) in
    let Ua := abs1 u in
    let Jmv := loop nu (fun i J =>
      let du := smul dv_con (ent Ua i 0) in
      let fp := dyn_call f x (set_entry u i 0 (sadd (ent u i 0) du)) p in
      let fm := dyn_call f x (set_entry u i 0 (ssub (ent u i 0) du)) p in
      set_mcol J i (cdiff fp fm du)) (mzero nx nu) in
    (Jx, Jmv).
  (** J.middleCols(i * w, w).middleRows(ic, nx) = B *)
  Definition set_blk (J : mat F) (ic w i : nat) (B : mat F) : mat F := set_block J ic (i * w) nx w B.
  Definition div_rows (V sc : mat F) : mat F :=
    mkMat (mrows V) (mcols V) (fun i j => sdiv (ent V i j) (ent sc i j)) (mok V && mok sc && (mrows V =? mrows sc)).
  (** getStateEqConstraints 493-629; state of the loop: ic, ceq, Jx, Jmv *)
  Definition seq_body_cont (f : dyn_t F) (ts : F) (X U : mat F) (i : nat) (st : nat * mat F * mat F * mat F) : nat * mat F * mat F * mat F :=
    let '(ic, ceq, Jx, Jmv) := st in
    let Ix := mident nx nx in let Sx := mdiag (mp_inv m) in let Tx := mdiag (mp_st m) in
    let uk := mtrans (mrow U i) in let xk := mtrans (mrow X i) in
    let h := sdiv ts s2 in
    let xk1 := mtrans (mrow X (i + 1)) in
    let fk := dyn_call f xk uk i in let fk1 := dyn_call f xk1 uk i in
    let ceq := set_middle_rows ceq ic nx (msub (madd xk (mscale h (madd fk fk1))) xk1) in
    let ceq := set_middle_rows ceq ic nx (div_rows (middle_rows ceq ic nx) (mp_st m)) in
    let '(Ak, Bk) := dyn_jac f xk uk i in
    let '(Ak1, Bk1) := dyn_jac f xk1 uk i in
    let Jx := if 0 <? i then set_blk Jx ic nx (i - 1) (madd Ix (mmul (mmul (mscale h Sx) Ak) Tx)) else Jx in
    let Jx := set_blk Jx ic nx i (madd (mopp Ix) (mmul (mmul (mscale h Sx) Ak1) Tx)) in
    let Jmv := set_blk Jmv ic nu i (mmul (mscale h Sx) (madd Bk Bk1)) in
    (ic + nx, ceq, Jx, Jmv).
  Definition seq_body_disc (f : dyn_t F) (X U : mat F) (i : nat) (st : nat * mat F * mat F * mat F) : nat * mat F * mat F * mat F :=
    let '(ic, ceq, Jx, Jmv) := st in
    let Ix := mident nx nx in let Sx := mdiag (mp_inv m) in let Tx := mdiag (mp_st m) in
    let uk := mtrans (mrow U i) in let xk := mtrans (mrow X i) in
    let xk1 := dyn_call f xk uk i in
    let ceq := set_middle_rows ceq ic nx (msub (mtrans (mrow X (i + 1))) xk1) in
    let ceq := set_middle_rows ceq ic nx (div_rows (middle_rows ceq ic nx) (mp_st m)) in
    let '(Ak, Bk) := dyn_jac f xk uk i in
    let Ak := mmul (mmul Sx Ak) Tx in
    let Bk := mmul Sx Bk in
    let Jx := set_blk Jx ic nx i Ix in
    let Jx := if 0 <? i then set_blk Jx ic nx (i - 1) (mopp Ak) else Jx in
    let Jmv := set_blk Jmv ic nu i (mopp Bk) in
    (ic + nx, ceq, Jx, Jmv).
  (** evaluateStateModelEq 319-356; [ts] = Some ts for a continuous-time model *)
  Definition seq_evaluate (f : dyn_t F) (ts : option F) (x0 x : mat F) : mat F * mat F :=
    let X := unwrap_X d m x x0 in let U := unwrap_U d m x in
    let '(_, ceq, Jx, Jmv) :=
      loop ph (match ts with Some t => seq_body_cont f t X U | None => seq_body_disc f X U end)
        (0, mzero (ph * nx) 1, mzero (ph * nx) (ph * nx), mzero (ph * nx) (ph * nu)) in
    (ceq, mflat (glue (ph * nx) (mzero (n_dec d) (ph * nx)) Jx Jmv (mzero (ph * nx) 1))).

  (** isFeasible 145-190.  Values may be NaN ([None]), for which every comparison is false.  For the
      equality check `maxCoeff` of an empty or NaN-containing array is unspecified, so the model takes the finite, non-empty case. *)
  Definition gt_opt (v : option F) (t : F) : bool := match v with Some x => sltb t x | None => false end.
  Definition any_gt (vs : list (option F)) (t : F) : bool := existsb (fun v => gt_opt v t) vs.
  Definition max_coeff (v : F) (vs : list F) : F := fold_left (fun a b => if sltb a b then b else a) vs v.
  Definition eq_violated (vs : list F) (t : F) : bool :=
    match map sabs vs with [] => false | v :: vs => sltb t (max_coeff v vs) end.
  Definition is_feasible (ic : option (ieq_t F)) (ec : option (eqc_t F)) og (ti te : F) (x0 x : mat F) : bool :=
    let X := unwrap_X d m x x0 in let U := unwrap_U d m x in let e := unwrap_e x in
    match ic with Some c => negb (any_gt (map Some (lst (ieq_call c og X U e))) ti) | None => true end &&
    match ec with Some c => negb (eq_violated (lst (eqc_call c X U)) te) | None => true end.
End Fun.
