(** Model of include/mpc/LMPC/ProblemBuilder.hpp, function by function.
    Bounds are extended scalars; everything else is as in the code: the same blocks
    are written at the same offsets in the same order. *)
From Coq Require Import Bool Arith List Lia.
From Verif Require Import Scalar Sums Mat.
Import ListNotations.

(** Problem dimensions: IDimensionable (include/mpc/IDimensionable.hpp:24-160).
    The static asserts / run-time asserts there give only: every dimension >= 0, ph>0, ch>0. *)
Record dims := mkDims { d_nx : nat; d_nu : nat; d_ndu : nat; d_ny : nat; d_ph : nat; d_ch : nat }.

(** [for (size_t i = 0; i < n; i++) s = body(i, s)] *)
Fixpoint loop {S : Type} (n : nat) (body : nat -> S -> S) (s : S) : S :=
  match n with O => s | Datatypes.S k => body k (loop k body s) end.

Section Builder.
  Context {F : Type} {SO : ScalarOps F}.
  (** contents of uninitialised storage *)
  Variable junk : nat -> nat -> F.
  Variable ejunk : nat -> nat -> ext F.
  Variable d : dims.
  Notation nx := (d_nx d). Notation nu := (d_nu d). Notation ndu := (d_ndu d).
  Notation ny := (d_ny d). Notation ph := (d_ph d). Notation ch := (d_ch d).
  Local Open Scope nat_scope.

  (** ProblemBuilder.hpp:827-857: data members *)
  Record ssys := mkSS { ssA : mat F; ssB : mat F; ssC : mat F; ssBv : mat F; ssDv : mat F }.
  Record weights := mkW { wOutput : mat F; wU : mat F; wDeltaU : mat F }.
  Record limits := mkLim {
    minX : mat (ext F); maxX : mat (ext F); minY : mat (ext F); maxY : mat (ext F);
    minU : mat (ext F); maxU : mat (ext F);
    sMin : mat (ext F); sMax : mat (ext F); sMultiplier : mat F }.
  (** ProblemBuilder.hpp:41-77 class Problem *)
  Record problem := mkPb { pP : mat F; pq : mat F; pA : mat F; pl : mat (ext F); pu : mat (ext F) }.
  Record builder := mkB {
    b_ss : ssys; b_w : weights; b_lim : limits;
    b_leq : mat F; b_ueq : mat F; b_lineq : mat (ext F); b_uineq : mat (ext F); b_off : mat F;
    b_prob : problem }.

  (** number of variables / constraints, ProblemBuilder.hpp:150-162 *)
  Definition n_var : nat := (ph + 1) * (nu + nx) + ph * nu.
  Definition n_eq : nat := (ph + 1) * (nu + nx).
  Definition n_ineq : nat := (ph + 1) * (nu + nx) + ((ph + 1) * ny + ph * nu + (ph + 1)).
  Definition n_con : nat := n_eq + n_ineq.

  (** ** buildTimeInvariantTems, ProblemBuilder.hpp:642-825 *)

  (** ProblemBuilder.hpp:644-668, P *)
  Definition build_P_body (ss : ssys) (w : weights) (i : nat) (st : mat F * mat F) : mat F * mat F :=
    let (wE, P) := st in
    let wE := set_block wE 0 0 ny ny (mdiag (mcol (wOutput w) i)) in
    let wE := set_block wE ny ny nu nu (mdiag (mcol (wU w) i)) in
    let P := set_block P (i * (nu + nx)) (i * (nu + nx)) (nu + nx) (nu + nx)
               (mmul (mmul (mtrans (ssC ss)) wE) (ssC ss)) in
    let P := if i <? ph
             then set_block P ((ph + 1) * (nu + nx) + i * nu) ((ph + 1) * (nu + nx) + i * nu) nu nu
                    (mdiag (mcol (wDeltaU w) i))
             else P in
    (wE, P).
  Definition build_P (ss : ssys) (w : weights) : mat F :=
    snd (loop (ph + 1) (build_P_body ss w) (mzero (nu + ny) (nu + ny), mzero n_var n_var)).

  (** ProblemBuilder.hpp:670-702, the equality rows *)
  Definition build_Aeq (ss : ssys) : mat F :=
    let Aeq := mjunk junk ((ph + 1) * (nu + nx)) ((ph + 1) * (nu + nx) + ph * nu) in
    let augId := set_block (mzero (ph + 1) (ph + 1)) 1 0 ph ph (mident ph ph) in
    let predHId := mident (ph + 1) (ph + 1) in
    let extSpaceId := mident (nu + nx) (nu + nx) in
    let Aeq := set_block Aeq 0 0 ((ph + 1) * (nu + nx)) ((ph + 1) * (nu + nx))
                 (madd (mkron predHId (mopp extSpaceId)) (mkron augId (ssA ss))) in
    let idenBd := set_block (mzero (ph + 1) ph) 1 0 ph ph (mident ph ph) in
    set_block Aeq 0 ((ph + 1) * (nu + nx)) ((ph + 1) * (nu + nx)) (ph * nu)
      (mkron idenBd (ssB ss)).

  (** ProblemBuilder.hpp:704-726, 767-773 and 795-801: the inequality rows *)
  Definition build_Aineq (ss : ssys) (lim : limits) : mat F :=
    let Aineq := mzero n_ineq n_var in
    let Aineq := set_block Aineq 0 0 ((ph + 1) * (nu + nx)) ((ph + 1) * (nu + nx))
                   (mident ((ph + 1) * (nu + nx)) ((ph + 1) * (nu + nx))) in
    let Aineq := set_block Aineq ((ph + 1) * (nu + nx)) 0 ((ph + 1) * ny) ((ph + 1) * (nu + nx))
                   (mkron (mident (ph + 1) (ph + 1)) (middle_rows (ssC ss) 0 ny)) in
    let Aineq := set_block Aineq ((ph + 1) * (nu + nx) + (ph + 1) * ny) ((ph + 1) * (nu + nx))
                   (ph * nu) (ph * nu) (mident (ph * nu) (ph * nu)) in
    set_block Aineq ((ph + 1) * (nu + nx) + (ph + 1) * ny + ph * nu) 0 (ph + 1) ((ph + 1) * (nu + nx))
      (sMultiplier lim).

  (** ProblemBuilder.hpp:728-750: state and command bounds stacked step by step.
      Written once for the lower and once for the upper bounds. *)
  Definition build_eX (bX bU : mat (ext F)) : mat (ext F) :=
    loop (ph + 1) (fun i eX =>
      let tmpU := if i =? ph then mcol bU (i - 1) else mcol bU i in
      set_middle_rows eX (i * (nu + nx)) (nu + nx) (vcat (mcol bX i) tmpU))
      (mjunk ejunk ((ph + 1) * (nu + nx)) 1).

  (** ProblemBuilder.hpp:752-765, 775-793, 803-809: bounds of the inequality rows; [free] is the
      infinity of lines 784-785; `deltaU * minDeltaU` is the constant vector. *)
  Definition build_ineq (free : ext F) (eX bY bS prev : mat (ext F)) : mat (ext F) :=
    let v := set_middle_rows prev 0 ((ph + 1) * (nu + nx)) eX in
    let v := set_middle_rows v ((ph + 1) * (nu + nx)) ((ph + 1) * ny) (mflat bY) in
    let v := loop ph (fun i v =>
               set_middle_rows v ((ph + 1) * (nu + nx) + (ph + 1) * ny + i * nu) nu
                 (mconst nu 1 (if ch <? i then Fin s0 else free))) v in
    set_middle_rows v ((ph + 1) * (nu + nx) + (ph + 1) * ny + ph * nu) (ph + 1) bS.
  Definition build_lineq (lim : limits) (prev : mat (ext F)) : mat (ext F) :=
    build_ineq MInf (build_eX (minX lim) (minU lim)) (minY lim) (sMin lim) prev.
  Definition build_uineq (lim : limits) (prev : mat (ext F)) : mat (ext F) :=
    build_ineq PInf (build_eX (maxX lim) (maxU lim)) (maxY lim) (sMax lim) prev.

  (** ProblemBuilder.hpp:811-822 *)
  Definition build_A (ss : ssys) (lim : limits) : mat F :=
    let A := mzero n_con n_var in
    let A := set_block A 0 0 ((ph + 1) * (nu + nx)) ((ph + 1) * (nu + nx) + ph * nu) (build_Aeq ss) in
    set_block A ((ph + 1) * (nu + nx)) 0 n_ineq ((ph + 1) * (nu + nx) + ph * nu) (build_Aineq ss lim).

  Definition build (b : builder) : builder :=
    let ss := b_ss b in let w := b_w b in let lim := b_lim b in
    mkB ss w lim (b_leq b) (b_ueq b)
      (build_lineq lim (b_lineq b)) (build_uineq lim (b_uineq b)) (b_off b)
      (mkPb (build_P ss w) (pq (b_prob b)) (build_A ss lim) (pl (b_prob b)) (pu (b_prob b))).

  (** ** onInit, ProblemBuilder.hpp:88-172 *)
  Definition b_init : builder :=
    build (mkB
      (mkSS (mzero (nu + nx) (nu + nx)) (mzero (nu + nx) nu) (mzero (nu + ny) (nu + nx))
            (mzero (nu + nx) ndu) (mzero (nu + ny) ndu))
      (mkW (mzero ny (ph + 1)) (mzero nu (ph + 1)) (mzero nu ph))
      (mkLim (mconst nx (ph + 1) MInf) (mconst nx (ph + 1) PInf)
             (mconst ny (ph + 1) MInf) (mconst ny (ph + 1) PInf)
             (mconst nu ph MInf) (mconst nu ph PInf)
             (mconst (ph + 1) 1 MInf) (mconst (ph + 1) 1 PInf)
             (mzero (ph + 1) ((ph + 1) * (nu + nx))))
      (mzero n_eq 1) (mzero n_eq 1) (mconst n_ineq 1 (Fin s0)) (mconst n_ineq 1 (Fin s0))
      (mjunk junk n_ineq 1)
      (mkPb (mzero n_var n_var) (mzero n_var 1) (mzero n_con n_var)
            (mconst n_con 1 (Fin s0)) (mconst n_con 1 (Fin s0)))).

  Definition with_ss (b : builder) (ss : ssys) : builder :=
    mkB ss (b_w b) (b_lim b) (b_leq b) (b_ueq b) (b_lineq b) (b_uineq b) (b_off b) (b_prob b).
  Definition with_w (b : builder) (w : weights) : builder :=
    mkB (b_ss b) w (b_lim b) (b_leq b) (b_ueq b) (b_lineq b) (b_uineq b) (b_off b) (b_prob b).
  Definition with_lim (b : builder) (lim : limits) : builder :=
    mkB (b_ss b) (b_w b) lim (b_leq b) (b_ueq b) (b_lineq b) (b_uineq b) (b_off b) (b_prob b).

  (** setStateModel, ProblemBuilder.hpp:184-211 *)
  Definition b_setStateModel (A B C : mat F) (b : builder) : builder :=
    let ss := b_ss b in
    let a := set_block (ssA ss) 0 0 nx nx A in
    let a := set_block a 0 nx nx nu B in
    let a := set_block a nx 0 nu nx (mzero nu nx) in
    let a := set_block a nx nx nu nu (mident nu nu) in
    let bb := set_block (ssB ss) 0 0 nx nu B in
    let bb := set_block bb nx 0 nu nu (mident nu nu) in
    let c := set_block (ssC ss) 0 0 ny nx C in
    let c := set_block c ny nx nu nu (mident nu nu) in
    build (with_ss b (mkSS a bb c (ssBv ss) (ssDv ss))).

  (** setExogenousInput, ProblemBuilder.hpp:222-236 *)
  Definition b_setExogenousInput (Bd Dd : mat F) (b : builder) : builder :=
    let ss := b_ss b in
    let bv := set_block (mzero (mrows (ssBv ss)) (mcols (ssBv ss))) 0 0 nx ndu Bd in
    let dv := set_block (mzero (mrows (ssDv ss)) (mcols (ssDv ss))) 0 0 ny ndu Dd in
    build (with_ss b (mkSS (ssA ss) (ssB ss) (ssC ss) bv dv)).

  (** setObjective (whole horizon), ProblemBuilder.hpp:247-263 *)
  Definition b_setObjectiveMat (OW UW DUW : mat F) (b : builder) : builder :=
    let w := b_w b in
    let wo := set_block (wOutput w) 0 1 ny ph OW in
    let wo := set_mcol wo 0 (mcol OW 0) in
    let wu := set_block (wU w) 0 1 nu ph UW in
    let wu := set_mcol wu 0 (mcol UW 0) in
    build (with_w b (mkW wo wu DUW)).

  (** setObjective (one step), ProblemBuilder.hpp:274-297 *)
  Definition set_step {T} (M : mat T) (n : nat) (index : nat) (v : mat T) : mat T :=
    let M := set_block M 0 (index + 1) n 1 v in
    if index =? 0 then set_mcol M 0 v else M.
  Definition b_setObjectiveStep (index : nat) (OW UW DUW : mat F) (b : builder) : builder :=
    let w := b_w b in
    build (with_w b (mkW (set_step (wOutput w) ny index OW) (set_step (wU w) nu index UW)
                         (set_block (wDeltaU w) 0 index nu 1 DUW))).

  (** the loop of ProblemBuilder.hpp:329-332 = 359-362 *)
  Definition set_multiplier (M : mat F) (X U : mat F) : mat F :=
    loop (ph + 1) (fun i M =>
      set_block M i (i * (nx + nu)) 1 (nx + nu) (hcat (mtrans X) (mtrans U))) M.

  (** setScalarConstraint (one step), ProblemBuilder.hpp:310-335 *)
  Definition b_setScalarStep (index : nat) (mn mx : ext F) (X U : mat F) (b : builder) : builder :=
    let lim := b_lim b in
    let smn := set_entry (sMin lim) (index + 1) 0 mn in
    let smn := if index =? 0 then set_entry smn 0 0 mn else smn in
    let smx := set_entry (sMax lim) (index + 1) 0 mx in
    let smx := if index =? 0 then set_entry smx 0 0 mx else smx in
    build (with_lim b (mkLim (minX lim) (maxX lim) (minY lim) (maxY lim) (minU lim) (maxU lim)
                             smn smx (set_multiplier (sMultiplier lim) X U))).

  (** setScalarConstraint (whole horizon), ProblemBuilder.hpp:347-365 *)
  Definition b_setScalarMat (Mn Mx : mat (ext F)) (X U : mat F) (b : builder) : builder :=
    let lim := b_lim b in
    let smn := set_middle_rows (sMin lim) 1 ph Mn in
    let smn := set_block smn 0 0 1 1 (block Mn 0 0 1 1) in
    let smx := set_middle_rows (sMax lim) 1 ph Mx in
    let smx := set_block smx 0 0 1 1 (block Mx 0 0 1 1) in
    build (with_lim b (mkLim (minX lim) (maxX lim) (minY lim) (maxY lim) (minU lim) (maxU lim)
                             smn smx (set_multiplier (sMultiplier lim) X U))).

  (** the body shared by setStateBounds / setOutputBounds on the whole horizon *)
  Definition set_horizon (M : mat (ext F)) (n : nat) (V : mat (ext F)) : mat (ext F) :=
    let M := set_block M 0 1 n ph V in
    set_mcol M 0 (mcol V 0).

  (** setStateBounds (whole horizon), ProblemBuilder.hpp:378-388 *)
  Definition b_setStateBoundsMat (mn mx : mat (ext F)) (b : builder) : builder :=
    let lim := b_lim b in
    build (with_lim b (mkLim (set_horizon (minX lim) nx mn) (set_horizon (maxX lim) nx mx)
      (minY lim) (maxY lim) (minU lim) (maxU lim) (sMin lim) (sMax lim) (sMultiplier lim))).

  (** setInputBounds (whole horizon), ProblemBuilder.hpp:397-413.
      Line 408: the block is nu x (ph-ch) but the right-hand side is ONE column, column ch of a
      matrix with columns 0..ch-1. *)
  Definition set_inputs (M : mat (ext F)) (V : mat (ext F)) : mat (ext F) :=
    let M := set_block M 0 0 nu ch V in
    if ch <? ph then set_block M 0 ch nu (ph - ch) (mcol V ch) else M.
  Definition b_setInputBoundsMat (mn mx : mat (ext F)) (b : builder) : builder :=
    let lim := b_lim b in
    build (with_lim b (mkLim (minX lim) (maxX lim) (minY lim) (maxY lim)
      (set_inputs (minU lim) mn) (set_inputs (maxU lim) mx)
      (sMin lim) (sMax lim) (sMultiplier lim))).

  (** setOutputBounds (whole horizon), ProblemBuilder.hpp:422-432 *)
  Definition b_setOutputBoundsMat (mn mx : mat (ext F)) (b : builder) : builder :=
    let lim := b_lim b in
    build (with_lim b (mkLim (minX lim) (maxX lim) (set_horizon (minY lim) ny mn)
      (set_horizon (maxY lim) ny mx) (minU lim) (maxU lim) (sMin lim) (sMax lim) (sMultiplier lim))).

  (** setStateBounds (one step), ProblemBuilder.hpp:442-459 *)
  Definition b_setStateBoundsStep (index : nat) (mn mx : mat (ext F)) (b : builder) : builder :=
    let lim := b_lim b in
    build (with_lim b (mkLim (set_step (minX lim) nx index mn) (set_step (maxX lim) nx index mx)
      (minY lim) (maxY lim) (minU lim) (maxU lim) (sMin lim) (sMax lim) (sMultiplier lim))).

  (** setInputBounds (one step), ProblemBuilder.hpp:469-477 *)
  Definition b_setInputBoundsStep (index : nat) (mn mx : mat (ext F)) (b : builder) : builder :=
    let lim := b_lim b in
    build (with_lim b (mkLim (minX lim) (maxX lim) (minY lim) (maxY lim)
      (set_block (minU lim) 0 index nu 1 mn) (set_block (maxU lim) 0 index nu 1 mx)
      (sMin lim) (sMax lim) (sMultiplier lim))).

  (** setOutputBounds (one step), ProblemBuilder.hpp:487-504 *)
  Definition b_setOutputBoundsStep (index : nat) (mn mx : mat (ext F)) (b : builder) : builder :=
    let lim := b_lim b in
    build (with_lim b (mkLim (minX lim) (maxX lim) (set_step (minY lim) ny index mn)
      (set_step (maxY lim) ny index mx) (minU lim) (maxU lim) (sMin lim) (sMax lim) (sMultiplier lim))).

  (** mapToOutput, ProblemBuilder.hpp:514-517 *)
  Definition mapToOutput (b : builder) (x dist : mat F) : mat F :=
    madd (mmul (block (ssC (b_ss b)) 0 0 ny nx) x) (mmul (block (ssDv (b_ss b)) 0 0 ny ndu) dist).

  (** get, ProblemBuilder.hpp:528-633 *)
  Definition get_body (ss : ssys) (w : weights) (yRef uRef duRef uMeas : mat F) (i : nat)
      (st : mat F * mat F * mat F * mat F) : mat F * mat F * mat F * mat F :=
    let '(wE, q, leq, off) := st in
    let c := if i =? 0 then 0 else i - 1 in
    let yR := mcol yRef c in let uR := mcol uRef c in
    let duR := mcol duRef c in let um := mcol uMeas c in
    let eRef := vcat yR uR in
    let wE := set_block wE 0 0 ny ny (mdiag (mcol (wOutput w) i)) in
    let wE := set_block wE ny ny nu nu (mdiag (mcol (wU w) i)) in
    let q := set_middle_rows q (i * (nx + nu)) (nx + nu)
               (mmul (mmul (mtrans (ssC ss)) wE) (madd (mopp eRef) (mmul (ssDv ss) um))) in
    let q := if i <? ph
             then set_middle_rows q ((ph + 1) * (nu + nx) + i * nu) nu
                    (mopp (mmul (mdiag (mcol (wDeltaU w) i)) duR))
             else q in
    let leq := if 0 <? i
               then set_middle_rows leq (i * (nx + nu)) (nx + nu) (mmul (mopp (ssBv ss)) um)
               else leq in
    let off := set_middle_rows off (i * ny + (ph + 1) * (nu + nx)) ny
                 (mmul (mopp (block (ssDv ss) 0 0 ny ndu)) um) in
    (wE, q, leq, off).
  Definition get (b : builder) (x0 u0 yRef uRef duRef uMeas : mat F) : builder :=
    let ss := b_ss b in let w := b_w b in let p := b_prob b in
    let zero M := mzero (mrows M) (mcols M) in
    let '(_, q, leq, off) :=
      loop (ph + 1) (get_body ss w yRef uRef duRef uMeas)
        (mzero (ny + nu) (ny + nu), zero (pq p), zero (b_leq b), zero (b_off b)) in
    let leq := set_middle_rows leq 0 nx (mopp x0) in
    let leq := set_middle_rows leq nx nu (mopp u0) in
    let ueq := leq in
    let l := mconst (mrows (pl p)) (mcols (pl p)) (Fin s0) in
    let u := mconst (mrows (pu p)) (mcols (pu p)) (Fin s0) in
    let l := set_middle_rows l 0 ((ph + 1) * (nu + nx)) (mfin leq) in
    let u := set_middle_rows u 0 ((ph + 1) * (nu + nx)) (mfin ueq) in
    let l := set_middle_rows l ((ph + 1) * (nu + nx))
               ((ph + 1) * (nu + nx) + (ph + 1) * ny + ph * nu + (ph + 1)) (meadd (b_lineq b) off) in
    let u := set_middle_rows u ((ph + 1) * (nu + nx))
               ((ph + 1) * (nu + nx) + (ph + 1) * ny + ph * nu + (ph + 1)) (meadd (b_uineq b) off) in
    mkB ss w (b_lim b) leq ueq (b_lineq b) (b_uineq b) off
      (mkPb (pP p) q (pA p) l u).

  (** no precondition violated so far *)
  Definition b_ok (b : builder) : bool :=
    let ss := b_ss b in let w := b_w b in let lim := b_lim b in let p := b_prob b in
    mok (ssA ss) && mok (ssB ss) && mok (ssC ss) && mok (ssBv ss) && mok (ssDv ss) &&
    mok (wOutput w) && mok (wU w) && mok (wDeltaU w) &&
    mok (minX lim) && mok (maxX lim) && mok (minY lim) && mok (maxY lim) &&
    mok (minU lim) && mok (maxU lim) && mok (sMin lim) && mok (sMax lim) && mok (sMultiplier lim) &&
    mok (b_leq b) && mok (b_ueq b) && mok (b_lineq b) && mok (b_uineq b) && mok (b_off b) &&
    mok (pP p) && mok (pq p) && mok (pA p) && mok (pl p) && mok (pu p).
End Builder.
Arguments ssys F : clear implicits. Arguments weights F : clear implicits.
Arguments limits F : clear implicits. Arguments problem F : clear implicits.
Arguments builder F : clear implicits.
