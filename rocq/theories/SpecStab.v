(** What it means that the linear controller is asked to reach a point of rest by the end of its horizon, and the cost of one period (specification for C87).
    Nothing here refers to the code's matrices; configurations and cost are those of SpecLMPC.v. *)
From Coq Require Import Bool Arith ZArith List.
From Verif Require Import Scalar Sums Mat Slice Csc Builder LMPC SpecLMPC SpecQP PropLMPC4 SpecLoop.
Import ListNotations.
Local Open Scope nat_scope.

Section Stab.
  Context {F : Type} {SO : ScalarOps F}.
  Variable d : dims.
  Notation nx := (d_nx d). Notation nu := (d_nu d). Notation ndu := (d_ndu d).
  Notation ny := (d_ny d). Notation ph := (d_ph d).

  (** the configuration asks for the rest point (xs, us): weights, references, disturbance and bounds are the same at every step - the state and input bounds
      of the last step may differ -, the references are those of the rest point, and the bounds allow it *)
  Record asks_for_rest (p : plant F) (c : cfg F) (xs us : nat -> F) : Prop := {
    ar_ph : 2 <= ph;
    ar_rest : forall j, j < nx -> next_state d p c 0 xs us j = xs j;
    ar_d : forall k j, k < ph -> j < ndu -> g_d c k j = g_d c 0 j;
    ar_w : forall k, k < ph -> (forall j, j < ny -> g_wy c k j = g_wy c 0 j) /\ (forall j, j < nu -> g_wu c k j = g_wu c 0 j /\ g_wdu c k j = g_wdu c 0 j);
    ar_ref : forall k, k < ph -> (forall j, j < ny -> g_yr c k j = out_now d p c 0 xs j) /\ (forall j, j < nu -> g_ur c k j = us j /\ g_dur c k j = s0);
    ar_xb : forall k j, k < ph - 1 -> j < nx -> g_xlo c k j = g_xlo c 0 j /\ g_xhi c k j = g_xhi c 0 j;
    ar_ub : forall k j, k < ph - 1 -> j < nu -> g_ulo c k j = g_ulo c 0 j /\ g_uhi c k j = g_uhi c 0 j;
    ar_yb : forall k j, k < ph -> j < ny -> g_ylo c k j = g_ylo c 0 j /\ g_yhi c k j = g_yhi c 0 j;
    ar_sb : forall k, k < ph -> g_slo c k = g_slo c 0 /\ g_shi c k = g_shi c 0;
    ar_xs : forall j, j < nx -> within (g_xlo c 0 j) (g_xhi c 0 j) (xs j);
    ar_us : forall j, j < nu -> within (g_ulo c 0 j) (g_uhi c 0 j) (us j) }.
  (** and its bounds of the last step demand to be there by then *)
  Record reaches_rest (p : plant F) (c : cfg F) (xs us : nat -> F) : Prop := {
    rr_asks : asks_for_rest p c xs us;
    rr_xe : forall j, j < nx -> g_xlo c (ph - 1) j = Fin (xs j) /\ g_xhi c (ph - 1) j = Fin (xs j);
    rr_ue : forall j, j < nu -> g_ulo c (ph - 1) j = Fin (us j) /\ g_uhi c (ph - 1) j = Fin (us j) }.

  (** the two configurations pose the same problems *)
  Definition same_data (c c' : cfg F) : Prop :=
    same_model d c c' /\ same_weights d c c' /\ same_mult d c c' /\ same_refs d c c' /\ same_dist d c c' /\ same_xb d c c' /\ same_yb d c c' /\ same_ub d c c' /\ same_sb d c c'.

  (** the weighted cost of being at state x with last command um and giving command u: tracking error of the output, of the last command, increment *)
  Definition period_cost (p : plant F) (c : cfg F) (x um u : nat -> F) : F :=
    (ssum ny (fun j => g_wy c 0 j * sq (out_now d p c 0 x j - g_yr c 0 j))
     + ssum nu (fun j => g_wu c 0 j * sq (um j - g_ur c 0 j))
     + ssum nu (fun j => g_wdu c 0 j * sq (u j - um j)))%S.

  (** a period answered with an optimum *)
  Definition solved_optimally (pe : period F) : Prop := exists z y code obj, pe_ans pe = ASolution z y code obj /\ qp_optimal (pe_call pe) z.
  (** what a period cost: measured state, last command, returned command *)
  Definition pe_spent (pe : period F) : F := period_cost (pe_plant pe) (pe_cfg pe) (vec (pe_x pe)) (vec (pe_u pe)) (vec (r_cmd (pe_res pe))).
  (** the cost of the plan read back in a period *)
  Definition pe_planned (pe : period F) : F :=
    tracking_cost d (pe_plant pe) (pe_cfg pe) (vec (pe_u pe)) (fun k j => ent (q_state (pe_seq pe)) k j) (fun k j => ent (q_input (pe_seq pe)) k j).
  Fixpoint total (l : list F) : F := match l with [] => s0 | a :: l => (a + total l)%S end.
  (** every period is asked for the rest point and answered with an optimum, and all periods have the same data *)
  Definition good_loop (xs us : nat -> F) (ps : list (period F)) : Prop :=
    forall pe, In pe ps -> reaches_rest (pe_plant pe) (pe_cfg pe) xs us /\ solved_optimally pe /\ forall q, In q ps -> same_data (pe_cfg pe) (pe_cfg q).
End Stab.
