(** User functions and the vectors they write into: specification. *)
From Coq Require Import Bool Arith List.
From Verif Require Import Scalar Sums Mat Builder NLFun NLMPC SpecNLC NLBuf.
Import ListNotations.

Section S.
  Context {F : Type} {SO : ScalarOps F}.
  Variable d : dims.
  Variables ni ne : nat.
  (** a function that writes every entry: what it leaves in a vector of the right size does not depend on what it found there *)
  Definition writes_dyn (f : dynb F) : Prop := forall b b' x u p, length b = d_nx d -> length b' = d_nx d -> f b x u p = f b' x u p.
  Definition writes_ieq (c : ieqb F) : Prop :=
    (forall b b' X Y U e, length b = ni -> length b' = ni -> c b X Y U e = c b' X Y U e) /\ (forall b X Y U e, length b = ni -> length (c b X Y U e) = ni).
  Definition writes_eqc (c : eqcb F) : Prop :=
    (forall b b' X U, length b = ne -> length b' = ne -> c b X U = c b' X U) /\ (forall b X U, length b = ne -> length (c b X U) = ne).
  Definition writes_all (u : ufun F) : Prop :=
    (forall f, uf_dyn u = Some f -> writes_dyn f) /\ (forall c, uf_ieq u = Some c -> writes_ieq c) /\ (forall c, uf_eqc u = Some c -> writes_eqc c).
  (** the functions in force after the calls [c] are those of [u] *)
  Definition in_force (u : ufun F) (c : ncfg F) : Prop :=
    k_dyn c = option_map (dyn_z d) (uf_dyn u) /\ k_out c = option_map (out_z d) (uf_out u) /\
    k_ieq c = option_map (ieq_z ni) (uf_ieq u) /\ k_eqc c = option_map (eqc_z ne) (uf_eqc u).
  (** the members that hold the constraint values have the size of the constraints *)
  Definition sized_bufs (b : bufs) : Prop := length (fst b) = ni /\ length (snd b : list F) = ne.
End S.
