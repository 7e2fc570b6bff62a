(** Property C75, continued: what goes wrong when an entry is not written, on a controller over doubles (one state, ph = 2, one inequality). *)
From Coq Require Import Bool Arith ZArith List Lia.
From Verif Require Import Scalar Double Sums Mat Slice Builder LMPC NLMap NLFun NLMPC SpecNLC NLTrace NLBuf SpecBuf PropDouble PropBuf.
Import ListNotations.

(** `if (x(1, 0) > 10) ineq(0) = x(1, 0) - 10;` - and nothing otherwise *)
Definition lim : ieqb dbl := fun b X Y U e => let x := nth 0 (nth 1 X []) s0 in if sltb (dz 10) x then [ssub x (dz 10)] else b.
(** the same with its "else ineq(0) = -1" *)
Definition lim_else : ieqb dbl := fun b X Y U e => let x := nth 0 (nth 1 X []) s0 in if sltb (dz 10) x then [ssub x (dz 10)] else [sopp s1].
(** a vector field that forgets its only entry *)
Definition idle : dynb dbl := fun b x u p => b.
Definition step_f : dynb dbl := fun b x u p => [sadd (nth 0 x s0) (nth 0 u s0)].
Definition z_ops (f : dynb dbl) (c : ieqb dbl) : list (nop dbl) := [NSetDynamics (dyn_z wd f) s0 true; NSetIneq (ieq_z 1 c) s0 true].
Definition z_s (f : dynb dbl) (c : ieqb dbl) : nmpc dbl := match n_life dj wd 1 0 false (z_ops f c) with Ok (s, _) => s | UB => n_init wd end.
Definition z_h (f : dynb dbl) (c : ieqb dbl) : list (nop dbl * ret dbl) := match n_life dj wd 1 0 false (z_ops f c) with Ok (_, h) => h | UB => [] end.
Definition z_u (f : dynb dbl) (c : ieqb dbl) : ufun dbl := mkUF (Some f) None (Some c) None.
Lemma z_reached f c : nreached dj wd 1 0 false (z_s f c) (z_h f c).
Proof. exists (z_ops f c). split; [repeat constructor|]. reflexivity. Qed.
Lemma z_force f c : in_force wd 1 0 (z_u f c) (ncfg_run wd 1 0 (z_h f c)).
Proof. repeat split. Qed.
Definition z_bufs : @bufs dbl := ([s0], []).
Definition z_pt (a : dbl) (k : nat) : dbl := nth k [a; dz 4; dz 5; dz 6; dz 7; dz 8; s0] s0.
Definition z_x0 : mat dbl := dvec [s1].
Definition z_u0 : mat dbl := dvec [s0; s0].
Definition seven (_ : list nat) (_ : nat) : dbl := dz 7.
Definition z_vs (a : dbl) : list (@memory dbl * ckind * list dbl) := [(seven, KIneq, map (z_pt a) (seq 0 7))].

(** the hypotheses are met by functions that write everything, and the flag is then right *)
Theorem C75_instance :
  0 < d_ch wd <= d_ph wd /\ nreached dj wd 1 0 false (z_s step_f lim_else) (z_h step_f lim_else) /\
  in_force wd 1 0 (z_u step_f lim_else) (ncfg_run wd 1 0 (z_h step_f lim_else)) /\ writes_all wd 1 0 (z_u step_f lim_else) /\
  sized_bufs 1 0 z_bufs /\ gm z_x0 (d_nx wd) 1 /\
  (exists s' r b', optimizeb dj wd 1 0 false (z_u step_f lim_else) (z_s step_f lim_else) z_bufs z_x0 z_u0 (z_vs (dz 12)) (NSolved (z_pt (dz 3)) 1 (Fin s0)) = Ok (s', r, b') /\
     r_feasible r = true /\ b' = ([sopp s1], [])).
Proof.
  refine (conj _ (conj (z_reached _ _) (conj (z_force _ _) (conj _ (conj _ (conj _ _)))))).
  - cbn. lia.
  - refine (conj _ (conj _ _)); intros f Hf; inversion Hf; subst f; clear Hf.
    + intros b b' x u p _ _. reflexivity.
    + split; intros; unfold lim_else; cbn zeta; [reflexivity|]. now destruct (sltb _ _).
  - split; reflexivity.
  - repeat split.
  - destruct (optimizeb _ _ _ _ _ _ _ _ _ _ _ _) as [[[s' r] b']|] eqn:E.
    + exists s', r, b'. split; [reflexivity|].
      apply (f_equal (fun o => match o with Ok (s', r, b') => Some (r_feasible r, b') | UB => None end)) in E. vm_compute in E. inversion E as [[K1 K2]]. split; [symmetry; exact K1|reflexivity].
    + apply (f_equal (fun o => match o with Ok _ => true | UB => false end)) in E. vm_compute in E. discriminate E.
Qed.

(** FINDING: an unwritten entry keeps the value of an earlier point; whether the returned solution is called feasible depends on what NLopt looked at before *)
Theorem C75_flag_depends_on_the_solution_only_refuted :
  ~ (forall d ni ne (u : ufun dbl) s h x0 u0 z code cost vs vs' s1 r1 b1 s2 r2 b2,
       0 < d_ch d -> d_ch d <= d_ph d -> nreached dj d ni ne false s h -> in_force d ni ne u (ncfg_run d ni ne h) -> gm x0 (d_nx d) 1 ->
       optimizeb dj d ni ne false u s (zeros ni, zeros ne) x0 u0 vs (NSolved z code cost) = Ok (s1, r1, b1) ->
       optimizeb dj d ni ne false u s (zeros ni, zeros ne) x0 u0 vs' (NSolved z code cost) = Ok (s2, r2, b2) ->
       r_feasible r1 = r_feasible r2).
Proof.
  intros H.
  destruct (optimizeb dj wd 1 0 false (z_u step_f lim) (z_s step_f lim) (zeros 1, zeros 0) z_x0 z_u0 [] (NSolved (z_pt (dz 3)) 1 (Fin s0))) as [[[s1 r1] b1]|] eqn:E1.
  2:{ apply (f_equal (fun o => match o with Ok _ => true | UB => false end)) in E1. vm_compute in E1. discriminate E1. }
  destruct (optimizeb dj wd 1 0 false (z_u step_f lim) (z_s step_f lim) (zeros 1, zeros 0) z_x0 z_u0 (z_vs (dz 12)) (NSolved (z_pt (dz 3)) 1 (Fin s0))) as [[[s2 r2] b2]|] eqn:E2.
  2:{ apply (f_equal (fun o => match o with Ok _ => true | UB => false end)) in E2. vm_compute in E2. discriminate E2. }
  specialize (H wd 1 0 (z_u step_f lim) (z_s step_f lim) (z_h step_f lim) z_x0 z_u0 (z_pt (dz 3)) 1%Z (Fin s0) [] (z_vs (dz 12)) s1 r1 b1 s2 r2 b2
    ltac:(cbn; lia) ltac:(cbn; lia) (z_reached _ _) (z_force _ _) ltac:(repeat split) E1 E2).
  apply (f_equal (fun o => match o with Ok (_, r, _) => r_feasible r | UB => false end)) in E1. apply (f_equal (fun o => match o with Ok (_, r, _) => r_feasible r | UB => false end)) in E2.
  vm_compute in E1, E2, H. rewrite <- E1, <- E2 in H. discriminate H.
Qed.
(** FINDING: an unwritten entry of the dynamics is whatever lay in memory *)
Theorem C75_dynamics_memory_refuted :
  ~ (forall d ni ne (u : ufun dbl) s h x0 z b mem mem',
       0 < d_ch d -> d_ch d <= d_ph d -> nreached dj d ni ne false s h -> in_force d ni ne u (ncfg_run d ni ne h) -> gm x0 (d_nx d) 1 -> length z = n_dec d ->
       fst (evalb_con dj d ni ne mem u s b x0 KDyn z) = fst (evalb_con dj d ni ne mem' u s b x0 KDyn z)).
Proof.
  intros H. specialize (H wd 1 0 (z_u idle lim) (z_s idle lim) (z_h idle lim) z_x0 (map (z_pt (dz 3)) (seq 0 7)) z_bufs seven (fun _ _ => s0)
    ltac:(cbn; lia) ltac:(cbn; lia) (z_reached _ _) (z_force _ _) ltac:(repeat split) eq_refl).
  apply (f_equal (fun o => match o with Ok (v, _) => v | UB => [] end)) in H. vm_compute in H. discriminate H.
Qed.
