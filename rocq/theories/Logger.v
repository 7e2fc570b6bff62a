(** The logger (include/mpc/Logger.hpp), a process-wide object; property C39. *)
From Coq Require Import Bool Arith ZArith List Lia String.
From Verif Require Import Slice.
Import ListNotations.
Local Open Scope nat_scope.

(** *** Model *)
(** Logger.hpp:27-32 and 37-43; the enumerators' values *)
Inductive log_type := T_DETAIL | T_INFO | T_ERROR.
Inductive log_level := L_DEEP | L_NORMAL | L_ALERT | L_NONE.
Definition type_int (t : log_type) : nat := match t with T_DETAIL => 0 | T_INFO => 1 | T_ERROR => 2 end.
Definition level_int (l : log_level) : nat := match l with L_DEEP => 0 | L_NORMAL => 1 | L_ALERT => 2 | L_NONE => 3 end.
(** Logger.hpp:169-172; streams are numbered, 0 is std::cout; currentType is not initialised by the constructor: None *)
Record logger := mkLog { g_os : nat; g_prefix : string; g_level : log_level; g_type : option log_type }.
(** what reached the streams, oldest first *)
Definition output := list (nat * string).
(** Logger.hpp:62-66 reset, 74-90 log, 98-102 setStream, 110-114 setLevel, 122-126 setPrefix, 128-146 operator<< (of an object with this text; an
    output manipulator such as std::endl is treated as its text) *)
Inductive gop := GReset | GLog (t : log_type) | GStream (os : nat) | GLevel (l : log_level) | GPrefix (p : string) | GWrite (x : string).
Definition g_step (g : logger) (o : gop) : outcome (logger * output) :=
  match o with
  | GReset => Ok (mkLog (g_os g) "" L_NORMAL (g_type g), [])                                 (* resetImpl, 160-164 *)
  | GLog t =>
      let g := mkLog (g_os g) (g_prefix g) (g_level g) (Some t) in
      Ok (g, if level_int (g_level g) <=? type_int t
             then [(g_os g, "[MPC++"%string)] ++
                  (if negb (String.eqb (g_prefix g) "") then [(g_os g, " "%string); (g_os g, g_prefix g); (g_os g, "] "%string)] else [(g_os g, "] "%string)])
             else [])
  | GStream os => Ok (mkLog os (g_prefix g) (g_level g) (g_type g), [])
  | GLevel l => Ok (mkLog (g_os g) (g_prefix g) l (g_type g), [])
  | GPrefix p => Ok (mkLog (g_os g) p (g_level g) (g_type g), [])
  | GWrite x =>
      match g_type g with
      | None => UB                                                                            (* comparison with an indeterminate value *)
      | Some t => Ok (g, if level_int (g_level g) <=? type_int t then [(g_os g, x)] else [])
      end
  end.
(** Logger.hpp:153-157 *)
Definition g_new : logger := mkLog 0 "" L_NORMAL None.
Fixpoint g_play (g : logger) (ops : list gop) : outcome (logger * output) :=
  match ops with
  | [] => Ok (g, [])
  | o :: ops => match g_step g o with UB => UB | Ok (g1, w1) => match g_play g1 ops with UB => UB | Ok (g2, w2) => Ok (g2, w1 ++ w2) end end
  end.

(** *** Specification *)
(** settings in force after a history *)
Definition last_sel {A} (pick : gop -> option A) (dflt : A) (h : list gop) : A := fold_left (fun a o => match pick o with Some b => b | None => a end) h dflt.
Definition level_after := last_sel (fun o => match o with GLevel l => Some l | GReset => Some L_NORMAL | _ => None end) L_NORMAL.
Definition prefix_after := last_sel (fun o => match o with GPrefix p => Some p | GReset => Some ""%string | _ => None end) ""%string.
Definition stream_after := last_sel (fun o => match o with GStream s => Some s | _ => None end) 0.
Definition type_after := last_sel (fun o => match o with GLog t => Some (Some t) | _ => None end) None.
(** severities from the least to the most severe; a level admits the severities from its own on; NONE admits none *)
Definition admits (l : log_level) (t : log_type) : Prop :=
  match l, t with L_DEEP, _ => True | L_NORMAL, T_DETAIL => False | L_NORMAL, _ => True | L_ALERT, T_ERROR => True | _, _ => False end.
Definition header (p : string) : string := if String.eqb p "" then "[MPC++] "%string else ("[MPC++ " ++ p ++ "] ")%string.
(** what a stream received, as one text *)
Fixpoint text (s : nat) (w : output) : string :=
  match w with [] => ""%string | (s', x) :: w => if s' =? s then (x ++ text s w)%string else text s w end.

(** *** Proofs *)
Lemma level_type_iff l t : level_int l <=? type_int t = true <-> admits l t.
Proof. destruct l, t; cbn; intuition congruence. Qed.
Lemma str_assoc a b c : ((a ++ b) ++ c = a ++ b ++ c)%string.
Proof. induction a; cbn; congruence. Qed.
Lemma str_nil a : (a ++ "" = a)%string. Proof. induction a; cbn; congruence. Qed.
Lemma text_app s a b : text s (a ++ b) = (text s a ++ text s b)%string.
Proof. induction a as [|[s' x] a IH]; [reflexivity|]. cbn [app text]. rewrite IH. destruct (s' =? s); [now rewrite str_assoc|reflexivity]. Qed.
Definition is_after (g : logger) (h : list gop) : Prop := g_os g = stream_after h /\ g_prefix g = prefix_after h /\ g_level g = level_after h /\ g_type g = type_after h.
Lemma sel_snoc {A} (pick : gop -> option A) a h o : last_sel pick a (h ++ [o]) = match pick o with Some b => b | None => last_sel pick a h end.
Proof. unfold last_sel. rewrite fold_left_app. reflexivity. Qed.
Lemma after_step g h o g' w : is_after g h -> g_step g o = Ok (g', w) -> is_after g' (h ++ [o]).
Proof.
  intros (A & B & C & D) E. unfold is_after, stream_after, prefix_after, level_after, type_after. rewrite !sel_snoc.
  destruct o; cbn [g_step] in E; try (injection E as <- <-; cbn; auto; fail). destruct (g_type g) eqn:Eg; [|discriminate E]. injection E as <- <-. rewrite Eg. auto.
Qed.
Lemma play_snoc ops : forall g o, g_play g (ops ++ [o]) = match g_play g ops with UB => UB | Ok (g1, w1) => match g_step g1 o with UB => UB | Ok (g2, w2) => Ok (g2, w1 ++ w2) end end.
Proof.
  induction ops as [|p ops IH]; intros g o; cbn [app g_play].
  - destruct (g_step g o) as [[g1 w1]|]; [now rewrite app_nil_r|reflexivity].
  - destruct (g_step g p) as [[g1 w1]|]; [|reflexivity]. rewrite IH. destruct (g_play g1 ops) as [[g2 w2]|]; [|reflexivity]. destruct (g_step g2 o) as [[g3 w3]|]; [now rewrite app_assoc|reflexivity].
Qed.
Lemma play_after h : forall g w, g_play g_new h = Ok (g, w) -> is_after g h.
Proof.
  induction h as [|o h IH] using rev_ind; intros g w E.
  - injection E as <- <-. repeat split.
  - rewrite play_snoc in E. destruct (g_play g_new h) as [[g1 w1]|]; [|discriminate E]. destruct (g_step g1 o) as [[g2 w2]|] eqn:E2; [|discriminate E]. injection E as <- <-.
    eapply after_step; [eapply IH; reflexivity|exact E2].
Qed.

(** C39: a message started by log(t) puts the header on the stream in force iff the level in force admits its severity; every other stream, and every
    other call but <<, adds nothing *)
Theorem C39_header h t g w : g_play g_new h = Ok (g, w) -> exists g' w', g_play g_new (h ++ [GLog t]) = Ok (g', w ++ w') /\
  (admits (level_after h) t -> text (stream_after h) w' = header (prefix_after h)) /\ (~ admits (level_after h) t -> w' = []) /\
  (forall s, s <> stream_after h -> text s w' = ""%string).
Proof.
  intros E. destruct (play_after h g w E) as (A & B & C & D). rewrite play_snoc, E. cbn [g_step]. eexists _, _. refine (conj eq_refl _). cbn [g_level g_prefix g_os]. rewrite A, B, C.
  destruct (level_int (level_after h) <=? type_int t) eqn:L.
  - refine (conj _ (conj _ _)).
    + intros _. unfold header. rewrite text_app. cbn [text]. rewrite Nat.eqb_refl. destruct (String.eqb (prefix_after h) ""); cbn [negb text]; rewrite Nat.eqb_refl; cbn; now rewrite ?str_nil.
    + intros K. apply level_type_iff in L. contradiction.
    + intros s N. apply Nat.eqb_neq in N. rewrite Nat.eqb_sym in N. rewrite text_app. cbn [text]. rewrite N. destruct (negb _); cbn [text]; rewrite ?N; reflexivity.
  - refine (conj _ (conj (fun _ => eq_refl) (fun _ _ => eq_refl))). intros K. apply level_type_iff in K. congruence.
Qed.
(** the text of a message reaches the stream in force iff the level in force *when it is written* admits the severity of the last log call; without
    any log call before, writing is undefined *)
Theorem C39_text h x g w : g_play g_new h = Ok (g, w) ->
  match type_after h with
  | None => g_play g_new (h ++ [GWrite x]) = UB
  | Some t => exists g' w', g_play g_new (h ++ [GWrite x]) = Ok (g', w ++ w') /\
      (admits (level_after h) t -> w' = [(stream_after h, x)]) /\ (~ admits (level_after h) t -> w' = [])
  end.
Proof.
  intros E. destruct (play_after h g w E) as (A & B & C & D). rewrite play_snoc, E. cbn [g_step]. rewrite D. destruct (type_after h) as [t|]; [|reflexivity].
  eexists _, _. refine (conj eq_refl _). rewrite C, A. destruct (level_int (level_after h) <=? type_int t) eqn:L.
  - split; [reflexivity|]. intros K. apply level_type_iff in L. contradiction.
  - split; [|reflexivity]. intros K. apply level_type_iff in K. congruence.
Qed.
(** settings write nothing; reset restores level and prefix, but not the stream, and does not end the current message *)
Theorem C39_settings h o g w : g_play g_new h = Ok (g, w) -> (forall t, o <> GLog t) -> (forall x, o <> GWrite x) -> exists g', g_play g_new (h ++ [o]) = Ok (g', w).
Proof.
  intros E N1 N2. rewrite play_snoc, E. destruct o; cbn [g_step]; try (eexists; rewrite app_nil_r; reflexivity).
  - now destruct (N1 t).
  - now destruct (N2 x).
Qed.
Theorem C39_reset h : level_after (h ++ [GReset]) = L_NORMAL /\ prefix_after (h ++ [GReset]) = ""%string /\ stream_after (h ++ [GReset]) = stream_after h /\ type_after (h ++ [GReset]) = type_after h.
Proof. unfold level_after, prefix_after, stream_after, type_after. rewrite !sel_snoc. auto. Qed.
(** the severities admitted grow with the verbosity of the level; NONE admits nothing *)
Theorem C39_levels t : admits L_DEEP t /\ ~ admits L_NONE t /\ (admits L_NORMAL t <-> t <> T_DETAIL) /\ (admits L_ALERT t <-> t = T_ERROR).
Proof. destruct t; cbn; intuition congruence. Qed.
(** whole-message consequence: a message of one log call and its writes appears completely or not at all, with one header, on one stream *)
Theorem C39_message h t xs g w : g_play g_new h = Ok (g, w) -> exists g' w', g_play g_new (h ++ GLog t :: map GWrite xs) = Ok (g', w ++ w') /\
  (admits (level_after h) t -> text (stream_after h) w' = (header (prefix_after h) ++ fold_right append "" xs)%string) /\ (~ admits (level_after h) t -> w' = []) /\
  (forall s, s <> stream_after h -> text s w' = ""%string).
Proof.
  intros E. induction xs as [|x xs IH] using rev_ind.
  - destruct (C39_header h t g w E) as (g' & w' & E' & A & B & C). exists g', w'. cbn [map fold_right]. rewrite str_nil. auto.
  - destruct IH as (g' & w' & E' & A & B & C). rewrite map_app. cbn [map]. rewrite app_comm_cons, app_assoc.
    pose proof (C39_text _ x _ _ E') as K.
    assert (T : type_after (h ++ GLog t :: map GWrite xs) = Some t /\ level_after (h ++ GLog t :: map GWrite xs) = level_after h /\ stream_after (h ++ GLog t :: map GWrite xs) = stream_after h).
    { clear. assert (G : forall B (pick : gop -> option B) b, (forall x, pick (GWrite x) = None) -> last_sel pick b (map GWrite xs) = b).
      { intros B pick b Hp. unfold last_sel. induction xs as [|x xs IH]; cbn; [reflexivity|]. now rewrite Hp. }
      unfold type_after, level_after, stream_after. unfold last_sel. rewrite !fold_left_app. cbn [fold_left]. repeat split; apply G; reflexivity. }
    destruct T as (T1 & T2 & T3). rewrite T1, T2, T3 in K. destruct K as (g2 & w2 & E2 & A2 & B2). exists g2, (w' ++ w2). rewrite app_assoc. refine (conj E2 (conj _ (conj _ _))).
    + intros Ha. rewrite text_app, (A Ha), (A2 Ha). cbn [text]. rewrite Nat.eqb_refl, str_nil, str_assoc. f_equal.
      clear. induction xs as [|y xs IH]; cbn; [now rewrite str_nil|]. now rewrite str_assoc, IH.
    + intros Ha. now rewrite (B Ha), (B2 Ha).
    + intros s Hs. rewrite text_app, (C s Hs). destruct (level_int (level_after h) <=? type_int t) eqn:L.
      * apply level_type_iff in L. rewrite (A2 L). cbn. apply Nat.eqb_neq in Hs. rewrite Nat.eqb_sym in Hs. now rewrite Hs.
      * rewrite B2; [reflexivity|]. intros K. apply level_type_iff in K. congruence.
Qed.
Definition g_hist : list gop := [GPrefix "arm"%string; GLevel L_ALERT; GStream 4; GLog T_INFO; GWrite "hidden"%string].
Example C39_instance : exists g, g_play g_new g_hist = Ok (g, []) /\ admits (level_after g_hist) T_ERROR /\ header (prefix_after g_hist) = "[MPC++ arm] "%string /\ stream_after g_hist = 4 /\
  g_play g_new [GWrite "x"%string] = UB.
Proof. eexists. cbn. auto. Qed.
