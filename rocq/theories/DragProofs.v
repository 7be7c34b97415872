(** Proofs for C68. *)
From Coq Require Import QArith.
From Verif Require Import Base SpecGrid SpecStep SpecIB SpecVbf SpecBodies SpecReduce SpecCoupled SpecLoop SpecDiag SpecAdaptive SpecDriver SpecDrag Comm Blocking Spmd Lagrangian Vbf Coupled SpecTracks Diagnostics Adaptive Driver Drag.
From Verif Require PropsDriver AdaptiveProofs.
Open Scope Z_scope.

Section A.
Context {T B W TI D : Type}.
Variables (plus : W -> W -> W) (timer : nat) (b : nat) (np_sum : list T -> T) (scaled : W -> TI) (coeff : T -> D).
Variables (z : T) (dims loc : list Z) (g : Z) (Fs fs : list nat) (nb : nat) (actors : nat -> actor T) (bufsz : list (list Z)).
Hypothesis Hb : (b < nb)%nat.
Hypothesis Hfs : fs <> [].
Notation count := (v_count (a_body (actors b))).
Notation shows := (@PropsDriver.shows_at T B z dims loc g Fs fs nb actors bufsz).

Lemma summed_shown a m e x : shows a m e x -> summed (gfo (a_arrays (actors b))) count np_sum m (a_master (actors b)) = total_force b count np_sum x.
Proof using Hb Hfs.
  intros (st & (_ & _ & E3) & _ & [_ _ T3 _ _ _] & _). unfold summed, total_force. f_equal. apply map_ext_in. intros j Hj. apply zrange_In in Hj.
  destruct (T3 b Hb) as [_ X]. rewrite E3. apply (X 0 j); [|lia]. destruct fs; [congruence|cbn [length]; lia].
Qed.
Lemma appended_shown tr hs : Forall2 (PropsDriver.same_event shows) tr hs -> forall t,
  appended plus timer (a_master (actors b)) (gfo (a_arrays (actors b))) count np_sum scaled coeff (a_master (actors b)) t tr = drag_history plus timer b count np_sum scaled coeff t hs.
Proof using Hb Hfs.
  induction 1 as [|e h tr hs (E1 & E2 & (a & X)) _ IH]; intros t; [reflexivity|]. cbn [appended drag_history]. rewrite E1, E2, IH, Z.eqb_refl, (summed_shown a _ _ _ X). reflexivity.
Qed.
Lemma appended_elsewhere r (tr : list (seen T W ((nat -> vb) * (Z -> nat -> B)))) : r <> a_master (actors b) -> forall t,
  appended plus timer (a_master (actors b)) (gfo (a_arrays (actors b))) count np_sum scaled coeff r t tr = [].
Proof using.
  intros Hr. induction tr as [|e tr IH]; intros t; [reflexivity|]. cbn [appended]. rewrite IH. destruct (Z.eqb_spec r (a_master (actors b))) as [Eq|_]; [contradiction|]. now destruct nth.
Qed.
Lemma file_shown tr hs t r : Forall2 (PropsDriver.same_event shows) tr hs ->
  drag_file plus timer (a_master (actors b)) (gfo (a_arrays (actors b))) count np_sum scaled coeff r t tr =
  if r =? a_master (actors b) then Some (drag_history plus timer b count np_sum scaled coeff t hs) else None.
Proof using Hb Hfs. intros F. unfold drag_file. destruct (Z.eqb_spec r (a_master (actors b))) as [Eq|_]; [|reflexivity]. rewrite Eq. now rewrite (appended_shown tr hs F). Qed.
End A.

Section R.
Context {T F B L V W : Type}.
Variables (before : W -> W -> bool) (plus : W -> W -> W) (zero : W) (due : W -> W -> bool) (limits : list W) (final : W).
Variables (le : T -> T -> Prop) (mag : list T -> T) (lim : T -> W) (pre : W -> W).
Variables (nc : Z) (N : list Z) (Fs : list nat) (bodies : nat -> vbody T) (rules : nat -> body_rules T B L) (look : list (list T) -> V).
Variables (add sub mul : T -> T -> T) (z : T) (scale : T -> T) (sum : list T -> T) (dx shift : Q) (vels : list nat).
Variable flow_step : (Z -> list Z -> T) -> (nat -> list Z -> T) -> F -> nat -> list Z -> T.
Variables (b : nat) (value : W -> T) (step : nat -> W -> W -> F).
Notation advance := (driven nc N Fs bodies rules look three (fixed_calls b value step) add sub mul z scale sum dx shift vels flow_step).
Notation one := (serial_iteration before plus zero due limits final le mag lim pre N vels (fun x => cs_u (fst x)) advance).
Notation run := (serial_iterations before plus zero due limits final le mag lim pre N vels (fun x => cs_u (fst x)) advance).

(** What an iteration with a fixed body does to its node state. *)
Lemma fixed_iteration k t d (x : cstate T * (nat -> B)) :
  cs_st (fst (advance k t d x)) b =
    met add sub mul scale sum dx shift vels bodies (fun _ _ j => j) b (pose_of rules b (snd x b))
      (serial_event add sub mul z scale sum dx shift vels flow_step bodies (fun _ _ j => j) (fst x) (EAdvance b (value d))) /\
  snd (advance k t d x) = snd x.
Proof using. cbn. unfold set_at. rewrite Nat.eqb_refl. split; reflexivity. Qed.
Lemma fixed_force k t d (x : cstate T * (nat -> B)) c j :
  let st := cs_st (fst x) b in
  fo (cs_st (fst (advance k t d x)) b) c j =
    force_law b bodies rules add sub mul scale sum dx shift vels (fun c j => add (pm st c j) (mul (value d) (vm st c j))) (cs_u (fst x)) (snd x b) c j.
Proof using.
  cbv zeta. destruct (fixed_iteration k t d x) as [E _]. rewrite E. unfold met, force_law, serial_event, ev1, set_at. cbn. rewrite Nat.eqb_refl. reflexivity.
Qed.
Lemma run_states s0 hs s : run s0 hs s ->
  (match hs with [] => s = s0 | h :: _ => h_state h = s_state s0 end) /\
  (forall pre h post, hs = pre ++ h :: post -> exists k t, match post with [] => s_state s | h' :: _ => h_state h' end = advance k t (h_dt h) (h_state h)).
Proof using.
  induction 1 as [|c tr c1 e c2 R [IH1 IH2] I]; [split; [reflexivity|intros [|? ?] ? ? X; discriminate X]|]. inversion I as [U _ _ E1 E2]. subst e c2. cbn [s_state h_dt h_state] in *. split.
  - destruct tr as [|h tr]; [cbn; now subst c1|exact IH1].
  - intros pre0 h post E. assert (C : post = [] \/ exists post' l, post = post' ++ [l]) by (destruct post as [|q qs]; [now left|right; destruct (@exists_last _ (q :: qs)) as (w & l & X); [discriminate|now exists w, l]]). destruct C as [->|(post' & l & ->)].
    + change (h :: []) with ([h]) in E. apply app_inj_tail in E as [-> <-]. cbn. eauto.
    + rewrite app_comm_cons, app_assoc in E. apply app_inj_tail in E as [-> <-]. destruct (IH2 pre0 h post' eq_refl) as (k & t & X). exists k, t. destruct post' as [|h' post']; cbn; exact X.
Qed.
End R.

Section O.
Context {T W X : Type}.
Variables (dims loc : list Z) (before : W -> W -> bool) (plus : W -> W -> W) (zero : W) (due : W -> W -> bool) (limits : list W) (final : W).
Variables (le : T -> T -> Prop) (mnT mx : T -> T -> T) (mag : list T -> T) (lim : T -> W) (pre : W -> W) (vel : list nat) (flow : X -> nat -> list Z -> T) (advance : nat -> W -> W -> X -> X).
Hypothesis OrdT : ordered le mnT mx.
Notation run := (serial_iterations before plus zero due limits final le mag lim pre (global_size dims loc) vel flow advance).
(** A serial driver that ends has one run. *)
Lemma one_run s0 hs s hs' s' : run s0 hs s -> serial_over before final s -> run s0 hs' s' -> serial_over before final s' -> hs = hs'.
Proof using OrdT.
  intros R O R' O'. pose proof (AdaptiveProofs.serial_over_last dims loc before plus zero due limits final le mnT mx mag lim pre vel flow advance OrdT s0 hs s R O hs' s' R').
  pose proof (AdaptiveProofs.serial_over_last dims loc before plus zero due limits final le mnT mx mag lim pre vel flow advance OrdT s0 hs' s' R' O' hs s R).
  exact (proj1 (AdaptiveProofs.serial_det dims loc before plus zero due limits final le mnT mx mag lim pre vel flow advance OrdT s0 hs s hs' s' R R' ltac:(lia))).
Qed.
End O.
