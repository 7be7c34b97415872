(** Property C71: drivers with a rod (or another body that makes several substeps per step of the flow). *)
From Coq Require Import QArith FunctionalExtensionality.
From Verif Require Import Base SpecGrid SpecGhostSum SpecStencil SpecStep SpecPenalise SpecFilter SpecDouble SpecLag SpecIB SpecVbf SpecNS SpecBodies SpecCoupled SpecReduce SpecDiag SpecLoop SpecInteractor SpecAdaptive SpecDriver SpecFixed SpecMoving SpecRod
  Comm Blocking Spmd Stencil Lagrangian Vbf NavierStokes Coupled SpecTracks Loop Interactor Diagnostics Adaptive Driver Rod.
From Verif Require PropsNS PropsCoupled PropsLoop PropsInteractor KernelProofs AdaptiveProofs AdaptiveThms MovingProofs RodProofs.
From Verif Require Import PropsDriver PropsMoving.
Open Scope Z_scope.

Section Two.
Context {T W V C B L : Type}.
(* times, as in C59 *)
Variables (before : W -> W -> bool) (plus : W -> W -> W) (zero : W) (due : W -> W -> bool) (limits : list W) (final : W).
Variables (le : T -> T -> Prop) (mnT mx : T -> T -> T) (leW : W -> W -> Prop) (mn mxW : W -> W -> W) (mag : list T -> T) (lim : T -> W) (pre : W -> W).
Hypothesis values_ordered : ordered le mnT mx.
Hypothesis times_ordered : ordered leW mn mxW.
Hypothesis limit_antitone : forall k l, le (mag k) (mag l) -> leW (lim (mag l)) (lim (mag k)).
(* flow and bodies, as in C54 *)
Variables (add sub mul : T -> T -> T) (z : T) (times0 scale : T -> T) (sum : list T -> T) (dx shift : Q).
Variables (damp : C -> C -> T -> T) (coord : nat -> Z -> C) (width : Z) (conv : (list Z -> T) -> list Z -> T) (Kcx Kcy : @kfun T).
Variables (w psi vx vy fx fy buf D S : nat) (nb : nat).
Hypothesis add_monoid : comm_monoid add z.
Hypothesis zeroing : forall x, times0 x = z.
Hypothesis spacing : (0 < dx)%Q.
(* the stages of the rod's step, and what the flow's step depends on, at time t with time step d (steps, part: PropsSubstep) *)
Variables (rules : nat -> body_rules T B L) (steps : W -> nat) (part : W -> T) (stages : T -> list (action T (@ns2_step T))) (flow : W -> W -> @ns2_step T) (look : list (list T) -> V) (none : L).
Notation num := (rod_num steps part stages flow).
Notation script := (@rod_script T (@ns2_step T) V W steps part stages flow).
Notation Fs := [w; psi; vx; vy].
Notation setting py px ny nx g dd xg := (ns2_setting py px ny nx g width dd xg coord w psi vx vy fx fy buf D S Kcx Kcy).
Notation all_ok py px g actors := (actors_ok [py; px] g nb actors [w; psi; vx; vy; fx; fy; buf; D; S]).
Notation shows py px ny nx g actors := (@shows_at T B z [py; px] [ny; nx] g Fs [fx; fy] nb actors [[g; nx + 2 * g]; [ny + 2 * g; g]]).
Notation flow_step N := (fun frc u s => serial_ns_2d add z damp coord width conv Kcx Kcy N w psi vx vy fx fy u (with_forcing2 [fx; fy] frc s)).
Notation plain := (fun lift : list V -> @ns2_step T -> @ns2_step T => lift = (fun _ s => s)).
(* serial iterations (SpecRod), with the time step for the top speed of the flow *)
Notation advance N actors := (fun _ : nat => rod_advance (fun b => a_body (actors b)) rules add sub mul z scale sum dx shift [vx; vy] (flow_step N) 2 steps part stages flow).
Notation serial_step N actors := (serial_iteration before plus zero due limits final le mag lim pre N [vx; vy] (fun x => cs_u (fst x)) (advance N actors)).
Notation serial_run N actors := (serial_iterations before plus zero due limits final le mag lim pre N [vx; vy] (fun x => cs_u (fst x)) (advance N actors)).
(* the ranks' iterations *)
Notation rest py px ny nx g full dd xg actors ord := (drive add sub mul z scale sum dx shift [py; px] [ny; nx] g [vx; vy] Fs [fx; fy] actors
  (exch_2d py px ny nx g full [vx; vy]) (spread_2 add mul times0 dx shift py px ny nx g [fx; fy])
  (time_step_2d add z damp conv py px ny nx g full dd width xg w psi vx vy fx fy buf D S Kcx Kcy) rules num script look none ord plain).
Notation ranks_run py px ny nx g full dd xg actors ord := (iterations [py; px] [ny; nx] g before plus zero due limits final mag mx lim mn pre [vx; vy] buf
  (keeps Fs [fx; fy] nb actors) (rest py px ny nx g full dd xg actors ord)).
(* where the rod is in the serial run when it gets loads or acts on the flow *)
Notation serial_where N actors s0 := (rod_acted (fun b => a_body (actors b)) rules add sub mul z scale sum dx shift [vx; vy] (flow_step N) 2 steps part stages (serial_step N actors) s0).
(* there it stays inside the domain, and its numbers of nodes per block tell (C70), starting from the positions X0 *)
Definition rod_stays_2d py px ny nx actors (s0 : sconfig W (cstate T * (nat -> B))) (X0 : nat -> list (list Q)) : Prop :=
  forall hs s l, serial_where (global_size [py; px] [ny; nx]) actors s0 hs s l ->
    Forall (well_placed dx shift [py; px] [ny; nx] nb actors) l /\ forall b, (b < nb)%nat -> tell_along dx shift [py; px] [ny; nx] (X0 b) (of_body b l).
Lemma same_advance_2d N actors : driven 2 N Fs (fun b => a_body (actors b)) rules look num script add sub mul z scale sum dx shift [vx; vy] (flow_step N) = advance N actors.
Proof. extensionality k. extensionality t. extensionality d. extensionality x. apply RodProofs.rod_driven. Qed.
Lemma stays_2d py px ny nx actors s0 X0 : rod_stays_2d py px ny nx actors s0 X0 ->
  serial_stays_2d before plus zero due limits final le mag lim pre add sub mul z scale sum dx shift damp coord width conv Kcx Kcy w psi vx vy fx fy nb rules num script look py px ny nx actors s0 X0.
Proof.
  intros H hs s l R. apply (H hs s l). clear H. induction R as [|hs s l h s' R IH I]; [apply ra_nil|].
  rewrite RodProofs.rod_acts_where. apply ra_snoc; [exact IH|]. rewrite <- same_advance_2d. exact I.
Qed.
(** C71 (2D).  A driver with a rod ends exactly if the serial one does, and every memory it passes through shows the serial state; on every rank
    the flow's step is divided into the same substeps. *)
Theorem C71_rod_runs_as_serial_2d py px ny nx g full dd xg actors ord c0 s0 a0 X0 :
  setting py px ny nx g dd xg -> all_ok py px g actors -> by_default nb actors ord -> (0 < nb)%nat -> rod_stages stages -> (forall t d, flow2_ok z w vx vy fx fy (flow t d)) ->
  (forall b, (b < nb)%nat -> in_blocks dx shift [py; px] [ny; nx] (X0 b) (a0 b)) -> rod_stays_2d py px ny nx actors s0 X0 ->
  all_at [py; px] (shows py px ny nx g actors) (eq a0) c0 s0 -> off_edge z [py; px] [ny; nx] (fst (s_state s0)) ->
  ((exists tr c, ranks_run py px ny nx g full dd xg actors ord c0 tr c /\ over [py; px] before final c) <->
   (exists hs s, serial_run (global_size [py; px] [ny; nx]) actors s0 hs s /\ serial_over before final s)) /\
  forall tr c, ranks_run py px ny nx g full dd xg actors ord c0 tr c ->
    exists hs s, serial_run (global_size [py; px] [ny; nx]) actors s0 hs s /\ Forall2 (same_event (shows py px ny nx g actors)) tr hs /\
      all_at [py; px] (shows py px ny nx g actors) (fun _ => True) c s.
Proof.
  intros HS HA HD Hn Hst Hfl HX Hr H Ho. apply stays_2d in Hr.
  pose proof (C70_runs_as_serial_2d before plus zero due limits final le mnT mx leW mn mxW mag lim pre values_ordered times_ordered limit_antitone add sub mul z times0 scale sum dx shift damp coord width conv Kcx Kcy w psi vx vy fx fy buf D S nb
    add_monoid zeroing spacing rules num script look none py px ny nx g full dd xg actors ord c0 s0 a0 X0 HS HA HD
    (fun k t d h => RodProofs.rod_good steps part stages flow (flow2_ok z w vx vy fx fy) nb Hst Hfl Hn k t d h) HX Hr H Ho) as R.
  rewrite same_advance_2d in R. exact R.
Qed.
(** C71 (2D).  So the history does not depend on the decomposition. *)
Theorem C71_rod_decomposition_independent_2d py px ny nx full dd xg actors ord py' px' ny' nx' full' dd' xg' actors' ord' g c0 c0' s0 a0 a0' X0 X0' tr c tr' c' :
  setting py px ny nx g dd xg -> setting py' px' ny' nx' g dd' xg' -> global_size [py; px] [ny; nx] = global_size [py'; px'] [ny'; nx'] ->
  all_ok py px g actors -> all_ok py' px' g actors' -> (forall b, a_body (actors b) = a_body (actors' b)) -> by_default nb actors ord -> by_default nb actors' ord' ->
  (0 < nb)%nat -> rod_stages stages -> (forall t d, flow2_ok z w vx vy fx fy (flow t d)) ->
  (forall b, (b < nb)%nat -> in_blocks dx shift [py; px] [ny; nx] (X0 b) (a0 b)) -> (forall b, (b < nb)%nat -> in_blocks dx shift [py'; px'] [ny'; nx'] (X0' b) (a0' b)) ->
  rod_stays_2d py px ny nx actors s0 X0 -> rod_stays_2d py' px' ny' nx' actors' s0 X0' ->
  all_at [py; px] (shows py px ny nx g actors) (eq a0) c0 s0 -> all_at [py'; px'] (shows py' px' ny' nx' g actors') (eq a0') c0' s0 -> off_edge z [py; px] [ny; nx] (fst (s_state s0)) ->
  ranks_run py px ny nx g full dd xg actors ord c0 tr c -> ranks_run py' px' ny' nx' g full' dd' xg' actors' ord' c0' tr' c' ->
  length tr = length tr' \/ (over [py; px] before final c /\ over [py'; px'] before final c') ->
  Forall2 (fun e e' => e_due e = e_due e' /\ e_dt e = e_dt e' /\ same_on [py; px] [ny; nx] [py'; px'] [ny'; nx'] g Fs [fx; fy] nb actors actors' (e_mem e) (e_rest e) (e_mem e') (e_rest e')) tr tr' /\
  (forall r r', 0 <= r < zprod [py; px] -> 0 <= r' < zprod [py'; px'] -> c_time c r = c_time c' r' /\ c_timers c r = c_timers c' r') /\
  same_on [py; px] [ny; nx] [py'; px'] [ny'; nx'] g Fs [fx; fy] nb actors actors' (c_mem c) (c_rest c) (c_mem c') (c_rest c').
Proof.
  intros HS HS' EN HA HA' Hb HD HD' Hn Hst Hfl HX HX' Hr Hr' H H' Ho. apply stays_2d in Hr. apply stays_2d in Hr'.
  pose proof (fun k t d h => RodProofs.rod_good (V := V) steps part stages flow (flow2_ok z w vx vy fx fy) nb Hst Hfl Hn k t d h) as Hg.
  pose proof HS as [G _ _ _ _ _ _ _ _]. pose proof HS' as [G' _ _ _ _ _ _ _ _].
  exact (C60_decomposition_independent_2d before plus zero due limits final le mnT mx leW mn mxW mag lim pre values_ordered times_ordered limit_antitone add sub mul z times0 scale sum dx shift damp coord width conv Kcx Kcy w psi vx vy fx fy buf D S nb
    add_monoid zeroing spacing rules num script look none py px ny nx full dd xg actors ord py' px' ny' nx' full' dd' xg' actors' ord' g c0 c0' s0 a0 a0' tr c tr' c' HS HS' EN HA HA' Hb
    (C70_calls_legal_2d before plus zero due limits final le mag lim pre add sub mul z scale sum dx shift damp coord width conv Kcx Kcy w psi vx vy fx fy nb spacing rules num script look py px ny nx g actors ord s0 a0 X0 G HD Hg HX Hr)
    (C70_calls_legal_2d before plus zero due limits final le mag lim pre add sub mul z scale sum dx shift damp coord width conv Kcx Kcy w psi vx vy fx fy nb spacing rules num script look py' px' ny' nx' g actors' ord' s0 a0' X0' G' HD' Hg HX' Hr')
    H H' Ho).
Qed.
End Two.

Section Three.
Context {T W V C B L : Type}.
(* times, as in C59 *)
Variables (before : W -> W -> bool) (plus : W -> W -> W) (zero : W) (due : W -> W -> bool) (limits : list W) (final : W).
Variables (le : T -> T -> Prop) (mnT mx : T -> T -> T) (leW : W -> W -> Prop) (mn mxW : W -> W -> W) (mag : list T -> T) (lim : T -> W) (pre : W -> W).
Hypothesis values_ordered : ordered le mnT mx.
Hypothesis times_ordered : ordered leW mn mxW.
Hypothesis limit_antitone : forall k l, le (mag k) (mag l) -> leW (lim (mag l)) (lim (mag k)).
(* flow and bodies, as in C54 *)
Variables (add sub mul : T -> T -> T) (z : T) (times0 scale : T -> T) (sum : list T -> T) (dx shift : Q).
Variables (damp : C -> C -> T -> T) (coord : nat -> Z -> C) (width : Z) (conv : (list Z -> T) -> list Z -> T) (Kcx Kcy Kcz : @kfun T)
          (lap : T -> T -> T -> T) (fsub : T -> T -> T) (filt : option (filter_type * nat * Z)).
Variables (w0 w1 w2 p0 p1 p2 vx vy vz fx fy fz b0 b1 b2 buf D S : nat) (nb : nat).
Hypothesis add_monoid : comm_monoid add z.
Hypothesis zeroing : forall x, times0 x = z.
Hypothesis spacing : (0 < dx)%Q.
(* the stages of the rod's step, and what the flow's step depends on, at time t with time step d (steps, part: PropsSubstep) *)
Variables (rules : nat -> body_rules T B L) (steps : W -> nat) (part : W -> T) (stages : T -> list (action T (@ns3_step T))) (flow : W -> W -> @ns3_step T) (look : list (list T) -> V) (none : L).
Notation num := (rod_num steps part stages flow).
Notation script := (@rod_script T (@ns3_step T) V W steps part stages flow).
Notation ws := [w0; w1; w2].
Notation vs := [vx; vy; vz].
Notation fs := [fx; fy; fz].
Notation bs := [b0; b1; b2].
Notation Fs := [w0; w1; w2; p0; p1; p2; vx; vy; vz].
Notation setting pz py px n0 n1 n2 g xg := (ns3_setting pz py px n0 n1 n2 g width filt xg coord w0 w1 w2 p0 p1 p2 vx vy vz fx fy fz b0 b1 b2 buf D S Kcx Kcy Kcz).
Notation all_ok pz py px g actors := (actors_ok [pz; py; px] g nb actors [w0; w1; w2; p0; p1; p2; vx; vy; vz; fx; fy; fz; b0; b1; b2; buf; D; S]).
Notation bufsz n0 n1 n2 g := [[g; n1 + 2 * g; n2 + 2 * g]; [n0 + 2 * g; g; n2 + 2 * g]; [n0 + 2 * g; n1 + 2 * g; g]].
Notation shows pz py px n0 n1 n2 g actors := (@shows_at T B z [pz; py; px] [n0; n1; n2] g Fs fs nb actors (bufsz n0 n1 n2 g)).
Notation flow_step N := (fun frc u s => serial_ns_3d add z damp coord width conv Kcx Kcy Kcz lap fsub filt N w0 w1 w2 p0 p1 p2 vx vy vz b0 b1 b2 fx fy fz u (with_forcing3 fs frc s)).
Notation time_step pz py px n0 n1 n2 g full xg := (fun sr : @ns3_step T * (Z -> nat -> list Z -> T) => time_step_3d add z damp conv lap fsub filt pz py px n0 n1 n2 g full width xg w0 w1 w2 p0 p1 p2 vx vy vz fx fy fz b0 b1 b2 buf D S Kcx Kcy Kcz (snd sr) (fst sr)).
Notation flow_ok := (fun s : @ns3_step T * (Z -> nat -> list Z -> T) => flow3_ok z ws vs bs fs (fst s)).
(* [race h]: arbitrary values for the cells that the curl kernel updates while a ghost it reads is being received, in the step taken after [h] has been seen *)
Notation racing := (fun lift : list V -> @ns3_step T -> @ns3_step T * (Z -> nat -> list Z -> T) => exists race, lift = (fun h s => (s, race h))).
(* serial iterations (SpecRod), with the time step for the top speed of the flow *)
Notation advance N actors := (fun _ : nat => rod_advance (fun b => a_body (actors b)) rules add sub mul z scale sum dx shift vs (flow_step N) 3 steps part stages flow).
Notation serial_step N actors := (serial_iteration before plus zero due limits final le mag lim pre N vs (fun x => cs_u (fst x)) (advance N actors)).
Notation serial_run N actors := (serial_iterations before plus zero due limits final le mag lim pre N vs (fun x => cs_u (fst x)) (advance N actors)).
(* the ranks' iterations *)
Notation rest pz py px n0 n1 n2 g full xg actors ord := (drive add sub mul z scale sum dx shift [pz; py; px] [n0; n1; n2] g vs Fs fs actors
  (exch_3d pz py px n0 n1 n2 g full vs) (spread_3 add mul times0 dx shift pz py px n0 n1 n2 g fs)
  (time_step pz py px n0 n1 n2 g full xg) rules num script look none ord racing).
Notation ranks_run pz py px n0 n1 n2 g full xg actors ord := (iterations [pz; py; px] [n0; n1; n2] g before plus zero due limits final mag mx lim mn pre vs buf
  (keeps Fs fs nb actors) (rest pz py px n0 n1 n2 g full xg actors ord)).
(* where the rod is in the serial run when it gets loads or acts on the flow *)
Notation serial_where N actors s0 := (rod_acted (fun b => a_body (actors b)) rules add sub mul z scale sum dx shift vs (flow_step N) 3 steps part stages (serial_step N actors) s0).
(* there it stays inside the domain, and its numbers of nodes per block tell (C70), starting from the positions X0 *)
Definition rod_stays_3d pz py px n0 n1 n2 actors (s0 : sconfig W (cstate T * (nat -> B))) (X0 : nat -> list (list Q)) : Prop :=
  forall hs s l, serial_where (global_size [pz; py; px] [n0; n1; n2]) actors s0 hs s l ->
    Forall (well_placed dx shift [pz; py; px] [n0; n1; n2] nb actors) l /\ forall b, (b < nb)%nat -> tell_along dx shift [pz; py; px] [n0; n1; n2] (X0 b) (of_body b l).
Lemma same_advance_3d N actors : driven 3 N Fs (fun b => a_body (actors b)) rules look num script add sub mul z scale sum dx shift vs (flow_step N) = advance N actors.
Proof. extensionality k. extensionality t. extensionality d. extensionality x. apply RodProofs.rod_driven. Qed.
Lemma stays_3d pz py px n0 n1 n2 actors s0 X0 : rod_stays_3d pz py px n0 n1 n2 actors s0 X0 ->
  serial_stays_3d before plus zero due limits final le mag lim pre add sub mul z scale sum dx shift damp coord width conv Kcx Kcy Kcz lap fsub filt w0 w1 w2 p0 p1 p2 vx vy vz fx fy fz b0 b1 b2 nb rules num script look pz py px n0 n1 n2 actors s0 X0.
Proof.
  intros H hs s l R. apply (H hs s l). clear H. induction R as [|hs s l h s' R IH I]; [apply ra_nil|].
  rewrite RodProofs.rod_acts_where. apply ra_snoc; [exact IH|]. rewrite <- same_advance_3d. exact I.
Qed.
(** C71 (3D).  A driver with a rod ends exactly if the serial one does, and every memory it passes through shows the serial state; on every rank
    the flow's step is divided into the same substeps. *)
Theorem C71_rod_runs_as_serial_3d pz py px n0 n1 n2 g full xg actors ord c0 s0 a0 X0 :
  setting pz py px n0 n1 n2 g xg -> all_ok pz py px g actors -> full = true \/ at_most_one_split [pz; py; px] -> by_default nb actors ord -> (0 < nb)%nat -> rod_stages stages -> (forall t d, flow3_ok z ws vs bs fs (flow t d)) ->
  (forall b, (b < nb)%nat -> in_blocks dx shift [pz; py; px] [n0; n1; n2] (X0 b) (a0 b)) -> rod_stays_3d pz py px n0 n1 n2 actors s0 X0 ->
  all_at [pz; py; px] (shows pz py px n0 n1 n2 g actors) (eq a0) c0 s0 -> off_edge z [pz; py; px] [n0; n1; n2] (fst (s_state s0)) ->
  ((exists tr c, ranks_run pz py px n0 n1 n2 g full xg actors ord c0 tr c /\ over [pz; py; px] before final c) <->
   (exists hs s, serial_run (global_size [pz; py; px] [n0; n1; n2]) actors s0 hs s /\ serial_over before final s)) /\
  forall tr c, ranks_run pz py px n0 n1 n2 g full xg actors ord c0 tr c ->
    exists hs s, serial_run (global_size [pz; py; px] [n0; n1; n2]) actors s0 hs s /\ Forall2 (same_event (shows pz py px n0 n1 n2 g actors)) tr hs /\
      all_at [pz; py; px] (shows pz py px n0 n1 n2 g actors) (fun _ => True) c s.
Proof.
  intros HS HA Hc HD Hn Hst Hfl HX Hr H Ho. apply stays_3d in Hr.
  pose proof (C70_runs_as_serial_3d before plus zero due limits final le mnT mx leW mn mxW mag lim pre values_ordered times_ordered limit_antitone add sub mul z times0 scale sum dx shift damp coord width conv Kcx Kcy Kcz lap fsub filt w0 w1 w2 p0 p1 p2 vx vy vz fx fy fz b0 b1 b2 buf D S nb
    add_monoid zeroing spacing rules num script look none pz py px n0 n1 n2 g full xg actors ord c0 s0 a0 X0 HS HA Hc HD
    (fun k t d h => RodProofs.rod_good steps part stages flow (flow3_ok z ws vs bs fs) nb Hst Hfl Hn k t d h) HX Hr H Ho) as R.
  rewrite same_advance_3d in R. exact R.
Qed.
(** C71 (3D).  So the history does not depend on the decomposition. *)
Theorem C71_rod_decomposition_independent_3d pz py px n0 n1 n2 full xg actors ord pz' py' px' n0' n1' n2' full' xg' actors' ord' g c0 c0' s0 a0 a0' X0 X0' tr c tr' c' :
  setting pz py px n0 n1 n2 g xg -> setting pz' py' px' n0' n1' n2' g xg' -> global_size [pz; py; px] [n0; n1; n2] = global_size [pz'; py'; px'] [n0'; n1'; n2'] ->
  all_ok pz py px g actors -> all_ok pz' py' px' g actors' -> full = true \/ at_most_one_split [pz; py; px] -> full' = true \/ at_most_one_split [pz'; py'; px'] -> (forall b, a_body (actors b) = a_body (actors' b)) -> by_default nb actors ord -> by_default nb actors' ord' ->
  (0 < nb)%nat -> rod_stages stages -> (forall t d, flow3_ok z ws vs bs fs (flow t d)) ->
  (forall b, (b < nb)%nat -> in_blocks dx shift [pz; py; px] [n0; n1; n2] (X0 b) (a0 b)) -> (forall b, (b < nb)%nat -> in_blocks dx shift [pz'; py'; px'] [n0'; n1'; n2'] (X0' b) (a0' b)) ->
  rod_stays_3d pz py px n0 n1 n2 actors s0 X0 -> rod_stays_3d pz' py' px' n0' n1' n2' actors' s0 X0' ->
  all_at [pz; py; px] (shows pz py px n0 n1 n2 g actors) (eq a0) c0 s0 -> all_at [pz'; py'; px'] (shows pz' py' px' n0' n1' n2' g actors') (eq a0') c0' s0 -> off_edge z [pz; py; px] [n0; n1; n2] (fst (s_state s0)) ->
  ranks_run pz py px n0 n1 n2 g full xg actors ord c0 tr c -> ranks_run pz' py' px' n0' n1' n2' g full' xg' actors' ord' c0' tr' c' ->
  length tr = length tr' \/ (over [pz; py; px] before final c /\ over [pz'; py'; px'] before final c') ->
  Forall2 (fun e e' => e_due e = e_due e' /\ e_dt e = e_dt e' /\ same_on [pz; py; px] [n0; n1; n2] [pz'; py'; px'] [n0'; n1'; n2'] g Fs fs nb actors actors' (e_mem e) (e_rest e) (e_mem e') (e_rest e')) tr tr' /\
  (forall r r', 0 <= r < zprod [pz; py; px] -> 0 <= r' < zprod [pz'; py'; px'] -> c_time c r = c_time c' r' /\ c_timers c r = c_timers c' r') /\
  same_on [pz; py; px] [n0; n1; n2] [pz'; py'; px'] [n0'; n1'; n2'] g Fs fs nb actors actors' (c_mem c) (c_rest c) (c_mem c') (c_rest c').
Proof.
  intros HS HS' EN HA HA' Hc Hc' Hb HD HD' Hn Hst Hfl HX HX' Hr Hr' H H' Ho. apply stays_3d in Hr. apply stays_3d in Hr'.
  pose proof (fun k t d h => RodProofs.rod_good (V := V) steps part stages flow (flow3_ok z ws vs bs fs) nb Hst Hfl Hn k t d h) as Hg.
  pose proof HS as [G _ _ _ _ _ _ _]. pose proof HS' as [G' _ _ _ _ _ _ _].
  exact (C60_decomposition_independent_3d before plus zero due limits final le mnT mx leW mn mxW mag lim pre values_ordered times_ordered limit_antitone add sub mul z times0 scale sum dx shift damp coord width conv Kcx Kcy Kcz lap fsub filt w0 w1 w2 p0 p1 p2 vx vy vz fx fy fz b0 b1 b2 buf D S nb
    add_monoid zeroing spacing rules num script look none pz py px n0 n1 n2 full xg actors ord pz' py' px' n0' n1' n2' full' xg' actors' ord' g c0 c0' s0 a0 a0' tr c tr' c' HS HS' EN Hc Hc' HA HA' Hb
    (C70_calls_legal_3d before plus zero due limits final le mag lim pre add sub mul z scale sum dx shift damp coord width conv Kcx Kcy Kcz lap fsub filt w0 w1 w2 p0 p1 p2 vx vy vz fx fy fz b0 b1 b2 nb spacing rules num script look pz py px n0 n1 n2 g actors ord s0 a0 X0 G HD Hg HX Hr)
    (C70_calls_legal_3d before plus zero due limits final le mag lim pre add sub mul z scale sum dx shift damp coord width conv Kcx Kcy Kcz lap fsub filt w0 w1 w2 p0 p1 p2 vx vy vz fx fy fz b0 b1 b2 nb spacing rules num script look pz' py' px' n0' n1' n2' g actors' ord' s0 a0' X0' G' HD' Hg HX' Hr')
    H H' Ho).
Qed.
End Three.

(** *** A case: the rod is body 0 of PropsDriver on 2 x 1 ranks: two substeps, in the first of which a node crosses the border of the blocks; the second body is not called. *)
Definition rd_stages (h : Z) : list (action Z (@ns2_step Z)) := [OMove 0 h; OLag 0; OMove 0 h].
Definition rd_adv : nat -> Z -> Z -> cstate Z * (nat -> bool * list Z) -> cstate Z * (nat -> bool * list Z) :=
  fun _ => rod_advance (fun b => a_body (PropsCoupled.ex_actor b)) PropsLoop.lx_rules Z.add Z.sub Z.mul 0 (fun x => x) (fold_right Z.add 0) 1 0 [2; 3]%nat PropsLoop.lx_flow 2 (fun _ => 2%nat) (fun d => d / 2) rd_stages (fun _ _ => PropsNS.e_step).
Notation rd_step := (serial_iteration Z.ltb Z.add 0 dr_due [5; 11] 8 Z.le dr_mag dr_lim (fun d => d) (global_size [2; 1] [4; 5]) [2; 3]%nat (fun x => cs_u (fst x)) rd_adv).
Notation rd_run := (serial_iterations Z.ltb Z.add 0 dr_due [5; 11] 8 Z.le dr_mag dr_lim (fun d => d) (global_size [2; 1] [4; 5]) [2; 3]%nat (fun x => cs_u (fst x)) rd_adv).
Notation rd_where := (rod_where (fun b => a_body (PropsCoupled.ex_actor b)) PropsLoop.lx_rules Z.add Z.sub Z.mul 0 (fun x => x) (fold_right Z.add 0) 1 0 [2; 3]%nat PropsLoop.lx_flow 2 (fun _ => 2%nat) (fun d => d / 2) rd_stages).
Notation rd_stays := (rod_stays_2d Z.ltb Z.add 0 dr_due [5; 11] 8 Z.le dr_mag dr_lim (fun d => d) Z.add Z.sub Z.mul 0 (fun x => x) (fold_right Z.add 0) 1 0 (fun _ _ : Z => fun v => v) (fun _ i => i) 2 (fun v => v)
  PropsNS.e_cx PropsNS.e_cy 0 1 2 3 4 5 2 PropsLoop.lx_rules (fun _ => 2%nat) (fun d => d / 2) rd_stages (fun _ _ => PropsNS.e_step) 2 1 4 5 PropsCoupled.ex_actor).
Definition rd_end : sconfig Z (cstate Z * (nat -> bool * list Z)) := {| s_count := 1; s_time := 10; s_timers := [10; 10]; s_state := rd_adv 0 0 10 (s_state dr_start) |}.
Definition rd_h : happening Z (cstate Z * (nat -> bool * list Z)) := {| h_due := [true; true]; h_state := s_state dr_start; h_dt := 10 |}.
Lemma rd_step1 : rd_step dr_start rd_h rd_end.
Proof. apply (si Z.ltb Z.add 0 dr_due [5; 11] 8 Z.le dr_mag dr_lim (fun d => d) (global_size [2; 1] [4; 5]) [2; 3]%nat (fun x => cs_u (fst x)) rd_adv dr_start 0); [reflexivity|]. apply AdaptiveThms.is_max_check. vm_compute. reflexivity. Qed.
Lemma rd_once s h s' h' s'' : rd_step s h s' -> rd_step s h' s'' -> h = h' /\ s' = s''.
Proof. exact (AdaptiveProofs.serial_once [2; 1] [4; 5] Z.ltb Z.add 0 dr_due [5; 11] 8 Z.le Z.min Z.max dr_mag dr_lim (fun d => d) [2; 3]%nat (fun x => cs_u (fst x)) rd_adv dr_ordered s h s' h' s''). Qed.
Lemma rd_over h s : rd_step rd_end h s -> False.
Proof. intros H. inversion H as [U G]. discriminate G. Qed.
Lemma rd_where1 : rd_where 0 10 (s_state dr_start) = [(0%nat, p_nodes PropsCoupled.ex_pose0); (0%nat, p_nodes PropsCoupled.ex_pose1); (0%nat, p_nodes PropsCoupled.ex_pose1)].
Proof. vm_compute. reflexivity. Qed.
Lemma rd_stays_inside : rd_stays dr_start mv_X.
Proof.
  assert (A : forall hs s l, rod_acted (fun b => a_body (PropsCoupled.ex_actor b)) PropsLoop.lx_rules Z.add Z.sub Z.mul 0 (fun x => x) (fold_right Z.add 0) 1 0 [2; 3]%nat PropsLoop.lx_flow 2 (fun _ => 2%nat) (fun d => d / 2) rd_stages
    rd_step dr_start hs s l -> (s = dr_start /\ l = []) \/ (s = rd_end /\ l = rd_where 0 10 (s_state dr_start))).
  { intros hs s l R. induction R as [|hs s l h s' R IH I]; [now left|]. destruct IH as [[-> ->]|[-> ->]].
    - destruct (rd_once _ _ _ _ _ I rd_step1) as [-> ->]. right. split; reflexivity.
    - destruct (rd_over _ _ I). }
  destruct mv_inside as (D0 & D1 & D2). intros hs s l R. apply A in R. rewrite rd_where1 in R. destruct R as [[_ ->]|[_ ->]].
  - split; [constructor|]. intros b Hb. exact I.
  - split; [apply Forall_forall; intros p Hp; apply mv_well; cbn [In] in *; tauto|]. intros [|[|b]] Hb; [| |lia]; cbn; auto using mv_same, mv_crossing.
Qed.
Example C71_nonvacuous :
  by_default 2 PropsCoupled.ex_actor mv_ord /\ rod_stages rd_stages /\ flow2_ok 0 0 2 3 4 5 PropsNS.e_step /\
  (forall b, (b < 2)%nat -> in_blocks 1 0 [2; 1] [4; 5] (mv_X b) (cs_map PropsCoupled.ex_state b)) /\ rd_stays dr_start mv_X /\
  (exists hs s, rd_run dr_start hs s /\ serial_over Z.ltb 8 s /\ map h_dt hs = [10]) /\
  all_at [2; 1] (shows_at 0 [2; 1] [4; 5] 2 [0; 1; 2; 3]%nat [4; 5]%nat 2 PropsCoupled.ex_actor [[2; 9]; [8; 2]]) (eq (cs_map PropsCoupled.ex_state)) dr_ranks dr_start /\
  off_edge 0 [2; 1] [4; 5] (fst (s_state dr_start)) /\
  rd_where 0 10 (s_state dr_start) = [(0%nat, p_nodes PropsCoupled.ex_pose0); (0%nat, p_nodes PropsCoupled.ex_pose1); (0%nat, p_nodes PropsCoupled.ex_pose1)].
Proof.
  destruct C70_nonvacuous as (E1 & _ & E3 & _ & _ & E6 & E7 & _). split; [exact E1|]. split; [|split; [|split; [exact E3|split; [exact rd_stays_inside|split; [|split; [exact E6|split; [exact E7|exact rd_where1]]]]]]].
  - intros h. apply Forall_forall. intros o Ho. cbn in Ho. decompose [or] Ho; try tauto; subst o; eauto.
  - destruct PropsNS.step_instance as (X & X' & _). split; [exact X'|]. destruct X as (_ & _ & _ & X). cbn [n2_frc PropsNS.e_step] in *. tauto.
  - exists ([] ++ [rd_h]), rd_end. split; [eapply sis_snoc; [apply sis_nil|exact rd_step1]|]. split; reflexivity.
Qed.
(** 3D: the body and the flow of PropsDriver on 2 x 1 x 2 ranks, two substeps. *)
Definition r3_stages (h : Z) : list (action Z (@ns3_step Z)) := [OMove 0 h; OLag 0].
Definition r3_adv : nat -> Z -> Z -> cstate Z * (nat -> Z) -> cstate Z * (nat -> Z) :=
  fun _ => rod_advance (fun b => a_body (PropsCoupled.e3_actor b)) PropsLoop.l3_rules Z.add Z.sub Z.mul 0 (fun x => x) (fold_right Z.add 0) 1 0 [6; 7; 8]%nat d3_flow 3 (fun _ => 2%nat) (fun d => d / 2) r3_stages (fun _ _ => PropsNS.e3_step).
Notation r3_step := (serial_iteration Z.ltb Z.add 0 dr_due [5; 11] 8 Z.le dr_mag dr_lim (fun d => d) (global_size [2; 1; 2] [4; 5; 4]) [6; 7; 8]%nat (fun x => cs_u (fst x)) r3_adv).
Notation r3_run := (serial_iterations Z.ltb Z.add 0 dr_due [5; 11] 8 Z.le dr_mag dr_lim (fun d => d) (global_size [2; 1; 2] [4; 5; 4]) [6; 7; 8]%nat (fun x => cs_u (fst x)) r3_adv).
Notation r3_where := (rod_where (fun b => a_body (PropsCoupled.e3_actor b)) PropsLoop.l3_rules Z.add Z.sub Z.mul 0 (fun x => x) (fold_right Z.add 0) 1 0 [6; 7; 8]%nat d3_flow 3 (fun _ => 2%nat) (fun d => d / 2) r3_stages).
Notation r3_stays := (rod_stays_3d Z.ltb Z.add 0 dr_due [5; 11] 8 Z.le dr_mag dr_lim (fun d => d) Z.add Z.sub Z.mul 0 (fun x => x) (fold_right Z.add 0) 1 0 (fun _ _ : Z => fun v => v) (fun _ i => i) 2 (fun v => v)
  (PropsNS.e3_c 3) (PropsNS.e3_c 4) (PropsNS.e3_c 5) (fun a b c => a + b + c) Z.sub (Some (Multiplicative, 1%nat, 2)) 0 1 2 3 4 5 6 7 8 9 10 11 12 13 14 1 PropsLoop.l3_rules (fun _ => 2%nat) (fun d => d / 2) r3_stages (fun _ _ => PropsNS.e3_step) 2 1 2 4 5 4 PropsCoupled.e3_actor).
Definition r3_end : sconfig Z (cstate Z * (nat -> Z)) := {| s_count := 1; s_time := 10; s_timers := [10; 10]; s_state := r3_adv 0 0 10 (s_state d3_start) |}.
Lemma r3_step1 : r3_step d3_start d3_h r3_end.
Proof. apply (si Z.ltb Z.add 0 dr_due [5; 11] 8 Z.le dr_mag dr_lim (fun d => d) (global_size [2; 1; 2] [4; 5; 4]) [6; 7; 8]%nat (fun x => cs_u (fst x)) r3_adv d3_start 0); [reflexivity|]. apply AdaptiveThms.is_max_check. vm_compute. reflexivity. Qed.
Lemma r3_once s h s' h' s'' : r3_step s h s' -> r3_step s h' s'' -> h = h' /\ s' = s''.
Proof. exact (AdaptiveProofs.serial_once [2; 1; 2] [4; 5; 4] Z.ltb Z.add 0 dr_due [5; 11] 8 Z.le Z.min Z.max dr_mag dr_lim (fun d => d) [6; 7; 8]%nat (fun x => cs_u (fst x)) r3_adv dr_ordered s h s' h' s''). Qed.
Lemma r3_over h s : r3_step r3_end h s -> False.
Proof. intros H. inversion H as [U G]. discriminate G. Qed.
Lemma r3_stays_inside : r3_stays d3_start (fun _ => p_nodes PropsCoupled.e3_pose).
Proof.
  intros hs s l R.
  assert (A : l = [] \/ (s = r3_end /\ l = r3_where 0 10 (s_state d3_start))).
  { assert (A' : (s = d3_start /\ l = []) \/ (s = r3_end /\ l = r3_where 0 10 (s_state d3_start))); [|tauto].
    induction R as [|hs s l h s' R IH I]; [now left|]. destruct IH as [[-> ->]|[-> ->]].
    - destruct (r3_once _ _ _ _ _ I r3_step1) as [-> ->]. right. split; reflexivity.
    - destruct (r3_over _ _ I). }
  assert (E : r3_where 0 10 (s_state d3_start) = [(0%nat, p_nodes PropsCoupled.e3_pose); (0%nat, p_nodes PropsCoupled.e3_pose); (0%nat, p_nodes PropsCoupled.e3_pose)]) by (vm_compute; reflexivity).
  rewrite E in A. destruct A as [-> |[_ ->]]; (split; [|intros [|b] Hb; [|lia]; cbn; auto using m3_same]); [constructor|].
  apply Forall_forall. intros p [<-|[<-|[<-|[]]]]; (split; [cbn; lia|]; split; [reflexivity|]; split; [split; vm_compute; repeat constructor; try discriminate; lia|intros H; discriminate H]).
Qed.
Example C71_nonvacuous_3d : rod_stages r3_stages /\ flow3_ok 0 [0; 1; 2]%nat [6; 7; 8]%nat [12; 13; 14]%nat [9; 10; 11]%nat PropsNS.e3_step /\
  (forall b, (b < 1)%nat -> in_blocks 1 0 [2; 1; 2] [4; 5; 4] (p_nodes PropsCoupled.e3_pose) (cs_map PropsCoupled.e3_state b)) /\ r3_stays d3_start (fun _ => p_nodes PropsCoupled.e3_pose) /\
  r3_run d3_start ([] ++ [d3_h]) r3_end /\ all_at [2; 1; 2] (shows_at 0 [2; 1; 2] [4; 5; 4] 2 [0; 1; 2; 3; 4; 5; 6; 7; 8]%nat [9; 10; 11]%nat 1 PropsCoupled.e3_actor [[2; 9; 8]; [8; 2; 8]; [8; 9; 2]]) (eq (cs_map PropsCoupled.e3_state)) d3_ranks d3_start.
Proof.
  destruct C70_nonvacuous_3d as (_ & _ & E3 & _ & _ & E6). split; [|split; [|split; [exact E3|split; [exact r3_stays_inside|split; [|exact E6]]]]].
  - intros h. apply Forall_forall. intros o Ho. cbn in Ho. decompose [or] Ho; try tauto; subst o; eauto.
  - destruct PropsCoupled.C49_nonvacuous_3d as (_ & _ & H & _). unfold PropsCoupled.e3_events in H. apply Forall_cons_iff in H as [_ H]. apply Forall_cons_iff in H as [_ H]. apply Forall_cons_iff in H as [P3 _]. exact P3.
  - eapply sis_snoc; [apply sis_nil|exact r3_step1].
Qed.
Print Assumptions C71_rod_runs_as_serial_2d.
Print Assumptions C71_rod_decomposition_independent_2d.
Print Assumptions C71_rod_runs_as_serial_3d.
Print Assumptions C71_rod_decomposition_independent_3d.
