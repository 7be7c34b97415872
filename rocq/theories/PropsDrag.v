(** Property C68: the drag history written by drivers with immersed bodies. *)
From Coq Require Import QArith FunctionalExtensionality.
From Verif Require Import Base SpecGrid SpecGhostSum SpecStencil SpecStep SpecPenalise SpecFilter SpecDouble SpecLag SpecIB SpecVbf SpecNS SpecBodies SpecCoupled SpecReduce SpecDiag SpecLoop SpecAdaptive SpecDriver SpecDrag
  Comm Blocking Spmd Stencil Lagrangian Vbf NavierStokes Coupled SpecTracks Loop Diagnostics Adaptive Driver Drag.
From Verif Require PropsNS PropsCoupled PropsLoop PropsDriver KernelProofs AdaptiveProofs AdaptiveThms DragProofs.
From Verif Require Import PropsDriver.
Open Scope Z_scope.

Section Two.
Context {T W V C B L : Type}.
(* times, as in C59 *)
Variables (before : W -> W -> bool) (plus : W -> W -> W) (zero : W) (due : W -> W -> bool) (limits : list W) (final : W).
Variables (le : T -> T -> Prop) (mnT mx : T -> T -> T) (leW : W -> W -> Prop) (mn mxW : W -> W -> W) (mag : list T -> T) (lim : T -> W) (pre : W -> W).
Hypothesis values_ordered : ordered le mnT mx.
Hypothesis times_ordered : ordered leW mn mxW.
Hypothesis limit_antitone : forall k l, le (mag k) (mag l) -> leW (lim (mag l)) (lim (mag k)).
(* flow and bodies, as in C54 *)
Variables (add sub mul : T -> T -> T) (z : T) (times0 scale : T -> T) (sum : list T -> T) (dx shift : Q).
Variables (damp : C -> C -> T -> T) (coord : nat -> Z -> C) (width : Z) (conv : (list Z -> T) -> list Z -> T) (Kcx Kcy : @kfun T).
Variables (w psi vx vy fx fy buf D S : nat) (nb : nat).
Hypothesis add_monoid : comm_monoid add z.
Hypothesis zeroing : forall x, times0 x = z.
Hypothesis spacing : (0 < dx)%Q.
(* the calls of iteration k, at time t with time step d *)
Variables (rules : nat -> body_rules T B L) (num : nat -> W -> W -> nat) (script : nat -> W -> W -> list V -> action T (@ns2_step T)) (look : list (list T) -> V) (none : L).
Notation Fs := [w; psi; vx; vy].
Notation setting py px ny nx g dd xg := (ns2_setting py px ny nx g width dd xg coord w psi vx vy fx fy buf D S Kcx Kcy).
Notation all_ok py px g actors := (actors_ok [py; px] g nb actors [w; psi; vx; vy; fx; fy; buf; D; S]).
Notation shows py px ny nx g actors := (@shows_at T B z [py; px] [ny; nx] g Fs [fx; fy] nb actors [[g; nx + 2 * g]; [ny + 2 * g; g]]).
Notation flow_step N := (fun frc u s => serial_ns_2d add z damp coord width conv Kcx Kcy N w psi vx vy fx fy u (with_forcing2 [fx; fy] frc s)).
Notation plain := (fun lift : list V -> @ns2_step T -> @ns2_step T => lift = (fun _ s => s)).
(* serial iterations: of all calls, with the time step for the top speed of the flow *)
Notation advance N actors := (driven 2 N Fs (fun b => a_body (actors b)) rules look num script add sub mul z scale sum dx shift [vx; vy] (flow_step N)).
Notation serial_step N actors := (serial_iteration before plus zero due limits final le mag lim pre N [vx; vy] (fun x => cs_u (fst x)) (advance N actors)).
Notation serial_run N actors := (serial_iterations before plus zero due limits final le mag lim pre N [vx; vy] (fun x => cs_u (fst x)) (advance N actors)).
(* the ranks' iterations *)
Notation rest py px ny nx g full dd xg actors ord := (drive add sub mul z scale sum dx shift [py; px] [ny; nx] g [vx; vy] Fs [fx; fy] actors
  (exch_2d py px ny nx g full [vx; vy]) (spread_2 add mul times0 dx shift py px ny nx g [fx; fy])
  (time_step_2d add z damp conv py px ny nx g full dd width xg w psi vx vy fx fy buf D S Kcx Kcy) rules num script look none ord plain).
Notation ranks_step py px ny nx g full dd xg actors ord := (iteration [py; px] [ny; nx] g before plus zero due limits final mag mx lim mn pre [vx; vy] buf
  (keeps Fs [fx; fy] nb actors) (rest py px ny nx g full dd xg actors ord)).
Notation ranks_run py px ny nx g full dd xg actors ord := (iterations [py; px] [ny; nx] g before plus zero due limits final mag mx lim mn pre [vx; vy] buf
  (keeps Fs [fx; fy] nb actors) (rest py px ny nx g full dd xg actors ord)).
(* data timer, body, np.sum, units *)
Context {TI D' : Type}.
Variables (timer b : nat) (np_sum : list T -> T) (scaled : W -> TI) (coeff : T -> D').
Notation history actors := (drag_history plus timer b (v_count (a_body (actors b))) np_sum scaled coeff).
Notation file actors := (drag_file plus timer (a_master (actors b)) (gfo (a_arrays (actors b))) (v_count (a_body (actors b))) np_sum scaled coeff).
Notation legal py px ny nx actors ord s0 a0 := (drives_legally_2d before plus zero due limits final le mag lim pre add sub mul z scale sum dx shift damp coord width conv Kcx Kcy w psi vx vy fx fy nb rules num script look py px ny nx actors ord s0 a0).

(** C68 (2D).  When the ranks leave the loop, the serial driver does, after as many iterations; the master's file then has the rows
    of the serial history - the times at which the data timer was due and the drag from the serial forces - and no other rank writes. *)
Theorem C68_drag_file_2d py px ny nx g full dd xg actors ord c0 s0 a0 tr c :
  setting py px ny nx g dd xg -> all_ok py px g actors -> legal py px ny nx actors ord s0 a0 -> (b < nb)%nat ->
  all_at [py; px] (shows py px ny nx g actors) (eq a0) c0 s0 -> off_edge z [py; px] [ny; nx] (fst (s_state s0)) ->
  ranks_run py px ny nx g full dd xg actors ord c0 tr c -> over [py; px] before final c ->
  exists hs s, serial_run (global_size [py; px] [ny; nx]) actors s0 hs s /\ serial_over before final s /\ length tr = length hs /\
    forall r, 0 <= r < py * px ->
      file actors r (c_time c0 r) tr = if r =? a_master (actors b) then Some (history actors (s_time s0) hs) else None.
Proof.
  intros HS HA Hl Hb H Ho It Hov.
  destruct (C60_lockstep_2d before plus zero due limits final le mnT mx leW mn mxW mag lim pre values_ordered times_ordered limit_antitone add sub mul z times0 scale sum dx shift damp coord width conv Kcx Kcy w psi vx vy fx fy buf D S nb
    add_monoid zeroing spacing rules num script look none py px ny nx g full dd xg actors ord c0 s0 a0 tr c HS HA Hl H Ho It) as (hs & s & S1 & F1 & (_ & C2 & _) & _).
  exists hs, s. split; [exact S1|]. pose proof HS as [G _ _ _ _ _ _ _ _]. destruct (KernelProofs.g2_ok _ _ _ _ _ G) as [_ Dp _].
  assert (P : 0 < py * px) by (inversion Dp as [|? ? P1 Dp']; inversion Dp' as [|? ? P2 _]; nia).
  assert (EZ : zprod [py; px] = py * px) by (cbn; lia).
  split; [|split].
  - specialize (Hov 0 ltac:(unfold rank; rewrite EZ; lia)). unfold goes_on in Hov. unfold serial_over. destruct (C2 0 ltac:(rewrite EZ; lia)) as [<- _]. exact Hov.
  - clear - F1. induction F1; cbn; congruence.
  - intros r Hr. destruct H as (_ & H2 & _). rewrite <- EZ in Hr. destruct (H2 r Hr) as [-> _].
    apply (DragProofs.file_shown plus timer b np_sum scaled coeff z [py; px] [ny; nx] g Fs [fx; fy] nb actors [[g; nx + 2 * g]; [ny + 2 * g; g]] Hb ltac:(discriminate) tr hs (s_time s0) r F1).
Qed.
(** C68 (2D).  Two decompositions, whatever their masters, write the same file. *)
Theorem C68_decomposition_independent_2d py px ny nx full dd xg actors ord py' px' ny' nx' full' dd' xg' actors' ord' g c0 c0' s0 a0 a0' tr c tr' c' :
  setting py px ny nx g dd xg -> setting py' px' ny' nx' g dd' xg' -> global_size [py; px] [ny; nx] = global_size [py'; px'] [ny'; nx'] ->
  all_ok py px g actors -> all_ok py' px' g actors' -> (forall b, a_body (actors b) = a_body (actors' b)) ->
  legal py px ny nx actors ord s0 a0 -> legal py' px' ny' nx' actors' ord' s0 a0' -> (b < nb)%nat ->
  all_at [py; px] (shows py px ny nx g actors) (eq a0) c0 s0 -> all_at [py'; px'] (shows py' px' ny' nx' g actors') (eq a0') c0' s0 -> off_edge z [py; px] [ny; nx] (fst (s_state s0)) ->
  ranks_run py px ny nx g full dd xg actors ord c0 tr c -> ranks_run py' px' ny' nx' g full' dd' xg' actors' ord' c0' tr' c' ->
  over [py; px] before final c -> over [py'; px'] before final c' ->
  exists rows, file actors (a_master (actors b)) (c_time c0 (a_master (actors b))) tr = Some rows /\ file actors' (a_master (actors' b)) (c_time c0' (a_master (actors' b))) tr' = Some rows.
Proof.
  intros HS HS' EN HA HA' Hab Hl Hl' Hb H H' Ho It It' Hov Hov'.
  destruct (C68_drag_file_2d py px ny nx g full dd xg actors ord c0 s0 a0 tr c HS HA Hl Hb H Ho It Hov) as (hs & s & S1 & O1 & _ & R1).
  assert (Ho' : off_edge z [py'; px'] [ny'; nx'] (fst (s_state s0))) by (unfold off_edge in *; now rewrite <- EN).
  destruct (C68_drag_file_2d py' px' ny' nx' g full' dd' xg' actors' ord' c0' s0 a0' tr' c' HS' HA' Hl' Hb H' Ho' It' Hov') as (hs' & s' & S2 & O2 & _ & R2).
  assert (EB : (fun b => a_body (actors' b)) = (fun b => a_body (actors b))) by (extensionality q; symmetry; apply Hab).
  rewrite EB, <- EN in S2. pose proof HS as [G _ _ _ _ _ _ _ _].
  assert (X : hs = hs').
  { exact (DragProofs.one_run [py; px] [ny; nx] before plus zero due limits final le mnT mx mag lim pre [vx; vy] (fun x => cs_u (fst x)) (advance (global_size [py; px] [ny; nx]) actors) values_ordered s0 hs s hs' s' S1 O1 S2 O2). }
  exists (history actors (s_time s0) hs). destruct HA as [_ HA]. destruct HA' as [_ HA']. destruct (HA b Hb) as [M1 _]. destruct (HA' b Hb) as [M2 _]. cbn [zprod fold_right] in M1, M2.
  rewrite R1 by lia. rewrite R2 by lia. rewrite !Z.eqb_refl. rewrite X, (Hab b). split; reflexivity.
Qed.
End Two.

Section Three.
Context {T W V C B L : Type}.
(* times, as in C59 *)
Variables (before : W -> W -> bool) (plus : W -> W -> W) (zero : W) (due : W -> W -> bool) (limits : list W) (final : W).
Variables (le : T -> T -> Prop) (mnT mx : T -> T -> T) (leW : W -> W -> Prop) (mn mxW : W -> W -> W) (mag : list T -> T) (lim : T -> W) (pre : W -> W).
Hypothesis values_ordered : ordered le mnT mx.
Hypothesis times_ordered : ordered leW mn mxW.
Hypothesis limit_antitone : forall k l, le (mag k) (mag l) -> leW (lim (mag l)) (lim (mag k)).
(* flow and bodies, as in C54 *)
Variables (add sub mul : T -> T -> T) (z : T) (times0 scale : T -> T) (sum : list T -> T) (dx shift : Q).
Variables (damp : C -> C -> T -> T) (coord : nat -> Z -> C) (width : Z) (conv : (list Z -> T) -> list Z -> T) (Kcx Kcy Kcz : @kfun T)
          (lap : T -> T -> T -> T) (fsub : T -> T -> T) (filt : option (filter_type * nat * Z)).
Variables (w0 w1 w2 p0 p1 p2 vx vy vz fx fy fz b0 b1 b2 buf D S : nat) (nb : nat).
Hypothesis add_monoid : comm_monoid add z.
Hypothesis zeroing : forall x, times0 x = z.
Hypothesis spacing : (0 < dx)%Q.
(* the calls of iteration k, at time t with time step d *)
Variables (rules : nat -> body_rules T B L) (num : nat -> W -> W -> nat) (script : nat -> W -> W -> list V -> action T (@ns3_step T)) (look : list (list T) -> V) (none : L).
Notation ws := [w0; w1; w2].
Notation vs := [vx; vy; vz].
Notation fs := [fx; fy; fz].
Notation bs := [b0; b1; b2].
Notation Fs := [w0; w1; w2; p0; p1; p2; vx; vy; vz].
Notation setting pz py px n0 n1 n2 g xg := (ns3_setting pz py px n0 n1 n2 g width filt xg coord w0 w1 w2 p0 p1 p2 vx vy vz fx fy fz b0 b1 b2 buf D S Kcx Kcy Kcz).
Notation all_ok pz py px g actors := (actors_ok [pz; py; px] g nb actors [w0; w1; w2; p0; p1; p2; vx; vy; vz; fx; fy; fz; b0; b1; b2; buf; D; S]).
Notation bufsz n0 n1 n2 g := [[g; n1 + 2 * g; n2 + 2 * g]; [n0 + 2 * g; g; n2 + 2 * g]; [n0 + 2 * g; n1 + 2 * g; g]].
Notation shows pz py px n0 n1 n2 g actors := (@shows_at T B z [pz; py; px] [n0; n1; n2] g Fs fs nb actors (bufsz n0 n1 n2 g)).
Notation flow_step N := (fun frc u s => serial_ns_3d add z damp coord width conv Kcx Kcy Kcz lap fsub filt N w0 w1 w2 p0 p1 p2 vx vy vz b0 b1 b2 fx fy fz u (with_forcing3 fs frc s)).
Notation time_step pz py px n0 n1 n2 g full xg := (fun sr : @ns3_step T * (Z -> nat -> list Z -> T) => time_step_3d add z damp conv lap fsub filt pz py px n0 n1 n2 g full width xg w0 w1 w2 p0 p1 p2 vx vy vz fx fy fz b0 b1 b2 buf D S Kcx Kcy Kcz (snd sr) (fst sr)).
Notation flow_ok := (fun s : @ns3_step T * (Z -> nat -> list Z -> T) => flow3_ok z ws vs bs fs (fst s)).
(* [race h]: arbitrary values for the cells that the curl kernel updates while a ghost it reads is being received, in the step taken after [h] has been seen *)
Notation racing := (fun lift : list V -> @ns3_step T -> @ns3_step T * (Z -> nat -> list Z -> T) => exists race, lift = (fun h s => (s, race h))).
(* serial iterations: of all calls, with the time step for the top speed of the flow *)
Notation advance N actors := (driven 3 N Fs (fun b => a_body (actors b)) rules look num script add sub mul z scale sum dx shift vs (flow_step N)).
Notation serial_step N actors := (serial_iteration before plus zero due limits final le mag lim pre N vs (fun x => cs_u (fst x)) (advance N actors)).
Notation serial_run N actors := (serial_iterations before plus zero due limits final le mag lim pre N vs (fun x => cs_u (fst x)) (advance N actors)).
(* the ranks' iterations *)
Notation rest pz py px n0 n1 n2 g full xg actors ord := (drive add sub mul z scale sum dx shift [pz; py; px] [n0; n1; n2] g vs Fs fs actors
  (exch_3d pz py px n0 n1 n2 g full vs) (spread_3 add mul times0 dx shift pz py px n0 n1 n2 g fs)
  (time_step pz py px n0 n1 n2 g full xg) rules num script look none ord racing).
Notation ranks_step pz py px n0 n1 n2 g full xg actors ord := (iteration [pz; py; px] [n0; n1; n2] g before plus zero due limits final mag mx lim mn pre vs buf
  (keeps Fs fs nb actors) (rest pz py px n0 n1 n2 g full xg actors ord)).
Notation ranks_run pz py px n0 n1 n2 g full xg actors ord := (iterations [pz; py; px] [n0; n1; n2] g before plus zero due limits final mag mx lim mn pre vs buf
  (keeps Fs fs nb actors) (rest pz py px n0 n1 n2 g full xg actors ord)).
(* data timer, body, np.sum, units *)
Context {TI D' : Type}.
Variables (timer b : nat) (np_sum : list T -> T) (scaled : W -> TI) (coeff : T -> D').
Notation history actors := (drag_history plus timer b (v_count (a_body (actors b))) np_sum scaled coeff).
Notation file actors := (drag_file plus timer (a_master (actors b)) (gfo (a_arrays (actors b))) (v_count (a_body (actors b))) np_sum scaled coeff).
Notation legal pz py px n0 n1 n2 actors ord s0 a0 := (drives_legally_3d before plus zero due limits final le mag lim pre add sub mul z scale sum dx shift damp coord width conv Kcx Kcy Kcz lap fsub filt w0 w1 w2 p0 p1 p2 vx vy vz fx fy fz b0 b1 b2 nb rules num script look pz py px n0 n1 n2 actors ord s0 a0).

(** C68 (3D).  When the ranks leave the loop, the serial driver does, after as many iterations; the master's file then has the rows
    of the serial history - the times at which the data timer was due and the drag from the serial forces - and no other rank writes. *)
Theorem C68_drag_file_3d pz py px n0 n1 n2 g full xg actors ord c0 s0 a0 tr c :
  setting pz py px n0 n1 n2 g xg -> all_ok pz py px g actors -> full = true \/ at_most_one_split [pz; py; px] -> legal pz py px n0 n1 n2 actors ord s0 a0 -> (b < nb)%nat ->
  all_at [pz; py; px] (shows pz py px n0 n1 n2 g actors) (eq a0) c0 s0 -> off_edge z [pz; py; px] [n0; n1; n2] (fst (s_state s0)) ->
  ranks_run pz py px n0 n1 n2 g full xg actors ord c0 tr c -> over [pz; py; px] before final c ->
  exists hs s, serial_run (global_size [pz; py; px] [n0; n1; n2]) actors s0 hs s /\ serial_over before final s /\ length tr = length hs /\
    forall r, 0 <= r < pz * py * px ->
      file actors r (c_time c0 r) tr = if r =? a_master (actors b) then Some (history actors (s_time s0) hs) else None.
Proof.
  intros HS HA Hc Hl Hb H Ho It Hov.
  destruct (C60_lockstep_3d before plus zero due limits final le mnT mx leW mn mxW mag lim pre values_ordered times_ordered limit_antitone add sub mul z times0 scale sum dx shift damp coord width conv Kcx Kcy Kcz lap fsub filt w0 w1 w2 p0 p1 p2 vx vy vz fx fy fz b0 b1 b2 buf D S nb
    add_monoid zeroing spacing rules num script look none pz py px n0 n1 n2 g full xg actors ord c0 s0 a0 tr c HS HA Hc Hl H Ho It) as (hs & s & S1 & F1 & (_ & C2 & _) & _).
  exists hs, s. split; [exact S1|]. pose proof HS as [G _ _ _ _ _ _ _]. destruct (KernelProofs.g3_ok _ _ _ _ _ _ _ G) as [_ Dp _].
  assert (P : 0 < pz * py * px) by (clear - Dp; inversion Dp as [|? ? P1 Dp']; inversion Dp' as [|? ? P2 Dp2]; inversion Dp2 as [|? ? P3 _]; subst; assert (0 < pz * py) by nia; nia).
  assert (EZ : zprod [pz; py; px] = pz * py * px) by (cbn; lia).
  split; [|split].
  - specialize (Hov 0 ltac:(unfold rank; rewrite EZ; lia)). unfold goes_on in Hov. unfold serial_over. destruct (C2 0 ltac:(rewrite EZ; lia)) as [<- _]. exact Hov.
  - clear - F1. induction F1; cbn; congruence.
  - intros r Hr. destruct H as (_ & H2 & _). rewrite <- EZ in Hr. destruct (H2 r Hr) as [-> _].
    apply (DragProofs.file_shown plus timer b np_sum scaled coeff z [pz; py; px] [n0; n1; n2] g Fs fs nb actors (bufsz n0 n1 n2 g) Hb ltac:(discriminate) tr hs (s_time s0) r F1).
Qed.
(** C68 (3D).  Two decompositions, whatever their masters, write the same file. *)
Theorem C68_decomposition_independent_3d pz py px n0 n1 n2 full xg actors ord pz' py' px' n0' n1' n2' full' xg' actors' ord' g c0 c0' s0 a0 a0' tr c tr' c' :
  setting pz py px n0 n1 n2 g xg -> setting pz' py' px' n0' n1' n2' g xg' -> global_size [pz; py; px] [n0; n1; n2] = global_size [pz'; py'; px'] [n0'; n1'; n2'] -> full = true \/ at_most_one_split [pz; py; px] -> full' = true \/ at_most_one_split [pz'; py'; px'] ->
  all_ok pz py px g actors -> all_ok pz' py' px' g actors' -> (forall b, a_body (actors b) = a_body (actors' b)) ->
  legal pz py px n0 n1 n2 actors ord s0 a0 -> legal pz' py' px' n0' n1' n2' actors' ord' s0 a0' -> (b < nb)%nat ->
  all_at [pz; py; px] (shows pz py px n0 n1 n2 g actors) (eq a0) c0 s0 -> all_at [pz'; py'; px'] (shows pz' py' px' n0' n1' n2' g actors') (eq a0') c0' s0 -> off_edge z [pz; py; px] [n0; n1; n2] (fst (s_state s0)) ->
  ranks_run pz py px n0 n1 n2 g full xg actors ord c0 tr c -> ranks_run pz' py' px' n0' n1' n2' g full' xg' actors' ord' c0' tr' c' ->
  over [pz; py; px] before final c -> over [pz'; py'; px'] before final c' ->
  exists rows, file actors (a_master (actors b)) (c_time c0 (a_master (actors b))) tr = Some rows /\ file actors' (a_master (actors' b)) (c_time c0' (a_master (actors' b))) tr' = Some rows.
Proof.
  intros HS HS' EN Hc Hc' HA HA' Hab Hl Hl' Hb H H' Ho It It' Hov Hov'.
  destruct (C68_drag_file_3d pz py px n0 n1 n2 g full xg actors ord c0 s0 a0 tr c HS HA Hc Hl Hb H Ho It Hov) as (hs & s & S1 & O1 & _ & R1).
  assert (Ho' : off_edge z [pz'; py'; px'] [n0'; n1'; n2'] (fst (s_state s0))) by (unfold off_edge in *; now rewrite <- EN).
  destruct (C68_drag_file_3d pz' py' px' n0' n1' n2' g full' xg' actors' ord' c0' s0 a0' tr' c' HS' HA' Hc' Hl' Hb H' Ho' It' Hov') as (hs' & s' & S2 & O2 & _ & R2).
  assert (EB : (fun b => a_body (actors' b)) = (fun b => a_body (actors b))) by (extensionality q; symmetry; apply Hab).
  rewrite EB, <- EN in S2. pose proof HS as [G _ _ _ _ _ _ _].
  assert (X : hs = hs').
  { exact (DragProofs.one_run [pz; py; px] [n0; n1; n2] before plus zero due limits final le mnT mx mag lim pre vs (fun x => cs_u (fst x)) (advance (global_size [pz; py; px] [n0; n1; n2]) actors) values_ordered s0 hs s hs' s' S1 O1 S2 O2). }
  exists (history actors (s_time s0) hs). destruct HA as [_ HA]. destruct HA' as [_ HA']. destruct (HA b Hb) as [M1 _]. destruct (HA' b Hb) as [M2 _]. cbn [zprod fold_right] in M1, M2.
  rewrite R1 by lia. rewrite R2 by lia. rewrite !Z.eqb_refl. rewrite X, (Hab b). split; reflexivity.
Qed.
End Three.

(** *** Which force a row has.  Driver with one body that stays where it is (fixed_calls), serially. *)
Section Row.
Context {T F W V B L : Type}.
Variables (before : W -> W -> bool) (plus : W -> W -> W) (zero : W) (due : W -> W -> bool) (limits : list W) (final : W).
Variables (le : T -> T -> Prop) (mag : list T -> T) (lim : T -> W) (pre : W -> W).
Variables (nc : Z) (N : list Z) (Fs : list nat) (bodies : nat -> vbody T) (rules : nat -> body_rules T B L) (look : list (list T) -> V).
Variables (add sub mul : T -> T -> T) (z : T) (scale : T -> T) (sum : list T -> T) (dx shift : Q) (vels : list nat).
Variable flow_step : (Z -> list Z -> T) -> (nat -> list Z -> T) -> F -> nat -> list Z -> T.
Variables (b : nat) (value : W -> T) (step : nat -> W -> W -> F).
Notation advance := (driven nc N Fs bodies rules look three (fixed_calls b value step) add sub mul z scale sum dx shift vels flow_step).
Notation run := (serial_iterations before plus zero due limits final le mag lim pre N vels (fun x => cs_u (fst x)) advance).
(** C68.  The force seen in an iteration is that of the flow the PREVIOUS iteration started from (with the mismatch advanced by the
    previous time step), not that of the flow at the time in the row; the body has not moved.  In the first iteration it is
    the initial force. *)
Theorem C68_force_one_step_old s0 hs s : run s0 hs s ->
  (forall h post, hs = h :: post -> h_state h = s_state s0) /\
  (forall pre_ h h' post, hs = pre_ ++ h :: h' :: post -> snd (h_state h') = snd (h_state h) /\
    forall c j, let st := cs_st (fst (h_state h)) b in
      fo (cs_st (fst (h_state h')) b) c j =
        force_law b bodies rules add sub mul scale sum dx shift vels (fun c j => add (pm st c j) (mul (value (h_dt h)) (vm st c j))) (cs_u (fst (h_state h))) (snd (h_state h) b) c j).
Proof.
  intros R. destruct (DragProofs.run_states before plus zero due limits final le mag lim pre nc N Fs bodies rules look add sub mul z scale sum dx shift vels flow_step b value step s0 hs s R) as [A1 A2]. split.
  - intros h post ->. exact A1.
  - intros pre_ h h' post E. destruct (A2 pre_ h (h' :: post) E) as (k & t & X). cbn in X. rewrite X. split.
    + exact (proj2 (DragProofs.fixed_iteration nc N Fs bodies rules look add sub mul z scale sum dx shift vels flow_step b value step k t (h_dt h) (h_state h))).
    + intros c j. exact (DragProofs.fixed_force nc N Fs bodies rules look add sub mul z scale sum dx shift vels flow_step b value step k t (h_dt h) (h_state h) c j).
Qed.
End Row.

(** *** Cases: body 1 of PropsLoop, fixed, for two iterations; the run of C60_nonvacuous. *)
Definition dg_adv : nat -> Z -> Z -> cstate Z * (nat -> bool * list Z) -> cstate Z * (nat -> bool * list Z) :=
  driven 2 (global_size [2; 1] [4; 5]) [0; 1; 2; 3]%nat (fun b => a_body (PropsCoupled.ex_actor b)) PropsLoop.lx_rules PropsLoop.lx_look three (fixed_calls 1 (fun d => d) (fun _ _ _ => PropsNS.e_step))
    Z.add Z.sub Z.mul 0 (fun x => x) (fold_right Z.add 0) 1 0 [2; 3]%nat PropsLoop.lx_flow.
Notation dg_step := (serial_iteration Z.ltb Z.add 0 dr_due [5; 11] 12 Z.le dr_mag dr_lim (fun d => d) (global_size [2; 1] [4; 5]) [2; 3]%nat (fun x => cs_u (fst x)) dg_adv).
Notation dg_run := (serial_iterations Z.ltb Z.add 0 dr_due [5; 11] 12 Z.le dr_mag dr_lim (fun d => d) (global_size [2; 1] [4; 5]) [2; 3]%nat (fun x => cs_u (fst x)) dg_adv).
Definition dg_mid : sconfig Z (cstate Z * (nat -> bool * list Z)) := {| s_count := 1; s_time := 10; s_timers := [10; 10]; s_state := dg_adv 0 0 10 (s_state dr_start) |}.
Definition dg_end : sconfig Z (cstate Z * (nat -> bool * list Z)) := {| s_count := 2; s_time := 18; s_timers := [8; 18]; s_state := dg_adv 1 10 8 (s_state dg_mid) |}.
Definition dg_h1 : happening Z (cstate Z * (nat -> bool * list Z)) := {| h_due := [true; true]; h_state := s_state dr_start; h_dt := 10 |}.
Definition dg_h2 : happening Z (cstate Z * (nat -> bool * list Z)) := {| h_due := [true; false]; h_state := s_state dg_mid; h_dt := 8 |}.
Lemma dg_step1 : dg_step dr_start dg_h1 dg_mid.
Proof. apply (si Z.ltb Z.add 0 dr_due [5; 11] 12 Z.le dr_mag dr_lim (fun d => d) (global_size [2; 1] [4; 5]) [2; 3]%nat (fun x => cs_u (fst x)) dg_adv dr_start 0); [reflexivity|]. apply AdaptiveThms.is_max_check. vm_compute. reflexivity. Qed.
Lemma dg_step2 : dg_step dg_mid dg_h2 dg_end.
Proof. apply (si Z.ltb Z.add 0 dr_due [5; 11] 12 Z.le dr_mag dr_lim (fun d => d) (global_size [2; 1] [4; 5]) [2; 3]%nat (fun x => cs_u (fst x)) dg_adv dg_mid 48); [reflexivity|]. apply AdaptiveThms.is_max_check. vm_compute. reflexivity. Qed.
(** C68 (finding).  The drag in a row is not the drag of the flow at the time in that row, even after the first row. *)
Theorem C68_force_of_its_time_refuted :
  ~ (forall hs s, dg_run dr_start hs s -> Forall (fun h =>
      total_force 1 1 (fold_right Z.add 0) (h_state h) =
      fold_right Z.add 0 (map (force_law 1%nat (fun b => a_body (PropsCoupled.ex_actor b)) PropsLoop.lx_rules Z.add Z.sub Z.mul (fun x => x) (fold_right Z.add 0) 1 0 [2; 3]%nat
        (pm (cs_st (fst (h_state h)) 1%nat)) (cs_u (fst (h_state h))) (snd (h_state h) 1%nat) 0) (zrange 0 1))) (tl hs)).
Proof.
  intros H. specialize (H (([] ++ [dg_h1]) ++ [dg_h2]) dg_end).
  assert (X : dg_run dr_start (([] ++ [dg_h1]) ++ [dg_h2]) dg_end) by (eapply sis_snoc; [eapply sis_snoc; [apply sis_nil|exact dg_step1]|exact dg_step2]).
  specialize (H X). cbn [app tl] in H. apply Forall_cons_iff in H as [H _]. vm_compute in H. discriminate H.
Qed.
Example C68_force_one_step_old_nonvacuous :
  dg_run dr_start (([] ++ [dg_h1]) ++ [dg_h2]) dg_end /\
  drag_history Z.add 0 1 1 (fold_right Z.add 0) (fun t => t) (fun d => - d) 0 (([] ++ [dg_h1]) ++ [dg_h2]) = [(0, 0); (10, 7)].
Proof. split; [eapply sis_snoc; [eapply sis_snoc; [apply sis_nil|exact dg_step1]|exact dg_step2]|]. vm_compute. reflexivity. Qed.
(** Hypotheses of the 2D theorems: C60_nonvacuous.  The history of its run, body 0, timer 0; and timer 1, due only at the start. *)
Example C68_nonvacuous :
  dr_run dr_start ([] ++ [dr_h1] ++ [dr_h2]) dr_end /\ serial_over Z.ltb 12 dr_end /\
  drag_history Z.add 0 0 2 (fold_right Z.add 0) (fun t => 2 * t) (fun d => - d) 0 ([] ++ [dr_h1] ++ [dr_h2]) = [(0, 0); (20, 24)] /\
  drag_history Z.add 1 0 2 (fold_right Z.add 0) (fun t => 2 * t) (fun d => - d) 0 ([] ++ [dr_h1] ++ [dr_h2]) = [(0, 0)].
Proof.
  split; [change ([] ++ [dr_h1] ++ [dr_h2]) with (([] ++ [dr_h1]) ++ [dr_h2]); eapply sis_snoc; [eapply sis_snoc; [apply sis_nil|exact dr_step1]|exact dr_step2]|].
  split; [reflexivity|]. split; vm_compute; reflexivity.
Qed.
Print Assumptions C68_drag_file_2d.
Print Assumptions C68_decomposition_independent_2d.
Print Assumptions C68_drag_file_3d.
Print Assumptions C68_decomposition_independent_3d.
Print Assumptions C68_force_one_step_old.
Print Assumptions C68_force_of_its_time_refuted.
