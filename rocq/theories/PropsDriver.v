(** Property C60: drivers that couple bodies and flow, with a time step computed from the flow. *)
From Coq Require Import QArith FunctionalExtensionality.
From Verif Require Import Base SpecGrid SpecGhostSum SpecStencil SpecStep SpecPenalise SpecFilter SpecDouble SpecLag SpecIB SpecVbf SpecNS SpecBodies SpecCoupled SpecReduce SpecDiag SpecLoop SpecAdaptive SpecDriver
  Comm Blocking Spmd Stencil Lagrangian Vbf NavierStokes Coupled SpecTracks Loop Diagnostics Adaptive Driver.
From Verif Require PropsNS PropsCoupled PropsLoop KernelProofs CoupledProofs CoupledThms LoopProofs AdaptiveProofs AdaptiveThms OffEdge DriverProofs.
Open Scope Z_scope.

(** The state of the ranks (memory, mappings, copies of the bodies) shows a serial state (flow, forcing, interactors; bodies) with the nodes
    of the bodies at places [a]: the masters' copies of the bodies are the serial bodies. *)
Definition shows_at {T B} (z : T) (dims loc : list Z) (g : Z) (Fs fs : list nat) (nb : nat) (actors : nat -> actor T) (bufsz : list (list Z))
  (a : nat -> list Z) (m : mem T) (e : (nat -> vb) * (Z -> nat -> B)) (x : cstate T * (nat -> B)) : Prop :=
  exists st, same_state (fst x) st /\ cs_map st = a /\ tracks z dims loc g Fs fs nb actors bufsz (fst e) m st /\
    (forall b, (b < nb)%nat -> snd e (a_master (actors b)) b = snd x b).
(** All ranks are in the serial configuration s: number of iterations, time, timers; flow and bodies as just said, with [a] as [places] says. *)
Definition all_at {T W B} (dims : list Z) (shows : (nat -> list Z) -> mem T -> (nat -> vb) * (Z -> nat -> B) -> cstate T * (nat -> B) -> Prop) (places : (nat -> list Z) -> Prop)
  (c : config T W ((nat -> vb) * (Z -> nat -> B))) (s : sconfig W (cstate T * (nat -> B))) : Prop :=
  c_count c = s_count s /\ (forall r, 0 <= r < zprod dims -> c_time c r = s_time s /\ c_timers c r = s_timers s) /\ exists a, places a /\ shows a (c_mem c) (c_rest c) (s_state s).
(** In an iteration the same timers were due, in the same state, and the same time step was taken. *)
Definition same_event {T W B} (shows : (nat -> list Z) -> mem T -> (nat -> vb) * (Z -> nat -> B) -> cstate T * (nat -> B) -> Prop)
  (e : seen T W ((nat -> vb) * (Z -> nat -> B))) (h : happening W (cstate T * (nat -> B))) : Prop :=
  e_due e = h_due h /\ e_dt e = h_dt h /\ exists a, shows a (e_mem e) (e_rest e) (h_state h).
(** Two decompositions are in the same state: flow and forcing at every position, the masters' copies of the bodies, the forces on the bodies. *)
Definition same_on {T B} (dims loc dims' loc' : list Z) (g : Z) (Fs fs : list nat) (nb : nat) (actors actors' : nat -> actor T)
  (m : mem T) (e : (nat -> vb) * (Z -> nat -> B)) (m' : mem T) (e' : (nat -> vb) * (Z -> nat -> B)) : Prop :=
  agree dims loc dims' loc' g (Fs ++ fs) m m' /\ (forall b, (b < nb)%nat -> snd e (a_master (actors b)) b = snd e' (a_master (actors' b)) b) /\
  forall b c j, (b < nb)%nat -> 0 <= c < Z.of_nat (length fs) -> 0 <= j < v_count (a_body (actors b)) ->
    m (a_master (actors b), (gfo (a_arrays (actors b)), c * v_count (a_body (actors b)) + j)) = m' (a_master (actors' b), (gfo (a_arrays (actors' b)), c * v_count (a_body (actors b)) + j)).

Section Two.
Context {T W V C B L : Type}.
(* times, as in C59 *)
Variables (before : W -> W -> bool) (plus : W -> W -> W) (zero : W) (due : W -> W -> bool) (limits : list W) (final : W).
Variables (le : T -> T -> Prop) (mnT mx : T -> T -> T) (leW : W -> W -> Prop) (mn mxW : W -> W -> W) (mag : list T -> T) (lim : T -> W) (pre : W -> W).
Hypothesis values_ordered : ordered le mnT mx.
Hypothesis times_ordered : ordered leW mn mxW.
Hypothesis limit_antitone : forall k l, le (mag k) (mag l) -> leW (lim (mag l)) (lim (mag k)).
(* flow and bodies, as in C54 *)
Variables (add sub mul : T -> T -> T) (z : T) (times0 scale : T -> T) (sum : list T -> T) (dx shift : Q).
Variables (damp : C -> C -> T -> T) (coord : nat -> Z -> C) (width : Z) (conv : (list Z -> T) -> list Z -> T) (Kcx Kcy : @kfun T).
Variables (w psi vx vy fx fy buf D S : nat) (nb : nat).
Hypothesis add_monoid : comm_monoid add z.
Hypothesis zeroing : forall x, times0 x = z.
Hypothesis spacing : (0 < dx)%Q.
(* the calls of iteration k, at time t with time step d *)
Variables (rules : nat -> body_rules T B L) (num : nat -> W -> W -> nat) (script : nat -> W -> W -> list V -> action T (@ns2_step T)) (look : list (list T) -> V) (none : L).
Notation Fs := [w; psi; vx; vy].
Notation setting py px ny nx g dd xg := (ns2_setting py px ny nx g width dd xg coord w psi vx vy fx fy buf D S Kcx Kcy).
Notation all_ok py px g actors := (actors_ok [py; px] g nb actors [w; psi; vx; vy; fx; fy; buf; D; S]).
Notation shows py px ny nx g actors := (@shows_at T B z [py; px] [ny; nx] g Fs [fx; fy] nb actors [[g; nx + 2 * g]; [ny + 2 * g; g]]).
Notation flow_step N := (fun frc u s => serial_ns_2d add z damp coord width conv Kcx Kcy N w psi vx vy fx fy u (with_forcing2 [fx; fy] frc s)).
Notation plain := (fun lift : list V -> @ns2_step T -> @ns2_step T => lift = (fun _ s => s)).
(* serial iterations: of all calls, with the time step for the top speed of the flow *)
Notation advance N actors := (driven 2 N Fs (fun b => a_body (actors b)) rules look num script add sub mul z scale sum dx shift [vx; vy] (flow_step N)).
Notation serial_step N actors := (serial_iteration before plus zero due limits final le mag lim pre N [vx; vy] (fun x => cs_u (fst x)) (advance N actors)).
Notation serial_run N actors := (serial_iterations before plus zero due limits final le mag lim pre N [vx; vy] (fun x => cs_u (fst x)) (advance N actors)).
(* the ranks' iterations *)
Notation rest py px ny nx g full dd xg actors ord := (drive add sub mul z scale sum dx shift [py; px] [ny; nx] g [vx; vy] Fs [fx; fy] actors
  (exch_2d py px ny nx g full [vx; vy]) (spread_2 add mul times0 dx shift py px ny nx g [fx; fy])
  (time_step_2d add z damp conv py px ny nx g full dd width xg w psi vx vy fx fy buf D S Kcx Kcy) rules num script look none ord plain).
Notation ranks_step py px ny nx g full dd xg actors ord := (iteration [py; px] [ny; nx] g before plus zero due limits final mag mx lim mn pre [vx; vy] buf
  (keeps Fs [fx; fy] nb actors) (rest py px ny nx g full dd xg actors ord)).
Notation ranks_run py px ny nx g full dd xg actors ord := (iterations [py; px] [ny; nx] g before plus zero due limits final mag mx lim mn pre [vx; vy] buf
  (keeps Fs [fx; fy] nb actors) (rest py px ny nx g full dd xg actors ord)).
Notation ranks_apart py px ny nx g actors := (@apart T W ((nat -> vb) * (Z -> nat -> B)) [py; px] [ny; nx] g before due limits final mag mx lim mn pre [vx; vy] buf (keeps Fs [fx; fy] nb actors)).
(* the calls of every iteration of the serial run, placed on this decomposition, are legal *)
Definition drives_legally_2d py px ny nx actors ord (s0 : sconfig W (cstate T * (nat -> B))) (a0 : nat -> list Z) : Prop :=
  forall hs s a h s',
  placed_run add sub mul z scale sum dx shift [py; px] [ny; nx] [vx; vy] Fs [fx; fy] actors rules num script look ord plain (flow_step (global_size [py; px] [ny; nx]))
    (serial_step (global_size [py; px] [ny; nx]) actors) s0 a0 hs s a -> serial_step (global_size [py; px] [ny; nx]) actors s h s' ->
  let es := driver_calls add sub mul z scale sum dx shift [py; px] [ny; nx] [vx; vy] Fs [fx; fy] actors rules num script look ord (flow_step (global_size [py; px] [ny; nx])) (fun _ s => s) s (h_dt h) in
  Forall (event_ok [py; px] [ny; nx] nb actors dx shift (flow2_ok z w vx vy fx fy)) es /\ ghosts_ok actors false es /\ moves_ok (zprod [py; px]) a es.

Lemma arrays_2d py px ny nx g dd xg (actors : nat -> actor T) : setting py px ny nx g dd xg -> all_ok py px g actors -> ~ In buf (driver_arrays Fs [fx; fy] nb actors).
Proof.
  intros HS [N _]. pose proof (s2_arrays _ _ _ _ _ _ _ _ _ _ _ _ _ _ _ _ _ _ _ _ HS) as N0. clear HS. intros H. unfold driver_arrays in H. rewrite app_assoc in H. apply in_app_or in H as [H|H].
  - change [w; psi; vx; vy; fx; fy; buf; D; S] with (([w; psi; vx; vy] ++ [fx; fy]) ++ [buf; D; S]) in N0. exact (AdaptiveThms.nodup_sep _ _ buf N0 H ltac:(cbn; tauto)).
  - exact (AdaptiveThms.nodup_sep _ _ buf N ltac:(cbn; tauto) H).
Qed.
Lemma start_2d py px ny nx g dd xg actors ord c0 s0 a0 : setting py px ny nx g dd xg ->
  all_at [py; px] (shows py px ny nx g actors) (eq a0) c0 s0 -> off_edge z [py; px] [ny; nx] (fst (s_state s0)) ->
  AdaptiveProofs.cshows [py; px] (DriverProofs.drel add sub mul z scale sum dx shift [py; px] [ny; nx] g [vx; vy] Fs [fx; fy] nb actors [[g; nx + 2 * g]; [ny + 2 * g; g]] rules num script look ord plain
    (flow_step (global_size [py; px] [ny; nx])) before plus zero due limits final le mag lim pre s0 a0) c0 s0.
Proof. intros HS (H1 & H2 & (a & <- & H3)) Ho. apply DriverProofs.drive_starts; auto. Qed.
Lemma runs_2d py px ny nx g full dd xg actors ss (m : mem T) st es : setting py px ny nx g dd xg -> all_ok py px g actors ->
  LoopProofs.legal dx shift [py; px] [ny; nx] nb actors (flow2_ok z w vx vy fx fy) st es ->
  tracks z [py; px] [ny; nx] g Fs [fx; fy] nb actors [[g; nx + 2 * g]; [ny + 2 * g; g]] ss m st -> off_edge z [py; px] [ny; nx] st ->
  exists m', segs_end (zprod [py; px]) (coupled_segs add sub mul z scale sum dx shift [py; px] [ny; nx] g [vx; vy] [fx; fy] actors (exch_2d py px ny nx g full [vx; vy])
      (spread_2 add mul times0 dx shift py px ny nx g [fx; fy]) (time_step_2d add z damp conv py px ny nx g full dd width xg w psi vx vy fx fy buf D S Kcx Kcy) ss es) m m' /\
    tracks z [py; px] [ny; nx] g Fs [fx; fy] nb actors [[g; nx + 2 * g]; [ny + 2 * g; g]] (final_maps [py; px] ss es) m'
      (serial_coupled add sub mul z scale sum dx shift [vx; vy] (flow_step (global_size [py; px] [ny; nx])) (fun b => a_body (actors b)) (fun _ _ j => j) st es).
Proof.
  intros HS HA (He & Hgh & Hm) Ht Ho. destruct (PropsCoupled.C49_coupled_2d add sub mul z times0 scale sum dx shift damp coord width conv Kcx Kcy w psi vx vy fx fy buf D S nb add_monoid zeroing spacing
    py px ny nx g full dd xg actors es ss m st HS HA He Hgh Hm Ht Ho) as (m' & R & _ & X). exists m'. split; [exact R|exact X].
Qed.

(** C60 (2D).  Whatever the ranks do is an initial part of the serial run of the driver: all ranks are at its time, timers and flow, the masters' copies of
    the bodies are the serial bodies, no two ranks go apart, and unless the loop is over on all of them, all can go on (the iteration ends). *)
Theorem C60_lockstep_2d py px ny nx g full dd xg actors ord c0 s0 a0 tr c :
  setting py px ny nx g dd xg -> all_ok py px g actors -> drives_legally_2d py px ny nx actors ord s0 a0 ->
  all_at [py; px] (shows py px ny nx g actors) (eq a0) c0 s0 -> off_edge z [py; px] [ny; nx] (fst (s_state s0)) ->
  ranks_run py px ny nx g full dd xg actors ord c0 tr c ->
  exists hs s, serial_run (global_size [py; px] [ny; nx]) actors s0 hs s /\ Forall2 (same_event (shows py px ny nx g actors)) tr hs /\
    all_at [py; px] (shows py px ny nx g actors) (fun _ => True) c s /\
    ~ ranks_apart py px ny nx g actors c /\ (over [py; px] before final c \/ exists e c', ranks_step py px ny nx g full dd xg actors ord c e c').
Proof.
  intros HS HA Hl H Ho It. pose proof HS as [G Hg _ _ _ _ _ _ _].
  pose proof (start_2d py px ny nx g dd xg actors ord c0 s0 a0 HS H Ho) as C0.
  destruct (DriverProofs.drive_lockstep add sub mul z scale sum dx shift [py; px] [ny; nx] g [vx; vy] Fs [fx; fy] nb actors [[g; nx + 2 * g]; [ny + 2 * g; g]]
    (exch_2d py px ny nx g full [vx; vy]) (spread_2 add mul times0 dx shift py px ny nx g [fx; fy])
    (time_step_2d add z damp conv py px ny nx g full dd width xg w psi vx vy fx fy buf D S Kcx Kcy) rules num script look none ord plain
    (flow_step (global_size [py; px] [ny; nx])) (flow_step (global_size [py; px] [ny; nx])) (flow2_ok z w vx vy fx fy) before plus zero due limits final le mnT mx leW mn mxW mag lim pre buf)
    with (s0 := s0) (a0 := a0) (c0 := c0) (tr := tr) (c := c) as (hs & s & R1 & R2 & R3 & R4 & R5); auto; try lia.
  - intros lift -> h s f u. reflexivity.
  - now exists (fun _ s => s).
  - exact (KernelProofs.g2_ok _ _ _ _ _ G).
  - intros f Hf. cbn in *. tauto.
  - eapply arrays_2d; eauto.
  - intros ss m st es. now apply runs_2d.
  - intros st es He. now apply (OffEdge.off_kept add sub mul z scale sum dx shift [py; px] [ny; nx] [vx; vy] nb actors (flow2_ok z w vx vy fx fy)).
  - intros hs s a h s' P I lift ->. exact (Hl hs s a h s' P I).
  - exists hs, s. split; [exact R1|]. split; [exact R2|]. split; [|split; [exact R4|exact R5]].
    destruct R3 as (E1 & E2 & (hs' & a & _ & E3 & _)). split; [exact E1|]. split; [exact E2|]. exists a. auto.
Qed.
(** C60 (2D).  The driver ends exactly if the serial one does, and then after as many iterations. *)
Theorem C60_ends_as_serial_2d py px ny nx g full dd xg actors ord c0 s0 a0 :
  setting py px ny nx g dd xg -> all_ok py px g actors -> drives_legally_2d py px ny nx actors ord s0 a0 ->
  all_at [py; px] (shows py px ny nx g actors) (eq a0) c0 s0 -> off_edge z [py; px] [ny; nx] (fst (s_state s0)) ->
  ((exists tr c, ranks_run py px ny nx g full dd xg actors ord c0 tr c /\ over [py; px] before final c) <->
   (exists hs s, serial_run (global_size [py; px] [ny; nx]) actors s0 hs s /\ serial_over before final s)) /\
  (forall hs s, serial_run (global_size [py; px] [ny; nx]) actors s0 hs s -> serial_over before final s -> forall tr c, ranks_run py px ny nx g full dd xg actors ord c0 tr c ->
     (length tr <= length hs)%nat /\ (over [py; px] before final c <-> length tr = length hs)).
Proof.
  intros HS HA Hl H Ho. pose proof HS as [G Hg _ _ _ _ _ _ _].
  pose proof (start_2d py px ny nx g dd xg actors ord c0 s0 a0 HS H Ho) as C0.
  apply (DriverProofs.drive_finishes add sub mul z scale sum dx shift [py; px] [ny; nx] g [vx; vy] Fs [fx; fy] nb actors [[g; nx + 2 * g]; [ny + 2 * g; g]]
    (exch_2d py px ny nx g full [vx; vy]) (spread_2 add mul times0 dx shift py px ny nx g [fx; fy])
    (time_step_2d add z damp conv py px ny nx g full dd width xg w psi vx vy fx fy buf D S Kcx Kcy) rules num script look none ord plain
    (flow_step (global_size [py; px] [ny; nx])) (flow_step (global_size [py; px] [ny; nx])) (flow2_ok z w vx vy fx fy) before plus zero due limits final le mnT mx leW mn mxW mag lim pre buf)
    with (s0 := s0) (a0 := a0) (c0 := c0); auto; try lia.
  - intros lift -> h s f u. reflexivity.
  - now exists (fun _ s => s).
  - exact (KernelProofs.g2_ok _ _ _ _ _ G).
  - intros f Hf. cbn in *. tauto.
  - eapply arrays_2d; eauto.
  - intros ss m st es. now apply runs_2d.
  - intros st es He. now apply (OffEdge.off_kept add sub mul z scale sum dx shift [py; px] [ny; nx] [vx; vy] nb actors (flow2_ok z w vx vy fx fy)).
  - intros hs s a h s' P I lift ->. exact (Hl hs s a h s' P I).
Qed.
(** C60 (2D).  Two decompositions of one domain, with other masters, options, mappings: after as many iterations, or when both are over, the same timers
    were due in the same iterations, in the same states and with the same time steps; times, flow, forcing, bodies and the forces on them are the same. *)
Theorem C60_decomposition_independent_2d py px ny nx full dd xg actors ord py' px' ny' nx' full' dd' xg' actors' ord' g c0 c0' s0 a0 a0' tr c tr' c' :
  setting py px ny nx g dd xg -> setting py' px' ny' nx' g dd' xg' -> global_size [py; px] [ny; nx] = global_size [py'; px'] [ny'; nx'] ->
  all_ok py px g actors -> all_ok py' px' g actors' -> (forall b, a_body (actors b) = a_body (actors' b)) ->
  drives_legally_2d py px ny nx actors ord s0 a0 -> drives_legally_2d py' px' ny' nx' actors' ord' s0 a0' ->
  all_at [py; px] (shows py px ny nx g actors) (eq a0) c0 s0 -> all_at [py'; px'] (shows py' px' ny' nx' g actors') (eq a0') c0' s0 -> off_edge z [py; px] [ny; nx] (fst (s_state s0)) ->
  ranks_run py px ny nx g full dd xg actors ord c0 tr c -> ranks_run py' px' ny' nx' g full' dd' xg' actors' ord' c0' tr' c' ->
  length tr = length tr' \/ (over [py; px] before final c /\ over [py'; px'] before final c') ->
  Forall2 (fun e e' => e_due e = e_due e' /\ e_dt e = e_dt e' /\ same_on [py; px] [ny; nx] [py'; px'] [ny'; nx'] g Fs [fx; fy] nb actors actors' (e_mem e) (e_rest e) (e_mem e') (e_rest e')) tr tr' /\
  (forall r r', 0 <= r < zprod [py; px] -> 0 <= r' < zprod [py'; px'] -> c_time c r = c_time c' r' /\ c_timers c r = c_timers c' r') /\
  same_on [py; px] [ny; nx] [py'; px'] [ny'; nx'] g Fs [fx; fy] nb actors actors' (c_mem c) (c_rest c) (c_mem c') (c_rest c').
Proof.
  intros HS HS' EN HA HA' Hb Hl Hl' H H' Ho It It' Hlen.
  assert (Ho' : off_edge z [py'; px'] [ny'; nx'] (fst (s_state s0))) by (unfold off_edge in *; now rewrite <- EN).
  destruct (C60_lockstep_2d py px ny nx g full dd xg actors ord c0 s0 a0 tr c HS HA Hl H Ho It) as (hs & s & S1 & F1 & C1 & _).
  destruct (C60_lockstep_2d py' px' ny' nx' g full' dd' xg' actors' ord' c0' s0 a0' tr' c' HS' HA' Hl' H' Ho' It') as (hs' & s' & S2 & F2 & C2 & _).
  assert (EB : (fun b => a_body (actors' b)) = (fun b => a_body (actors b))) by (extensionality b; symmetry; apply Hb).
  rewrite EB, <- EN in S2. pose proof HS as [G Hg _ _ _ _ _ _ _]. pose proof HS' as [G' _ _ _ _ _ _ _ _].
  refine (AdaptiveProofs.same_serial [py; px] [ny; nx] [py'; px'] [ny'; nx'] before plus zero due limits final le mnT mx mag lim pre [vx; vy] (fun x => cs_u (fst x)) _ values_ordered
    (KernelProofs.g2_ok _ _ _ _ _ G) (KernelProofs.g2_ok _ _ _ _ _ G')
    (fun m e s => exists a, True /\ shows py px ny nx g actors a m e (s_state s)) (fun m e x => exists a, shows py px ny nx g actors a m e x)
    (fun m e s => exists a, True /\ shows py' px' ny' nx' g actors' a m e (s_state s)) (fun m e x => exists a, shows py' px' ny' nx' g actors' a m e x) _ _
    (same_on [py; px] [ny; nx] [py'; px'] [ny'; nx'] g Fs [fx; fy] nb actors actors') _ s0 hs s hs' s' tr tr' c c' S1 S2 F1 F2 C1 C2 Hlen).
  - intros m e s1 (a & _ & X). now exists a.
  - intros m e s1 (a & _ & X). now exists a.
  - intros m e m' e' x (a & st & X1 & _ & X3 & X4) (a' & st' & Y1 & _ & Y3 & Y4).
    assert (SS : same_state st st') by (unfold same_state in *; intuition congruence).
    destruct (CoupledThms.tracks_agree z [py; px] [ny; nx] [py'; px'] [ny'; nx'] g Fs [fx; fy] nb actors actors' [[g; nx + 2 * g]; [ny + 2 * g; g]] [[g; nx' + 2 * g]; [ny' + 2 * g; g]]
      (fst e) (fst e') m m' st st') as [A1 A2]; auto; try lia; [exact (KernelProofs.g2_ok _ _ _ _ _ G)|exact (KernelProofs.g2_ok _ _ _ _ _ G')|].
    split; [exact A1|]. split; [|exact A2]. intros b Hbn. rewrite (X4 b Hbn), (Y4 b Hbn). reflexivity.
Qed.
End Two.

Section Three.
Context {T W V C B L : Type}.
(* times, as in C59 *)
Variables (before : W -> W -> bool) (plus : W -> W -> W) (zero : W) (due : W -> W -> bool) (limits : list W) (final : W).
Variables (le : T -> T -> Prop) (mnT mx : T -> T -> T) (leW : W -> W -> Prop) (mn mxW : W -> W -> W) (mag : list T -> T) (lim : T -> W) (pre : W -> W).
Hypothesis values_ordered : ordered le mnT mx.
Hypothesis times_ordered : ordered leW mn mxW.
Hypothesis limit_antitone : forall k l, le (mag k) (mag l) -> leW (lim (mag l)) (lim (mag k)).
(* flow and bodies, as in C54 *)
Variables (add sub mul : T -> T -> T) (z : T) (times0 scale : T -> T) (sum : list T -> T) (dx shift : Q).
Variables (damp : C -> C -> T -> T) (coord : nat -> Z -> C) (width : Z) (conv : (list Z -> T) -> list Z -> T) (Kcx Kcy Kcz : @kfun T)
          (lap : T -> T -> T -> T) (fsub : T -> T -> T) (filt : option (filter_type * nat * Z)).
Variables (w0 w1 w2 p0 p1 p2 vx vy vz fx fy fz b0 b1 b2 buf D S : nat) (nb : nat).
Hypothesis add_monoid : comm_monoid add z.
Hypothesis zeroing : forall x, times0 x = z.
Hypothesis spacing : (0 < dx)%Q.
(* the calls of iteration k, at time t with time step d *)
Variables (rules : nat -> body_rules T B L) (num : nat -> W -> W -> nat) (script : nat -> W -> W -> list V -> action T (@ns3_step T)) (look : list (list T) -> V) (none : L).
Notation ws := [w0; w1; w2].
Notation vs := [vx; vy; vz].
Notation fs := [fx; fy; fz].
Notation bs := [b0; b1; b2].
Notation Fs := [w0; w1; w2; p0; p1; p2; vx; vy; vz].
Notation setting pz py px n0 n1 n2 g xg := (ns3_setting pz py px n0 n1 n2 g width filt xg coord w0 w1 w2 p0 p1 p2 vx vy vz fx fy fz b0 b1 b2 buf D S Kcx Kcy Kcz).
Notation all_ok pz py px g actors := (actors_ok [pz; py; px] g nb actors [w0; w1; w2; p0; p1; p2; vx; vy; vz; fx; fy; fz; b0; b1; b2; buf; D; S]).
Notation bufsz n0 n1 n2 g := [[g; n1 + 2 * g; n2 + 2 * g]; [n0 + 2 * g; g; n2 + 2 * g]; [n0 + 2 * g; n1 + 2 * g; g]].
Notation shows pz py px n0 n1 n2 g actors := (@shows_at T B z [pz; py; px] [n0; n1; n2] g Fs fs nb actors (bufsz n0 n1 n2 g)).
Notation flow_step N := (fun frc u s => serial_ns_3d add z damp coord width conv Kcx Kcy Kcz lap fsub filt N w0 w1 w2 p0 p1 p2 vx vy vz b0 b1 b2 fx fy fz u (with_forcing3 fs frc s)).
Notation time_step pz py px n0 n1 n2 g full xg := (fun sr : @ns3_step T * (Z -> nat -> list Z -> T) => time_step_3d add z damp conv lap fsub filt pz py px n0 n1 n2 g full width xg w0 w1 w2 p0 p1 p2 vx vy vz fx fy fz b0 b1 b2 buf D S Kcx Kcy Kcz (snd sr) (fst sr)).
Notation flow_ok := (fun s : @ns3_step T * (Z -> nat -> list Z -> T) => flow3_ok z ws vs bs fs (fst s)).
(* [race h]: arbitrary values for the cells that the curl kernel updates while a ghost it reads is being received, in the step taken after [h] has been seen *)
Notation racing := (fun lift : list V -> @ns3_step T -> @ns3_step T * (Z -> nat -> list Z -> T) => exists race, lift = (fun h s => (s, race h))).
(* serial iterations: of all calls, with the time step for the top speed of the flow *)
Notation advance N actors := (driven 3 N Fs (fun b => a_body (actors b)) rules look num script add sub mul z scale sum dx shift vs (flow_step N)).
Notation serial_step N actors := (serial_iteration before plus zero due limits final le mag lim pre N vs (fun x => cs_u (fst x)) (advance N actors)).
Notation serial_run N actors := (serial_iterations before plus zero due limits final le mag lim pre N vs (fun x => cs_u (fst x)) (advance N actors)).
(* the ranks' iterations *)
Notation rest pz py px n0 n1 n2 g full xg actors ord := (drive add sub mul z scale sum dx shift [pz; py; px] [n0; n1; n2] g vs Fs fs actors
  (exch_3d pz py px n0 n1 n2 g full vs) (spread_3 add mul times0 dx shift pz py px n0 n1 n2 g fs)
  (time_step pz py px n0 n1 n2 g full xg) rules num script look none ord racing).
Notation ranks_step pz py px n0 n1 n2 g full xg actors ord := (iteration [pz; py; px] [n0; n1; n2] g before plus zero due limits final mag mx lim mn pre vs buf
  (keeps Fs fs nb actors) (rest pz py px n0 n1 n2 g full xg actors ord)).
Notation ranks_run pz py px n0 n1 n2 g full xg actors ord := (iterations [pz; py; px] [n0; n1; n2] g before plus zero due limits final mag mx lim mn pre vs buf
  (keeps Fs fs nb actors) (rest pz py px n0 n1 n2 g full xg actors ord)).
Notation ranks_apart pz py px n0 n1 n2 g actors := (@apart T W ((nat -> vb) * (Z -> nat -> B)) [pz; py; px] [n0; n1; n2] g before due limits final mag mx lim mn pre vs buf (keeps Fs fs nb actors)).
(* the calls of every iteration of the serial run, placed on this decomposition, are legal *)
Definition drives_legally_3d pz py px n0 n1 n2 actors ord (s0 : sconfig W (cstate T * (nat -> B))) (a0 : nat -> list Z) : Prop :=
  forall hs s a h s',
  placed_run add sub mul z scale sum dx shift [pz; py; px] [n0; n1; n2] vs Fs fs actors rules num script look ord racing (flow_step (global_size [pz; py; px] [n0; n1; n2]))
    (serial_step (global_size [pz; py; px] [n0; n1; n2]) actors) s0 a0 hs s a -> serial_step (global_size [pz; py; px] [n0; n1; n2]) actors s h s' ->
  forall race : list V -> Z -> nat -> list Z -> T,
  let es := driver_calls add sub mul z scale sum dx shift [pz; py; px] [n0; n1; n2] vs Fs fs actors rules num script look ord (flow_step (global_size [pz; py; px] [n0; n1; n2])) (fun h s => (s, race h)) s (h_dt h) in
  Forall (event_ok [pz; py; px] [n0; n1; n2] nb actors dx shift flow_ok) es /\ ghosts_ok actors false es /\ moves_ok (zprod [pz; py; px]) a es.

Lemma arrays_3d pz py px n0 n1 n2 g xg (actors : nat -> actor T) : setting pz py px n0 n1 n2 g xg -> all_ok pz py px g actors -> ~ In buf (driver_arrays Fs fs nb actors).
Proof.
  intros HS [N _]. destruct HS as [_ _ _ _ _ N0 _ _]. intros H. unfold driver_arrays in H. rewrite app_assoc in H. apply in_app_or in H as [H|H].
  - change [w0; w1; w2; p0; p1; p2; vx; vy; vz; fx; fy; fz; b0; b1; b2; buf; D; S] with ((Fs ++ fs) ++ [b0; b1; b2; buf; D; S]) in N0. exact (AdaptiveThms.nodup_sep _ _ buf N0 H ltac:(cbn; tauto)).
  - exact (AdaptiveThms.nodup_sep _ _ buf N ltac:(cbn; tauto) H).
Qed.
Lemma start_3d pz py px n0 n1 n2 g xg actors ord c0 s0 a0 : setting pz py px n0 n1 n2 g xg ->
  all_at [pz; py; px] (shows pz py px n0 n1 n2 g actors) (eq a0) c0 s0 -> off_edge z [pz; py; px] [n0; n1; n2] (fst (s_state s0)) ->
  AdaptiveProofs.cshows [pz; py; px] (DriverProofs.drel add sub mul z scale sum dx shift [pz; py; px] [n0; n1; n2] g vs Fs fs nb actors (bufsz n0 n1 n2 g) rules num script look ord racing
    (flow_step (global_size [pz; py; px] [n0; n1; n2])) before plus zero due limits final le mag lim pre s0 a0) c0 s0.
Proof. intros HS (H1 & H2 & (a & <- & H3)) Ho. apply DriverProofs.drive_starts; auto. Qed.
Lemma runs_3d pz py px n0 n1 n2 g full xg actors ss (m : mem T) st es : setting pz py px n0 n1 n2 g xg -> all_ok pz py px g actors -> full = true \/ at_most_one_split [pz; py; px] ->
  LoopProofs.legal dx shift [pz; py; px] [n0; n1; n2] nb actors flow_ok st es ->
  tracks z [pz; py; px] [n0; n1; n2] g Fs fs nb actors (bufsz n0 n1 n2 g) ss m st -> off_edge z [pz; py; px] [n0; n1; n2] st ->
  exists m', segs_end (zprod [pz; py; px]) (coupled_segs add sub mul z scale sum dx shift [pz; py; px] [n0; n1; n2] g vs fs actors (exch_3d pz py px n0 n1 n2 g full vs)
      (spread_3 add mul times0 dx shift pz py px n0 n1 n2 g fs) (time_step pz py px n0 n1 n2 g full xg) ss es) m m' /\
    tracks z [pz; py; px] [n0; n1; n2] g Fs fs nb actors (bufsz n0 n1 n2 g) (final_maps [pz; py; px] ss es) m'
      (serial_coupled add sub mul z scale sum dx shift vs (fun frc u s => flow_step (global_size [pz; py; px] [n0; n1; n2]) frc u (fst s)) (fun b => a_body (actors b)) (fun _ _ j => j) st es).
Proof.
  intros HS HA Hc (He & Hgh & Hm) Ht Ho. destruct (PropsCoupled.C49_coupled_3d add sub mul z times0 scale sum dx shift damp coord width conv Kcx Kcy Kcz lap fsub filt w0 w1 w2 p0 p1 p2 vx vy vz fx fy fz b0 b1 b2 buf D S nb add_monoid zeroing spacing
    pz py px n0 n1 n2 g full xg actors es ss m st HS HA Hc He Hgh Hm Ht Ho) as (m' & R & _ & X). exists m'. split; [exact R|exact X].
Qed.

(** C60 (3D).  As in 2D, if the ghost exchange serves corners where two axes are split (the code's simulators with forcing: full = true). *)
Theorem C60_lockstep_3d pz py px n0 n1 n2 g full xg actors ord c0 s0 a0 tr c :
  setting pz py px n0 n1 n2 g xg -> all_ok pz py px g actors -> full = true \/ at_most_one_split [pz; py; px] -> drives_legally_3d pz py px n0 n1 n2 actors ord s0 a0 ->
  all_at [pz; py; px] (shows pz py px n0 n1 n2 g actors) (eq a0) c0 s0 -> off_edge z [pz; py; px] [n0; n1; n2] (fst (s_state s0)) ->
  ranks_run pz py px n0 n1 n2 g full xg actors ord c0 tr c ->
  exists hs s, serial_run (global_size [pz; py; px] [n0; n1; n2]) actors s0 hs s /\ Forall2 (same_event (shows pz py px n0 n1 n2 g actors)) tr hs /\
    all_at [pz; py; px] (shows pz py px n0 n1 n2 g actors) (fun _ => True) c s /\
    ~ ranks_apart pz py px n0 n1 n2 g actors c /\ (over [pz; py; px] before final c \/ exists e c', ranks_step pz py px n0 n1 n2 g full xg actors ord c e c').
Proof.
  intros HS HA Hc Hl H Ho It. pose proof HS as [G _ _ _ _ _ _ _].
  pose proof (start_3d pz py px n0 n1 n2 g xg actors ord c0 s0 a0 HS H Ho) as C0.
  destruct (DriverProofs.drive_lockstep add sub mul z scale sum dx shift [pz; py; px] [n0; n1; n2] g vs Fs fs nb actors (bufsz n0 n1 n2 g)
    (exch_3d pz py px n0 n1 n2 g full vs) (spread_3 add mul times0 dx shift pz py px n0 n1 n2 g fs)
    (time_step pz py px n0 n1 n2 g full xg) rules num script look none ord racing
    (flow_step (global_size [pz; py; px] [n0; n1; n2])) (fun frc u s => flow_step (global_size [pz; py; px] [n0; n1; n2]) frc u (fst s)) flow_ok before plus zero due limits final le mnT mx leW mn mxW mag lim pre buf)
    with (s0 := s0) (a0 := a0) (c0 := c0) (tr := tr) (c := c) as (hs & s & R1 & R2 & R3 & R4 & R5); auto; try (unfold KernelList.grid3 in G; lia).
  - intros lift [race ->] h s f u. reflexivity.
  - exists (fun _ s => (s, fun _ _ _ => z)). now exists (fun _ _ _ _ => z).
  - exact (KernelProofs.g3_ok _ _ _ _ _ _ _ G).
  - intros f Hf. cbn in *. tauto.
  - eapply arrays_3d; eauto.
  - intros ss m st es. now apply runs_3d.
  - intros st es He. now apply (OffEdge.off_kept add sub mul z scale sum dx shift [pz; py; px] [n0; n1; n2] vs nb actors flow_ok).
  - intros hs s a h s' P I lift [race ->]. exact (Hl hs s a h s' P I race).
  - exists hs, s. split; [exact R1|]. split; [exact R2|]. split; [|split; [exact R4|exact R5]].
    destruct R3 as (E1 & E2 & (hs' & a & _ & E3 & _)). split; [exact E1|]. split; [exact E2|]. exists a. auto.
Qed.
(** C60 (3D).  The driver ends exactly if the serial one does, and then after as many iterations. *)
Theorem C60_ends_as_serial_3d pz py px n0 n1 n2 g full xg actors ord c0 s0 a0 :
  setting pz py px n0 n1 n2 g xg -> all_ok pz py px g actors -> full = true \/ at_most_one_split [pz; py; px] -> drives_legally_3d pz py px n0 n1 n2 actors ord s0 a0 ->
  all_at [pz; py; px] (shows pz py px n0 n1 n2 g actors) (eq a0) c0 s0 -> off_edge z [pz; py; px] [n0; n1; n2] (fst (s_state s0)) ->
  ((exists tr c, ranks_run pz py px n0 n1 n2 g full xg actors ord c0 tr c /\ over [pz; py; px] before final c) <->
   (exists hs s, serial_run (global_size [pz; py; px] [n0; n1; n2]) actors s0 hs s /\ serial_over before final s)) /\
  (forall hs s, serial_run (global_size [pz; py; px] [n0; n1; n2]) actors s0 hs s -> serial_over before final s -> forall tr c, ranks_run pz py px n0 n1 n2 g full xg actors ord c0 tr c ->
     (length tr <= length hs)%nat /\ (over [pz; py; px] before final c <-> length tr = length hs)).
Proof.
  intros HS HA Hc Hl H Ho. pose proof HS as [G _ _ _ _ _ _ _].
  pose proof (start_3d pz py px n0 n1 n2 g xg actors ord c0 s0 a0 HS H Ho) as C0.
  apply (DriverProofs.drive_finishes add sub mul z scale sum dx shift [pz; py; px] [n0; n1; n2] g vs Fs fs nb actors (bufsz n0 n1 n2 g)
    (exch_3d pz py px n0 n1 n2 g full vs) (spread_3 add mul times0 dx shift pz py px n0 n1 n2 g fs)
    (time_step pz py px n0 n1 n2 g full xg) rules num script look none ord racing
    (flow_step (global_size [pz; py; px] [n0; n1; n2])) (fun frc u s => flow_step (global_size [pz; py; px] [n0; n1; n2]) frc u (fst s)) flow_ok before plus zero due limits final le mnT mx leW mn mxW mag lim pre buf)
    with (s0 := s0) (a0 := a0) (c0 := c0); auto; try (unfold KernelList.grid3 in G; lia).
  - intros lift [race ->] h s f u. reflexivity.
  - exists (fun _ s => (s, fun _ _ _ => z)). now exists (fun _ _ _ _ => z).
  - exact (KernelProofs.g3_ok _ _ _ _ _ _ _ G).
  - intros f Hf. cbn in *. tauto.
  - eapply arrays_3d; eauto.
  - intros ss m st es. now apply runs_3d.
  - intros st es He. now apply (OffEdge.off_kept add sub mul z scale sum dx shift [pz; py; px] [n0; n1; n2] vs nb actors flow_ok).
  - intros hs s a h s' P I lift [race ->]. exact (Hl hs s a h s' P I race).
Qed.
(** C60 (3D).  Two decompositions of one domain, with other masters, options, mappings: after as many iterations, or when both are over, the same timers
    were due in the same iterations, in the same states and with the same time steps; times, flow, forcing, bodies and the forces on them are the same. *)
Theorem C60_decomposition_independent_3d pz py px n0 n1 n2 full xg actors ord pz' py' px' n0' n1' n2' full' xg' actors' ord' g c0 c0' s0 a0 a0' tr c tr' c' :
  setting pz py px n0 n1 n2 g xg -> setting pz' py' px' n0' n1' n2' g xg' -> global_size [pz; py; px] [n0; n1; n2] = global_size [pz'; py'; px'] [n0'; n1'; n2'] ->
  full = true \/ at_most_one_split [pz; py; px] -> full' = true \/ at_most_one_split [pz'; py'; px'] ->
  all_ok pz py px g actors -> all_ok pz' py' px' g actors' -> (forall b, a_body (actors b) = a_body (actors' b)) ->
  drives_legally_3d pz py px n0 n1 n2 actors ord s0 a0 -> drives_legally_3d pz' py' px' n0' n1' n2' actors' ord' s0 a0' ->
  all_at [pz; py; px] (shows pz py px n0 n1 n2 g actors) (eq a0) c0 s0 -> all_at [pz'; py'; px'] (shows pz' py' px' n0' n1' n2' g actors') (eq a0') c0' s0 -> off_edge z [pz; py; px] [n0; n1; n2] (fst (s_state s0)) ->
  ranks_run pz py px n0 n1 n2 g full xg actors ord c0 tr c -> ranks_run pz' py' px' n0' n1' n2' g full' xg' actors' ord' c0' tr' c' ->
  length tr = length tr' \/ (over [pz; py; px] before final c /\ over [pz'; py'; px'] before final c') ->
  Forall2 (fun e e' => e_due e = e_due e' /\ e_dt e = e_dt e' /\ same_on [pz; py; px] [n0; n1; n2] [pz'; py'; px'] [n0'; n1'; n2'] g Fs fs nb actors actors' (e_mem e) (e_rest e) (e_mem e') (e_rest e')) tr tr' /\
  (forall r r', 0 <= r < zprod [pz; py; px] -> 0 <= r' < zprod [pz'; py'; px'] -> c_time c r = c_time c' r' /\ c_timers c r = c_timers c' r') /\
  same_on [pz; py; px] [n0; n1; n2] [pz'; py'; px'] [n0'; n1'; n2'] g Fs fs nb actors actors' (c_mem c) (c_rest c) (c_mem c') (c_rest c').
Proof.
  intros HS HS' EN Hc Hc' HA HA' Hb Hl Hl' H H' Ho It It' Hlen.
  assert (Ho' : off_edge z [pz'; py'; px'] [n0'; n1'; n2'] (fst (s_state s0))) by (unfold off_edge in *; now rewrite <- EN).
  destruct (C60_lockstep_3d pz py px n0 n1 n2 g full xg actors ord c0 s0 a0 tr c HS HA Hc Hl H Ho It) as (hs & s & S1 & F1 & C1 & _).
  destruct (C60_lockstep_3d pz' py' px' n0' n1' n2' g full' xg' actors' ord' c0' s0 a0' tr' c' HS' HA' Hc' Hl' H' Ho' It') as (hs' & s' & S2 & F2 & C2 & _).
  assert (EB : (fun b => a_body (actors' b)) = (fun b => a_body (actors b))) by (extensionality b; symmetry; apply Hb).
  rewrite EB, <- EN in S2. pose proof HS as [G _ _ _ _ _ _ _]. pose proof HS' as [G' _ _ _ _ _ _ _].
  refine (AdaptiveProofs.same_serial [pz; py; px] [n0; n1; n2] [pz'; py'; px'] [n0'; n1'; n2'] before plus zero due limits final le mnT mx mag lim pre vs (fun x => cs_u (fst x)) _ values_ordered
    (KernelProofs.g3_ok _ _ _ _ _ _ _ G) (KernelProofs.g3_ok _ _ _ _ _ _ _ G')
    (fun m e s => exists a, True /\ shows pz py px n0 n1 n2 g actors a m e (s_state s)) (fun m e x => exists a, shows pz py px n0 n1 n2 g actors a m e x)
    (fun m e s => exists a, True /\ shows pz' py' px' n0' n1' n2' g actors' a m e (s_state s)) (fun m e x => exists a, shows pz' py' px' n0' n1' n2' g actors' a m e x) _ _
    (same_on [pz; py; px] [n0; n1; n2] [pz'; py'; px'] [n0'; n1'; n2'] g Fs fs nb actors actors') _ s0 hs s hs' s' tr tr' c c' S1 S2 F1 F2 C1 C2 Hlen).
  - intros m e s1 (a & _ & X). now exists a.
  - intros m e s1 (a & _ & X). now exists a.
  - intros m e m' e' x (a & st & X1 & _ & X3 & X4) (a' & st' & Y1 & _ & Y3 & Y4).
    assert (SS : same_state st st') by (unfold same_state in *; intuition congruence).
    destruct (CoupledThms.tracks_agree z [pz; py; px] [n0; n1; n2] [pz'; py'; px'] [n0'; n1'; n2'] g Fs fs nb actors actors' (bufsz n0 n1 n2 g) (bufsz n0' n1' n2' g)
      (fst e) (fst e') m m' st st') as [A1 A2]; auto; try (unfold KernelList.grid3 in G; lia); [exact (KernelProofs.g3_ok _ _ _ _ _ _ _ G)|exact (KernelProofs.g3_ok _ _ _ _ _ _ _ G')|].
    split; [exact A1|]. split; [|exact A2]. intros b Hbn. rewrite (X4 b Hbn), (Y4 b Hbn). reflexivity.
Qed.
End Three.
(** *** A case: the two bodies of PropsLoop on 2 x 1 ranks, times in Z, two timers (limits 5 and 11), end at 12.  In the first iteration body 0 moves
    under the forces of the flow and both bodies act on it; the second iteration has the time step of the flow so set off, which the
    calls use. *)
Definition dr_mag (l : list Z) : Z := fold_right Z.add 0 (map Z.abs l).
Definition dr_lim (a : Z) : Z := 10 - a / 20.
Definition dr_due (l t : Z) : bool := (l <=? t) || (t =? 0).
Definition dr_num (k : nat) (t d : Z) : nat := match k with O => 4%nat | _ => 3%nat end.
Definition dr_script (k : nat) (t d : Z) (h : list Z) : action Z (@ns2_step Z) :=
  match k, h with
  | O, [] => OLag 0 | O, [_] => OFull 0 | O, [_; _] => OFull 1 | O, _ => OFlow PropsNS.e_step
  | _, [] => OAdvance 0 d | _, [_] => OMove 0 t | _, _ => OLag 0
  end.
Definition dr_start : sconfig Z (cstate Z * (nat -> bool * list Z)) := {| s_count := 0; s_time := 0; s_timers := [0; 0]; s_state := (PropsCoupled.ex_state, fun _ => (false, [])) |}.
Definition dr_ranks : config Z Z ((nat -> vb) * (Z -> nat -> bool * list Z)) :=
  {| c_count := 0; c_time := fun _ => 0; c_timers := fun _ => [0; 0]; c_mem := fun _ => 0; c_rest := (PropsCoupled.ex_maps, fun _ _ => (false, [])) |}.
Definition dr_adv : nat -> Z -> Z -> cstate Z * (nat -> bool * list Z) -> cstate Z * (nat -> bool * list Z) :=
  driven 2 (global_size [2; 1] [4; 5]) [0; 1; 2; 3]%nat (fun b => a_body (PropsCoupled.ex_actor b)) PropsLoop.lx_rules PropsLoop.lx_look dr_num dr_script Z.add Z.sub Z.mul 0 (fun x => x) (fold_right Z.add 0) 1 0 [2; 3]%nat PropsLoop.lx_flow.
Notation dr_step := (serial_iteration Z.ltb Z.add 0 dr_due [5; 11] 12 Z.le dr_mag dr_lim (fun d => d) (global_size [2; 1] [4; 5]) [2; 3]%nat (fun x => cs_u (fst x)) dr_adv).
Notation dr_run := (serial_iterations Z.ltb Z.add 0 dr_due [5; 11] 12 Z.le dr_mag dr_lim (fun d => d) (global_size [2; 1] [4; 5]) [2; 3]%nat (fun x => cs_u (fst x)) dr_adv).
Notation dr_legal := (drives_legally_2d Z.ltb Z.add 0 dr_due [5; 11] 12 Z.le dr_mag dr_lim (fun d => d) Z.add Z.sub Z.mul 0 (fun x => x) (fold_right Z.add 0) 1 0 (fun _ _ : Z => fun v => v) (fun _ i => i) 2 (fun v => v)
  PropsNS.e_cx PropsNS.e_cy 0 1 2 3 4 5 2 PropsLoop.lx_rules dr_num dr_script PropsLoop.lx_look 2 1 4 5 PropsCoupled.ex_actor PropsLoop.lx_ord).
Notation dr_calls := (driver_calls Z.add Z.sub Z.mul 0 (fun x => x) (fold_right Z.add 0) 1 0 [2; 1] [4; 5] [2; 3]%nat [0; 1; 2; 3]%nat [4; 5]%nat PropsCoupled.ex_actor PropsLoop.lx_rules dr_num dr_script PropsLoop.lx_look PropsLoop.lx_ord
  PropsLoop.lx_flow (fun _ s => s)).
Definition dr_mid : sconfig Z (cstate Z * (nat -> bool * list Z)) := {| s_count := 1; s_time := 10; s_timers := [10; 10]; s_state := dr_adv 0 0 10 (s_state dr_start) |}.
Definition dr_end : sconfig Z (cstate Z * (nat -> bool * list Z)) := {| s_count := 2; s_time := 14; s_timers := [4; 14]; s_state := dr_adv 1 10 4 (s_state dr_mid) |}.
Definition dr_h1 : happening Z (cstate Z * (nat -> bool * list Z)) := {| h_due := [true; true]; h_state := s_state dr_start; h_dt := 10 |}.
Definition dr_h2 : happening Z (cstate Z * (nat -> bool * list Z)) := {| h_due := [true; false]; h_state := s_state dr_mid; h_dt := 4 |}.
Lemma dr_step1 : dr_step dr_start dr_h1 dr_mid.
Proof. apply (si Z.ltb Z.add 0 dr_due [5; 11] 12 Z.le dr_mag dr_lim (fun d => d) (global_size [2; 1] [4; 5]) [2; 3]%nat (fun x => cs_u (fst x)) dr_adv dr_start 0); [reflexivity|]. apply AdaptiveThms.is_max_check. vm_compute. reflexivity. Qed.
Lemma dr_step2 : dr_step dr_mid dr_h2 dr_end.
Proof. apply (si Z.ltb Z.add 0 dr_due [5; 11] 12 Z.le dr_mag dr_lim (fun d => d) (global_size [2; 1] [4; 5]) [2; 3]%nat (fun x => cs_u (fst x)) dr_adv dr_mid 124); [reflexivity|]. apply AdaptiveThms.is_max_check. vm_compute. reflexivity. Qed.
Lemma dr_calls1 : dr_calls dr_start 10 = [ELag 0 PropsCoupled.ex_pose0; EFull 0 PropsCoupled.ex_pose1; EFull 1 PropsCoupled.ex_poseb; EFlow PropsNS.e_step].
Proof. vm_compute. reflexivity. Qed.
Lemma dr_calls2 : dr_calls dr_mid 4 = [EAdvance 0 4; ELag 0 PropsCoupled.ex_pose1].
Proof. vm_compute. reflexivity. Qed.
Lemma dr_ordered : ordered Z.le Z.min Z.max. Proof. split; intros; lia. Qed.
Lemma dr_once s h s' h' s'' : dr_step s h s' -> dr_step s h' s'' -> h = h' /\ s' = s''.
Proof. exact (AdaptiveProofs.serial_once [2; 1] [4; 5] Z.ltb Z.add 0 dr_due [5; 11] 12 Z.le Z.min Z.max dr_mag dr_lim (fun d => d) [2; 3]%nat (fun x => cs_u (fst x)) dr_adv dr_ordered s h s' h' s''). Qed.
Lemma dr_over h s : dr_step dr_end h s -> False.
Proof. intros H. inversion H as [U G]. discriminate G. Qed.
Lemma dr_is_legal : dr_legal dr_start (cs_map PropsCoupled.ex_state).
Proof.
  destruct PropsLoop.C54_nonvacuous as (HL & _). unfold PropsLoop.legal_2d in HL. cbv zeta in HL. destruct HL as (HL & _). change (placed_calls _ _ _ _ _ _ _ _ _ _ _ _ _ _ _ _ _ _ _ _ _ _) with PropsLoop.lx_calls in HL.
  rewrite PropsLoop.lx_calls_eq in HL. apply Forall_cons_iff in HL as [P1 HL]. apply Forall_cons_iff in HL as [P2 HL]. apply Forall_cons_iff in HL as [P3 HL]. apply Forall_cons_iff in HL as [P4 HL]. apply Forall_cons_iff in HL as [P5 HL]. apply Forall_cons_iff in HL as [P6 _].
  assert (A : forall hs s a, placed_run Z.add Z.sub Z.mul 0 (fun x => x) (fold_right Z.add 0) 1 0 [2; 1] [4; 5] [2; 3]%nat [0; 1; 2; 3]%nat [4; 5]%nat PropsCoupled.ex_actor PropsLoop.lx_rules dr_num dr_script PropsLoop.lx_look PropsLoop.lx_ord
    (fun lift => lift = (fun _ s => s)) PropsLoop.lx_flow dr_step dr_start (cs_map PropsCoupled.ex_state) hs s a ->
    (s = dr_start /\ a = cs_map PropsCoupled.ex_state) \/ (s = dr_mid /\ a = places_after (cs_map PropsCoupled.ex_state) (dr_calls dr_start 10)) \/ s = dr_end).
  { intros hs s a R. induction R as [|hs s a h s' lift R IH I E]; [now left|]. subst lift. destruct IH as [[-> ->]|[[-> ->]| ->]].
    - destruct (dr_once _ _ _ _ _ I dr_step1) as [-> ->]. right. left. split; reflexivity.
    - destruct (dr_once _ _ _ _ _ I dr_step2) as [-> ->]. right. right. reflexivity.
    - destruct (dr_over _ _ I). }
  intros hs s a h s' R I. cbv zeta. change (fun frc u s => serial_ns_2d _ _ _ _ _ _ _ _ _ _ _ _ _ _ _ u (with_forcing2 _ frc s)) with PropsLoop.lx_flow in *. destruct (A hs s a R) as [[-> ->]|[[-> ->]| ->]].
  - destruct (dr_once _ _ _ _ _ I dr_step1) as [-> ->]. change (h_dt dr_h1) with 10. rewrite dr_calls1. split; [|split].
    + repeat (constructor; [assumption|]). constructor.
    + cbn; tauto.
    + cbn [moves_ok moves_change_counts p_address]. repeat split; auto. intros H. specialize (H 0 ltac:(cbn; lia)). discriminate H.
  - destruct (dr_once _ _ _ _ _ I dr_step2) as [-> ->]. change (h_dt dr_h2) with 4. rewrite dr_calls2. rewrite dr_calls1. split; [|split].
    + constructor; [exact P5|]. constructor; [exact P6|constructor].
    + cbn; tauto.
    + cbn [moves_ok moves_change_counts p_address]. repeat split; auto.
  - destruct (dr_over _ _ I).
Qed.
Example C60_nonvacuous :
  ns2_setting 2 1 4 5 2 2 0%nat PropsNS.e_xg (fun _ i => i) 0 1 2 3 4 5 6 7 8 PropsNS.e_cx PropsNS.e_cy /\ actors_ok [2; 1] 2 2 PropsCoupled.ex_actor [0; 1; 2; 3; 4; 5; 6; 7; 8]%nat /\
  ordered Z.le Z.min Z.max /\ (forall k l, dr_mag k <= dr_mag l -> dr_lim (dr_mag l) <= dr_lim (dr_mag k)) /\
  dr_legal dr_start (cs_map PropsCoupled.ex_state) /\
  all_at [2; 1] (shows_at 0 [2; 1] [4; 5] 2 [0; 1; 2; 3]%nat [4; 5]%nat 2 PropsCoupled.ex_actor [[2; 9]; [8; 2]]) (eq (cs_map PropsCoupled.ex_state)) dr_ranks dr_start /\
  off_edge 0 [2; 1] [4; 5] (fst (s_state dr_start)) /\
  exists hs s, dr_run dr_start hs s /\ serial_over Z.ltb 12 s /\ map h_due hs = [[true; true]; [true; false]] /\ map h_dt hs = [10; 4] /\ snd (s_state s) 0%nat = (true, [112; -32; 0; -196]).
Proof.
  split; [exact PropsNS.setting_instance|]. split; [exact (proj1 PropsCoupled.C49_nonvacuous)|]. split; [exact dr_ordered|].
  split; [intros k l H; unfold dr_lim; assert (dr_mag k / 20 <= dr_mag l / 20) by (apply Z.div_le_mono; lia); lia|].
  split; [exact dr_is_legal|]. split.
  { split; [reflexivity|]. split; [intros r Hr; split; reflexivity|]. exists (cs_map PropsCoupled.ex_state). split; [reflexivity|]. exists PropsCoupled.ex_state. split; [repeat split|]. split; [reflexivity|].
    split; [exact (proj1 (proj2 PropsLoop.C54_nonvacuous))|]. intros b Hb. reflexivity. }
  split; [intros c P _ _; reflexivity|].
  exists ([] ++ [dr_h1] ++ [dr_h2]), dr_end. split; [change ([] ++ [dr_h1] ++ [dr_h2]) with (([] ++ [dr_h1]) ++ [dr_h2]); eapply sis_snoc; [eapply sis_snoc; [apply sis_nil|exact dr_step1]|exact dr_step2]|].
  split; [reflexivity|]. split; [reflexivity|]. split; [reflexivity|]. vm_compute. reflexivity.
Qed.

(** 3D: the flow and the body of PropsCoupled on 2 x 1 x 2 ranks, one iteration. *)
Definition d3_num (k : nat) (t d : Z) : nat := 4%nat.
Definition d3_script (k : nat) (t d : Z) (h : list Z) : action Z (@ns3_step Z) :=
  match h with [] => OLag 0 | [_] => OFull 0 | [_; _] => OAdvance 0 d | _ => OFlow PropsNS.e3_step end.
Definition d3_start : sconfig Z (cstate Z * (nat -> Z)) := {| s_count := 0; s_time := 0; s_timers := [0; 0]; s_state := (PropsCoupled.e3_state, fun _ => 0) |}.
Definition d3_ranks : config Z Z ((nat -> vb) * (Z -> nat -> Z)) :=
  {| c_count := 0; c_time := fun _ => 0; c_timers := fun _ => [0; 0]; c_mem := fun _ => 0; c_rest := (fun _ => vb_init [0; 3] [0], fun _ _ => 0) |}.
Notation d3_flow := (fun frc u s => serial_ns_3d Z.add 0 (fun _ _ : Z => fun v => v) (fun _ i => i) 2 (fun v => v) (PropsNS.e3_c 3) (PropsNS.e3_c 4) (PropsNS.e3_c 5) (fun a b c => a + b + c) Z.sub (Some (Multiplicative, 1%nat, 2))
  (global_size [2; 1; 2] [4; 5; 4]) 0 1 2 3 4 5 6 7 8 12 13 14 9 10 11 u (with_forcing3 [9; 10; 11]%nat frc s)).
Definition d3_adv : nat -> Z -> Z -> cstate Z * (nat -> Z) -> cstate Z * (nat -> Z) :=
  driven 3 (global_size [2; 1; 2] [4; 5; 4]) [0; 1; 2; 3; 4; 5; 6; 7; 8]%nat (fun b => a_body (PropsCoupled.e3_actor b)) PropsLoop.l3_rules PropsLoop.lx_look d3_num d3_script Z.add Z.sub Z.mul 0 (fun x => x) (fold_right Z.add 0) 1 0 [6; 7; 8]%nat d3_flow.
Notation d3_step := (serial_iteration Z.ltb Z.add 0 dr_due [5; 11] 8 Z.le dr_mag dr_lim (fun d => d) (global_size [2; 1; 2] [4; 5; 4]) [6; 7; 8]%nat (fun x => cs_u (fst x)) d3_adv).
Notation d3_run := (serial_iterations Z.ltb Z.add 0 dr_due [5; 11] 8 Z.le dr_mag dr_lim (fun d => d) (global_size [2; 1; 2] [4; 5; 4]) [6; 7; 8]%nat (fun x => cs_u (fst x)) d3_adv).
Notation d3_legal := (drives_legally_3d Z.ltb Z.add 0 dr_due [5; 11] 8 Z.le dr_mag dr_lim (fun d => d) Z.add Z.sub Z.mul 0 (fun x => x) (fold_right Z.add 0) 1 0 (fun _ _ : Z => fun v => v) (fun _ i => i) 2 (fun v => v)
  (PropsNS.e3_c 3) (PropsNS.e3_c 4) (PropsNS.e3_c 5) (fun a b c => a + b + c) Z.sub (Some (Multiplicative, 1%nat, 2)) 0 1 2 3 4 5 6 7 8 9 10 11 12 13 14 1 PropsLoop.l3_rules d3_num d3_script PropsLoop.lx_look 2 1 2 4 5 4
  PropsCoupled.e3_actor (fun _ _ => [0])).
Definition d3_end : sconfig Z (cstate Z * (nat -> Z)) := {| s_count := 1; s_time := 10; s_timers := [10; 10]; s_state := d3_adv 0 0 10 (s_state d3_start) |}.
Definition d3_h : happening Z (cstate Z * (nat -> Z)) := {| h_due := [true; true]; h_state := s_state d3_start; h_dt := 10 |}.
Lemma d3_step1 : d3_step d3_start d3_h d3_end.
Proof. apply (si Z.ltb Z.add 0 dr_due [5; 11] 8 Z.le dr_mag dr_lim (fun d => d) (global_size [2; 1; 2] [4; 5; 4]) [6; 7; 8]%nat (fun x => cs_u (fst x)) d3_adv d3_start 0); [reflexivity|]. apply AdaptiveThms.is_max_check. vm_compute. reflexivity. Qed.
Lemma d3_once s h s' h' s'' : d3_step s h s' -> d3_step s h' s'' -> h = h' /\ s' = s''.
Proof. exact (AdaptiveProofs.serial_once [2; 1; 2] [4; 5; 4] Z.ltb Z.add 0 dr_due [5; 11] 8 Z.le Z.min Z.max dr_mag dr_lim (fun d => d) [6; 7; 8]%nat (fun x => cs_u (fst x)) d3_adv dr_ordered s h s' h' s''). Qed.
Lemma d3_over h s : d3_step d3_end h s -> False.
Proof. intros H. inversion H as [U G]. discriminate G. Qed.
Lemma d3_is_legal : d3_legal d3_start (cs_map PropsCoupled.e3_state).
Proof.
  destruct PropsCoupled.C49_nonvacuous_3d as (_ & _ & H & _). unfold PropsCoupled.e3_events in H. apply Forall_cons_iff in H as [P1 H]. apply Forall_cons_iff in H as [P2 H]. apply Forall_cons_iff in H as [P3 H]. apply Forall_cons_iff in H as [P4 _].
  intros hs s a h s' R.
  assert (A : (s = d3_start /\ a = cs_map PropsCoupled.e3_state) \/ s = d3_end).
  { induction R as [|hs s a h0 s0 lift R IH I0 E]; [now left|]. right. destruct IH as [[-> _]| ->]; [|destruct (d3_over _ _ I0)]. now destruct (d3_once _ _ _ _ _ I0 d3_step1) as [_ ->]. }
  intros I race. cbv zeta. destruct A as [[-> ->]| ->]; [|destruct (d3_over _ _ I)].
  destruct (d3_once _ _ _ _ _ I d3_step1) as [-> ->]. change (h_dt d3_h) with 10.
  match goal with |- Forall _ ?l /\ _ => assert (E : l = [ELag 0 PropsCoupled.e3_pose; EFull 0 PropsCoupled.e3_pose; EAdvance 0 10; EFlow (PropsNS.e3_step, race [0; 0; 0])]) by (vm_compute; reflexivity) end.
  rewrite E. clear E. split; [|split].
  - constructor; [exact P4|]. constructor; [exact P1|]. constructor; [exact P2|]. constructor; [exact P3|constructor].
  - cbn; tauto.
  - cbn [moves_ok moves_change_counts PropsCoupled.e3_pose p_address]. repeat split; auto.
Qed.
Example C60_nonvacuous_3d :
  d3_legal d3_start (cs_map PropsCoupled.e3_state) /\
  all_at [2; 1; 2] (shows_at 0 [2; 1; 2] [4; 5; 4] 2 [0; 1; 2; 3; 4; 5; 6; 7; 8]%nat [9; 10; 11]%nat 1 PropsCoupled.e3_actor [[2; 9; 8]; [8; 2; 8]; [8; 9; 2]]) (eq (cs_map PropsCoupled.e3_state)) d3_ranks d3_start /\
  off_edge 0 [2; 1; 2] [4; 5; 4] (fst (s_state d3_start)) /\
  exists hs s, d3_run d3_start hs s /\ serial_over Z.ltb 8 s /\ map h_dt hs = [10].
Proof.
  destruct PropsCoupled.C49_nonvacuous_3d as (_ & _ & _ & _ & _ & HT & Ho).
  split; [exact d3_is_legal|]. split.
  { split; [reflexivity|]. split; [intros r Hr; split; reflexivity|]. exists (cs_map PropsCoupled.e3_state). split; [reflexivity|]. exists PropsCoupled.e3_state. split; [repeat split|]. split; [reflexivity|].
    split; [exact HT|]. intros b Hb. reflexivity. }
  split; [exact Ho|]. exists ([] ++ [d3_h]), d3_end. split; [eapply sis_snoc; [apply sis_nil|exact d3_step1]|]. split; reflexivity.
Qed.

Print Assumptions C60_lockstep_2d.
Print Assumptions C60_ends_as_serial_2d.
Print Assumptions C60_decomposition_independent_2d.
Print Assumptions C60_lockstep_3d.
Print Assumptions C60_ends_as_serial_3d.
Print Assumptions C60_decomposition_independent_3d.
