(** Property C54: simulations coupled both ways (the bodies move under the flow's forces; the next call depends on the past). *)
From Coq Require Import QArith.
From Verif Require Import Base SpecGrid SpecGhostSum SpecStencil SpecStep SpecPenalise SpecFilter SpecDouble SpecLag SpecIB SpecVbf SpecNS SpecBodies SpecCoupled SpecLoop
  Comm Blocking Spmd Stencil Lagrangian Vbf NavierStokes Coupled SpecTracks Loop.
From Verif Require PropsNS PropsCoupled KernelProofs CoupledProofs CoupledThms LoopProofs.
Open Scope Z_scope.

Section Two.
Context {T C B L W : Type}.
Variables (add sub mul : T -> T -> T) (z : T) (times0 scale : T -> T) (sum : list T -> T) (dx shift : Q).
Variables (damp : C -> C -> T -> T) (coord : nat -> Z -> C) (width : Z) (conv : (list Z -> T) -> list Z -> T) (Kcx Kcy : @kfun T).
Variables (w psi vx vy fx fy buf D S : nat) (nb : nat).
Hypothesis add_monoid : comm_monoid add z.
Hypothesis zeroing : forall x, times0 x = z.
Hypothesis spacing : (0 < dx)%Q.
(* the bodies' rules, the script, what it sees, the loads before any were computed *)
Variables (rules : nat -> body_rules T B L) (script : list W -> action T (@ns2_step T)) (look : list (list T) -> W) (none : L).
Notation setting py px ny nx g dd xg := (ns2_setting py px ny nx g width dd xg coord w psi vx vy fx fy buf D S Kcx Kcy).
Notation all_ok py px g actors := (actors_ok [py; px] g nb actors [w; psi; vx; vy; fx; fy; buf; D; S]).
Notation shows py px ny nx g actors := (tracks z [py; px] [ny; nx] g [w; psi; vx; vy] [fx; fy] nb actors [[g; nx + 2 * g]; [ny + 2 * g; g]]).
Notation flow_step N := (fun frc u s => serial_ns_2d add z damp coord width conv Kcx Kcy N w psi vx vy fx fy u (with_forcing2 [fx; fy] frc s)).
(* k steps of the script, serially *)
Notation serially N actors := (serial_loop 2 N [w; psi; vx; vy] (fun b => a_body (actors b)) rules script look add sub mul z scale sum dx shift [vx; vy] (flow_step N)).
(* k steps of the script on the ranks *)
Notation on_ranks py px ny nx g full dd xg actors ord := (loop_ends add sub mul z scale sum dx shift [py; px] [ny; nx] g [vx; vy] [w; psi; vx; vy] [fx; fy] actors
  (exch_2d py px ny nx g full [vx; vy]) (spread_2 add mul times0 dx shift py px ny nx g [fx; fy])
  (time_step_2d add z damp conv py px ny nx g full dd width xg w psi vx vy fx fy buf D S Kcx Kcy) rules script look none ord (fun _ s => s)).
(* the calls of these steps, with the mapping of the nodes to the ranks, are legal *)
Definition legal_2d py px ny nx actors ord k (x : lstate T B W) : Prop :=
  let es := placed_calls add sub mul z scale sum dx shift [py; px] [ny; nx] [vx; vy] [w; psi; vx; vy] [fx; fy] actors rules script look ord (fun _ s => s)
              (flow_step (global_size [py; px] [ny; nx])) k x in
  Forall (event_ok [py; px] [ny; nx] nb actors dx shift (flow2_ok z w vx vy fx fy)) es /\ ghosts_ok actors false es /\ moves_ok (zprod [py; px]) (cs_map (l_sim x)) es.
(* the ranks' state shows a state of the serial loop: flow, forcing, interactors, the masters' copies of the bodies, what the script has seen *)
Definition shows_loop_2d py px ny nx g actors (q : @pstate T B W) (x : lstate T B W) : Prop :=
  (exists s, same_state (l_sim x) s /\ shows py px ny nx g actors (q_maps q) (q_mem q) s) /\ (forall b, (b < nb)%nat -> q_body q (a_master (actors b)) b = l_body x b) /\ q_seen q = l_seen x.

(** C54 (2D).  Any script, any bodies, any number k of steps: the run ends, in one state whatever the schedules, and shows the
    serial loop after k steps. *)
Theorem C54_two_way_2d py px ny nx g full dd xg actors ord k (x : lstate T B W) (q : @pstate T B W) :
  setting py px ny nx g dd xg -> all_ok py px g actors -> legal_2d py px ny nx actors ord k x ->
  shows py px ny nx g actors (q_maps q) (q_mem q) (l_sim x) -> off_edge z [py; px] [ny; nx] (l_sim x) ->
  (forall b, (b < nb)%nat -> q_body q (a_master (actors b)) b = l_body x b) -> q_seen q = l_seen x ->
  exists q', on_ranks py px ny nx g full dd xg actors ord k q q' /\ (forall q'', on_ranks py px ny nx g full dd xg actors ord k q q'' -> q'' = q') /\
    shows_loop_2d py px ny nx g actors q' (serially (global_size [py; px] [ny; nx]) actors k x).
Proof.
  intros HS HA Hl Ht Ho Hb Hn. pose proof HS as [G Hg _ _ _ _ _ _ _].
  destruct (LoopProofs.loop_tracks add sub mul z scale sum dx shift [py; px] [ny; nx] g [vx; vy] [w; psi; vx; vy] [fx; fy] nb actors [[g; nx + 2 * g]; [ny + 2 * g; g]]
    (exch_2d py px ny nx g full [vx; vy]) (spread_2 add mul times0 dx shift py px ny nx g [fx; fy])
    (time_step_2d add z damp conv py px ny nx g full dd width xg w psi vx vy fx fy buf D S Kcx Kcy) rules script look none ord (fun _ s => s)
    (flow_step (global_size [py; px] [ny; nx])) (flow_step (global_size [py; px] [ny; nx])) (flow2_ok z w vx vy fx fy) (fun _ _ _ _ => eq_refl)
    (KernelProofs.g2_ok _ _ _ _ _ G) ltac:(lia) (q_maps q) (q_mem q) (l_sim x)) with (k := k) (x := x) (q := q) as (y & R & E1 & E2 & E3); auto.
  - intros es (He & Hgh & Hm). destruct (PropsCoupled.C49_coupled_2d add sub mul z times0 scale sum dx shift damp coord width conv Kcx Kcy w psi vx vy fx fy buf D S nb add_monoid zeroing spacing
      py px ny nx g full dd xg actors es (q_maps q) (q_mem q) (l_sim x) HS HA He Hgh Hm Ht Ho) as (m' & R & _ & X). exists m'. split; [exact R|exact X].
  - exists y. split; [exact R|]. split; [intros y' R'; symmetry; eapply LoopProofs.loop_det; eauto|]. split; [exact E3|]. split; [exact E2|exact E1].
Qed.
(** C54 (2D).  The same script on two decompositions of one domain, with other masters, options and full_exchange flags: it sees the
    same, the masters' copies of the bodies are the same, and so are flow, forcing and the forces on the bodies. *)
Theorem C54_decomposition_independent_2d py px ny nx full dd xg actors ord py' px' ny' nx' full' dd' xg' actors' ord' g k (x x' : lstate T B W) (q q' e e' : @pstate T B W) :
  setting py px ny nx g dd xg -> setting py' px' ny' nx' g dd' xg' -> global_size [py; px] [ny; nx] = global_size [py'; px'] [ny'; nx'] ->
  all_ok py px g actors -> all_ok py' px' g actors' -> (forall b, a_body (actors b) = a_body (actors' b)) ->
  legal_2d py px ny nx actors ord k x -> legal_2d py' px' ny' nx' actors' ord' k x' ->
  shows py px ny nx g actors (q_maps q) (q_mem q) (l_sim x) -> shows py' px' ny' nx' g actors' (q_maps q') (q_mem q') (l_sim x') -> off_edge z [py; px] [ny; nx] (l_sim x) ->
  same_state (l_sim x) (l_sim x') -> l_body x = l_body x' -> l_seen x = l_seen x' ->
  (forall b, (b < nb)%nat -> q_body q (a_master (actors b)) b = l_body x b) -> (forall b, (b < nb)%nat -> q_body q' (a_master (actors' b)) b = l_body x' b) -> q_seen q = l_seen x -> q_seen q' = l_seen x' ->
  on_ranks py px ny nx g full dd xg actors ord k q e -> on_ranks py' px' ny' nx' g full' dd' xg' actors' ord' k q' e' ->
  q_seen e = q_seen e' /\ (forall b, (b < nb)%nat -> q_body e (a_master (actors b)) b = q_body e' (a_master (actors' b)) b) /\
  agree [py; px] [ny; nx] [py'; px'] [ny'; nx'] g [w; psi; vx; vy; fx; fy] (q_mem e) (q_mem e') /\
  forall b c j, (b < nb)%nat -> 0 <= c < 2 -> 0 <= j < v_count (a_body (actors b)) ->
    q_mem e (a_master (actors b), (gfo (a_arrays (actors b)), c * v_count (a_body (actors b)) + j)) =
    q_mem e' (a_master (actors' b), (gfo (a_arrays (actors' b)), c * v_count (a_body (actors b)) + j)).
Proof.
  intros HS HS' EN HA HA' Hb Hl Hl' Ht Ht' Ho Hst Hbo Hse Hq Hq' Hn Hn' R R'.
  assert (Ho' : off_edge z [py'; px'] [ny'; nx'] (l_sim x')) by (unfold off_edge in *; rewrite <- EN; destruct Hst as (_ & <- & _); exact Ho).
  destruct (C54_two_way_2d py px ny nx g full dd xg actors ord k x q HS HA Hl Ht Ho Hq Hn) as (e1 & _ & U & (s1 & S1 & T1) & B1 & N1).
  destruct (C54_two_way_2d py' px' ny' nx' g full' dd' xg' actors' ord' k x' q' HS' HA' Hl' Ht' Ho' Hq' Hn') as (e2 & _ & U' & (s2 & S2 & T2) & B2 & N2).
  rewrite (U e R), (U' e' R'). rewrite <- EN in *.
  destruct (LoopProofs.loop_same add sub mul z scale sum dx shift 2 (global_size [py; px] [ny; nx]) [vx; vy] [w; psi; vx; vy] (fun b => a_body (actors b)) (fun b => a_body (actors' b)) rules script look
    (flow_step (global_size [py; px] [ny; nx])) Hb k x x' (conj Hst (conj Hbo Hse))) as (E1 & E2 & E3).
  split; [congruence|]. split; [intros b Hbn; rewrite (B1 b Hbn), (B2 b Hbn); now rewrite E2|].
  pose proof HS as [G Hg2 _ _ _ _ _ _ _]. pose proof HS' as [G' _ _ _ _ _ _ _ _].
  eapply (CoupledThms.tracks_agree z _ _ _ _ g [w; psi; vx; vy] [fx; fy]); try exact T1; try exact T2; auto; try lia; [eapply KernelProofs.g2_ok; eauto|eapply KernelProofs.g2_ok; eauto|].
  unfold same_state in *. intuition congruence.
Qed.
End Two.

Section Three.
Context {T C B L W : Type}.
Variables (add sub mul : T -> T -> T) (z : T) (times0 scale : T -> T) (sum : list T -> T) (dx shift : Q).
Variables (damp : C -> C -> T -> T) (coord : nat -> Z -> C) (width : Z) (conv : (list Z -> T) -> list Z -> T) (Kcx Kcy Kcz : @kfun T)
          (lap : T -> T -> T -> T) (fsub : T -> T -> T) (filt : option (filter_type * nat * Z)).
Variables (w0 w1 w2 p0 p1 p2 vx vy vz fx fy fz b0 b1 b2 buf D S : nat) (nb : nat).
Hypothesis add_monoid : comm_monoid add z.
Hypothesis zeroing : forall x, times0 x = z.
Hypothesis spacing : (0 < dx)%Q.
Variables (rules : nat -> body_rules T B L) (script : list W -> action T (@ns3_step T)) (look : list (list T) -> W) (none : L).
Notation ws := [w0; w1; w2].
Notation vs := [vx; vy; vz].
Notation fs := [fx; fy; fz].
Notation bs := [b0; b1; b2].
Notation Fs0 := [w0; w1; w2; p0; p1; p2; vx; vy; vz].
Notation setting pz py px n0 n1 n2 g xg := (ns3_setting pz py px n0 n1 n2 g width filt xg coord w0 w1 w2 p0 p1 p2 vx vy vz fx fy fz b0 b1 b2 buf D S Kcx Kcy Kcz).
Notation all_ok pz py px g actors := (actors_ok [pz; py; px] g nb actors [w0; w1; w2; p0; p1; p2; vx; vy; vz; fx; fy; fz; b0; b1; b2; buf; D; S]).
Notation bufsz n0 n1 n2 g := [[g; n1 + 2 * g; n2 + 2 * g]; [n0 + 2 * g; g; n2 + 2 * g]; [n0 + 2 * g; n1 + 2 * g; g]].
Notation shows pz py px n0 n1 n2 g actors := (tracks z [pz; py; px] [n0; n1; n2] g Fs0 fs nb actors (bufsz n0 n1 n2 g)).
Notation flow_step N := (fun frc u s => serial_ns_3d add z damp coord width conv Kcx Kcy Kcz lap fsub filt N w0 w1 w2 p0 p1 p2 vx vy vz b0 b1 b2 fx fy fz u (with_forcing3 fs frc s)).
Notation time_step pz py px n0 n1 n2 g full xg := (fun sr : @ns3_step T * (Z -> nat -> list Z -> T) => time_step_3d add z damp conv lap fsub filt pz py px n0 n1 n2 g full width xg w0 w1 w2 p0 p1 p2 vx vy vz fx fy fz b0 b1 b2 buf D S Kcx Kcy Kcz (snd sr) (fst sr)).
Notation serially N actors := (serial_loop 3 N Fs0 (fun b => a_body (actors b)) rules script look add sub mul z scale sum dx shift vs (flow_step N)).
(* [race h]: arbitrary values for the cells that the curl kernel updates while a ghost it reads is being received, in the step taken after [h] has been seen *)
Notation on_ranks pz py px n0 n1 n2 g full xg actors ord race := (loop_ends add sub mul z scale sum dx shift [pz; py; px] [n0; n1; n2] g vs Fs0 fs actors
  (exch_3d pz py px n0 n1 n2 g full vs) (spread_3 add mul times0 dx shift pz py px n0 n1 n2 g fs) (time_step pz py px n0 n1 n2 g full xg) rules script look none ord (fun h s => (s, race h))).
Definition legal_3d pz py px n0 n1 n2 actors ord race k (x : lstate T B W) : Prop :=
  let es := placed_calls add sub mul z scale sum dx shift [pz; py; px] [n0; n1; n2] vs Fs0 fs actors rules script look ord (fun h s => (s, race h))
              (flow_step (global_size [pz; py; px] [n0; n1; n2])) k x in
  Forall (event_ok [pz; py; px] [n0; n1; n2] nb actors dx shift (fun s : @ns3_step T * (Z -> nat -> list Z -> T) => flow3_ok z ws vs bs fs (fst s))) es /\ ghosts_ok actors false es /\
  moves_ok (zprod [pz; py; px]) (cs_map (l_sim x)) es.
Definition shows_loop_3d pz py px n0 n1 n2 g actors (q : @pstate T B W) (x : lstate T B W) : Prop :=
  (exists s, same_state (l_sim x) s /\ shows pz py px n0 n1 n2 g actors (q_maps q) (q_mem q) s) /\ (forall b, (b < nb)%nat -> q_body q (a_master (actors b)) b = l_body x b) /\ q_seen q = l_seen x.

(** C54 (3D).  As in 2D, if the ghost exchange serves corners where two axes are split (the code's simulators with forcing: full = true). *)
Theorem C54_two_way_3d pz py px n0 n1 n2 g full xg actors ord race k (x : lstate T B W) (q : @pstate T B W) :
  setting pz py px n0 n1 n2 g xg -> all_ok pz py px g actors -> full = true \/ at_most_one_split [pz; py; px] -> legal_3d pz py px n0 n1 n2 actors ord race k x ->
  shows pz py px n0 n1 n2 g actors (q_maps q) (q_mem q) (l_sim x) -> off_edge z [pz; py; px] [n0; n1; n2] (l_sim x) ->
  (forall b, (b < nb)%nat -> q_body q (a_master (actors b)) b = l_body x b) -> q_seen q = l_seen x ->
  exists q', on_ranks pz py px n0 n1 n2 g full xg actors ord race k q q' /\ (forall q'', on_ranks pz py px n0 n1 n2 g full xg actors ord race k q q'' -> q'' = q') /\
    shows_loop_3d pz py px n0 n1 n2 g actors q' (serially (global_size [pz; py; px] [n0; n1; n2]) actors k x).
Proof.
  intros HS HA Hc Hl Ht Ho Hb Hn. pose proof HS as [G Hg _ _ _ _ _ _].
  destruct (LoopProofs.loop_tracks add sub mul z scale sum dx shift [pz; py; px] [n0; n1; n2] g vs Fs0 fs nb actors (bufsz n0 n1 n2 g)
    (exch_3d pz py px n0 n1 n2 g full vs) (spread_3 add mul times0 dx shift pz py px n0 n1 n2 g fs) (time_step pz py px n0 n1 n2 g full xg) rules script look none ord (fun h s => (s, race h))
    (flow_step (global_size [pz; py; px] [n0; n1; n2])) (fun frc u s => flow_step (global_size [pz; py; px] [n0; n1; n2]) frc u (fst s))
    (fun s => flow3_ok z ws vs bs fs (fst s)) (fun _ _ _ _ => eq_refl)
    (KernelProofs.g3_ok _ _ _ _ _ _ _ G) ltac:(unfold KernelList.grid3 in G; lia) (q_maps q) (q_mem q) (l_sim x)) with (k := k) (x := x) (q := q) as (y & R & E1 & E2 & E3); auto.
  - intros es (He & Hgh & Hm). destruct (PropsCoupled.C49_coupled_3d add sub mul z times0 scale sum dx shift damp coord width conv Kcx Kcy Kcz lap fsub filt w0 w1 w2 p0 p1 p2 vx vy vz fx fy fz b0 b1 b2 buf D S nb add_monoid zeroing spacing
      pz py px n0 n1 n2 g full xg actors es (q_maps q) (q_mem q) (l_sim x) HS HA Hc He Hgh Hm Ht Ho) as (m' & R & _ & X). exists m'. split; [exact R|exact X].
  - exists y. split; [exact R|]. split; [intros y' R'; symmetry; eapply LoopProofs.loop_det; eauto|]. split; [exact E3|]. split; [exact E2|exact E1].
Qed.
Theorem C54_decomposition_independent_3d pz py px n0 n1 n2 full xg actors ord race pz' py' px' n0' n1' n2' full' xg' actors' ord' race' g k (x x' : lstate T B W) (q q' e e' : @pstate T B W) :
  setting pz py px n0 n1 n2 g xg -> setting pz' py' px' n0' n1' n2' g xg' -> global_size [pz; py; px] [n0; n1; n2] = global_size [pz'; py'; px'] [n0'; n1'; n2'] ->
  full = true \/ at_most_one_split [pz; py; px] -> full' = true \/ at_most_one_split [pz'; py'; px'] ->
  all_ok pz py px g actors -> all_ok pz' py' px' g actors' -> (forall b, a_body (actors b) = a_body (actors' b)) ->
  legal_3d pz py px n0 n1 n2 actors ord race k x -> legal_3d pz' py' px' n0' n1' n2' actors' ord' race' k x' ->
  shows pz py px n0 n1 n2 g actors (q_maps q) (q_mem q) (l_sim x) -> shows pz' py' px' n0' n1' n2' g actors' (q_maps q') (q_mem q') (l_sim x') -> off_edge z [pz; py; px] [n0; n1; n2] (l_sim x) ->
  same_state (l_sim x) (l_sim x') -> l_body x = l_body x' -> l_seen x = l_seen x' ->
  (forall b, (b < nb)%nat -> q_body q (a_master (actors b)) b = l_body x b) -> (forall b, (b < nb)%nat -> q_body q' (a_master (actors' b)) b = l_body x' b) -> q_seen q = l_seen x -> q_seen q' = l_seen x' ->
  on_ranks pz py px n0 n1 n2 g full xg actors ord race k q e -> on_ranks pz' py' px' n0' n1' n2' g full' xg' actors' ord' race' k q' e' ->
  q_seen e = q_seen e' /\ (forall b, (b < nb)%nat -> q_body e (a_master (actors b)) b = q_body e' (a_master (actors' b)) b) /\
  agree [pz; py; px] [n0; n1; n2] [pz'; py'; px'] [n0'; n1'; n2'] g (Fs0 ++ fs) (q_mem e) (q_mem e') /\
  forall b c j, (b < nb)%nat -> 0 <= c < 3 -> 0 <= j < v_count (a_body (actors b)) ->
    q_mem e (a_master (actors b), (gfo (a_arrays (actors b)), c * v_count (a_body (actors b)) + j)) =
    q_mem e' (a_master (actors' b), (gfo (a_arrays (actors' b)), c * v_count (a_body (actors b)) + j)).
Proof.
  intros HS HS' EN Hc Hc' HA HA' Hb Hl Hl' Ht Ht' Ho Hst Hbo Hse Hq Hq' Hn Hn' R R'.
  assert (Ho' : off_edge z [pz'; py'; px'] [n0'; n1'; n2'] (l_sim x')) by (unfold off_edge in *; rewrite <- EN; destruct Hst as (_ & <- & _); exact Ho).
  destruct (C54_two_way_3d pz py px n0 n1 n2 g full xg actors ord race k x q HS HA Hc Hl Ht Ho Hq Hn) as (e1 & _ & U & (s1 & S1 & T1) & B1 & N1).
  destruct (C54_two_way_3d pz' py' px' n0' n1' n2' g full' xg' actors' ord' race' k x' q' HS' HA' Hc' Hl' Ht' Ho' Hq' Hn') as (e2 & _ & U' & (s2 & S2 & T2) & B2 & N2).
  rewrite (U e R), (U' e' R'). rewrite <- EN in *.
  destruct (LoopProofs.loop_same add sub mul z scale sum dx shift 3 (global_size [pz; py; px] [n0; n1; n2]) vs Fs0 (fun b => a_body (actors b)) (fun b => a_body (actors' b)) rules script look
    (flow_step (global_size [pz; py; px] [n0; n1; n2])) Hb k x x' (conj Hst (conj Hbo Hse))) as (E1 & E2 & E3).
  split; [congruence|]. split; [intros b Hbn; rewrite (B1 b Hbn), (B2 b Hbn); now rewrite E2|].
  pose proof HS as [G Hg2 _ _ _ _ _ _]. pose proof HS' as [G' _ _ _ _ _ _ _].
  eapply (CoupledThms.tracks_agree z _ _ _ _ g Fs0 fs); try exact T1; try exact T2; auto; try (unfold KernelList.grid3 in G; lia); [eapply KernelProofs.g3_ok; eauto|eapply KernelProofs.g3_ok; eauto|].
  unfold same_state in *. intuition congruence.
Qed.
End Three.

(** C54.  On a rank that is not the body's master, its copy never gets loads: it moves as without flow, through the calls of the script. *)
Theorem C54_copies_off_master {T F F' B L W : Type} add sub mul (z : T) scale sum dx shift dims loc g vels Fs fs actors exch spread flow (rules : nat -> body_rules T B L)
    (script : list W -> action T F) look none ord (lift : list W -> F -> F') k (q q' : @pstate T B W) r b :
  loop_ends add sub mul z scale sum dx shift dims loc g vels Fs fs actors exch spread flow rules script look none ord lift k q q' -> r <> a_master (actors b) ->
  q_body q' r b = fold_left (unloaded rules none b) (map (fun i => script (firstn (length (q_seen q) + i) (q_seen q'))) (seq 0 k)) (q_body q r b).
Proof. intros R Hr. eapply LoopProofs.copies_alone; eauto. Qed.

(** *** A case: the flow and the two bodies of PropsCoupled on 2 x 1 ranks.  Body 0 moves its node 0 to rank 1's block once it feels
    a negative force; the script's fifth call depends on the vorticity it sees. *)
Definition lx_rules (b : nat) : body_rules Z (bool * list Z) (list Z) :=
  {| b_nodes := fun x : bool * list Z => match b with O => if fst x then p_nodes PropsCoupled.ex_pose1 else p_nodes PropsCoupled.ex_pose0 | _ => p_nodes PropsCoupled.ex_poseb end;
     b_pos := fun _ c j => match b with O => c + j | _ => c end; b_vel := fun _ c j => match b with O => c + 10 * j + 1 | _ => 7 end;
     b_loads := fun _ l => l; b_kick := fun _ l => (existsb (fun f => f <? 0) l, l); b_drift := fun (x : bool * list Z) dt => (fst x, map (fun f => f + dt) (snd x)) |}.
Definition lx_look (ls : list (list Z)) : Z := fold_right (fun v a => Z.max (Z.abs v) a) 0 (hd [] ls).
Definition lx_script (h : list Z) : action Z (@ns2_step Z) :=
  match h with
  | [] => OLag 0 | [_] => OFull 0 | [_; _] => OFull 1 | [_; _; _] => OFlow PropsNS.e_step
  | [_; _; _; v] => if v =? 0 then OGhost else OAdvance 0 2
  | [_; _; _; _; _] => OMove 0 1 | _ => OLag 0
  end.
Definition lx_ord (b : nat) (a : list Z) : list Z := match b with O => [1] | _ => [0] end.
Definition lx_start : lstate Z (bool * list Z) Z := {| l_sim := PropsCoupled.ex_state; l_body := fun _ => (false, []); l_seen := [] |}.
Definition lx_ranks : @pstate Z (bool * list Z) Z := {| q_mem := fun _ => 0; q_maps := PropsCoupled.ex_maps; q_body := fun _ _ => (false, []); q_seen := [] |}.
Definition lx_flow (frc : Z -> list Z -> Z) (u : nat -> list Z -> Z) (s : @ns2_step Z) : nat -> list Z -> Z :=
  serial_ns_2d Z.add 0 (fun _ _ : Z => fun v => v) (fun _ i => i) 2 (fun v => v) PropsNS.e_cx PropsNS.e_cy (global_size [2; 1] [4; 5]) 0 1 2 3 4 5 u (with_forcing2 [4; 5]%nat frc s).
Definition lx_serial : nat -> lstate Z (bool * list Z) Z -> lstate Z (bool * list Z) Z :=
  serial_loop 2 (global_size [2; 1] [4; 5]) [0; 1; 2; 3]%nat (fun b => a_body (PropsCoupled.ex_actor b)) lx_rules lx_script lx_look Z.add Z.sub Z.mul 0 (fun x => x) (fold_right Z.add 0) 1 0 [2; 3]%nat lx_flow.
Definition lx_calls : list (event Z (@ns2_step Z)) :=
  placed_calls Z.add Z.sub Z.mul 0 (fun x => x) (fold_right Z.add 0) 1 0 [2; 1] [4; 5] [2; 3]%nat [0; 1; 2; 3]%nat [4; 5]%nat PropsCoupled.ex_actor lx_rules lx_script lx_look lx_ord (fun _ s => s) lx_flow 7 lx_start.
Lemma lx_calls_eq : lx_calls = [ELag 0 PropsCoupled.ex_pose0; EFull 0 PropsCoupled.ex_pose1; EFull 1 PropsCoupled.ex_poseb; EFlow PropsNS.e_step; EAdvance 0 2; ELag 0 PropsCoupled.ex_pose1].
Proof. vm_compute. reflexivity. Qed.
Ltac qle := unfold Qle, Qlt; cbn; lia.
Example C54_nonvacuous :
  legal_2d Z.add Z.sub Z.mul 0 (fun x => x) (fold_right Z.add 0) 1 0 (fun _ _ : Z => fun v => v) (fun _ i => i) 2 (fun v => v) PropsNS.e_cx PropsNS.e_cy 0 1 2 3 4 5 2 lx_rules lx_script lx_look
    2 1 4 5 PropsCoupled.ex_actor lx_ord 7 lx_start /\
  tracks 0 [2; 1] [4; 5] 2 [0; 1; 2; 3]%nat [4; 5]%nat 2 PropsCoupled.ex_actor [[2; 9]; [8; 2]] (q_maps lx_ranks) (q_mem lx_ranks) (l_sim lx_start) /\
  l_seen (lx_serial 7 lx_start) = [0; 0; 0; 42; 42; 42; 42] /\ l_body (lx_serial 7 lx_start) 0%nat = (true, [118; 34; 12; -124]).
Proof.
  split; [|split; [exact (proj1 (proj2 (proj2 (proj2 (proj2 PropsCoupled.C49_nonvacuous)))))|split; vm_compute; reflexivity]].
  unfold legal_2d. cbv zeta. change (placed_calls _ _ _ _ _ _ _ _ _ _ _ _ _ _ _ _ _ _ _ _ _ _) with lx_calls. rewrite lx_calls_eq. split; [|split].
  - assert (F : flow2_ok 0 0 2 3 4 5 PropsNS.e_step).
    { destruct PropsNS.step_instance as (X & X' & _). split; [exact X'|]. destruct X as (_ & _ & _ & X). cbn [n2_frc PropsNS.e_step] in *. tauto. }
    assert (P0 : pose_ok [2; 1] [4; 5] 1 0 0 (a_body (PropsCoupled.ex_actor 0)) PropsCoupled.ex_pose0).
    { split; [repeat constructor; qle|reflexivity| |vm_compute; reflexivity|].
      - repeat constructor; vm_compute; intuition discriminate.
      - split; [repeat constructor; cbn; lia|split; [split; [repeat constructor; cbn; tauto|intros s; cbn; lia]|reflexivity]]. }
    assert (P1 : pose_ok [2; 1] [4; 5] 1 0 0 (a_body (PropsCoupled.ex_actor 0)) PropsCoupled.ex_pose1).
    { split; [repeat constructor; qle|reflexivity| |vm_compute; reflexivity|].
      - repeat constructor; vm_compute; intuition discriminate.
      - split; [repeat constructor; cbn; lia|split; [split; [repeat constructor; cbn; tauto|intros s; cbn; lia]|reflexivity]]. }
    assert (P2 : pose_ok [2; 1] [4; 5] 1 0 1 (a_body (PropsCoupled.ex_actor 1)) PropsCoupled.ex_poseb).
    { split; [repeat constructor; qle|reflexivity| |vm_compute; reflexivity|].
      - repeat constructor; vm_compute; intuition discriminate.
      - split; [repeat constructor; cbn; lia|split; [split; [repeat constructor; cbn; tauto|intros s; cbn; lia]|reflexivity]]. }
    repeat (constructor; [cbn [event_ok]; auto; try (split; [lia|split; [assumption|intros H; discriminate H]]); lia|]). constructor.
  - cbn; tauto.
  - cbn [moves_ok moves_change_counts p_address]. repeat split; auto. intros H. specialize (H 0 ltac:(cbn; lia)). discriminate H.
Qed.

(** 3D: the flow and the body of PropsCoupled on 2 x 1 x 2 ranks. *)
Definition l3_rules (b : nat) : body_rules Z Z (list Z) :=
  {| b_nodes := fun _ => p_nodes PropsCoupled.e3_pose; b_pos := fun _ c j => c + j; b_vel := fun _ c j => c + 10 * j + 1; b_loads := fun _ l => l; b_kick := fun x l => x + fold_right Z.add 0 l; b_drift := Z.add |}.
Definition l3_script (h : list Z) : action Z (@ns3_step Z) := match h with [] => OLag 0 | [v] => if v =? 0 then OFull 0 else OGhost | [_; _] => OMove 0 1 | [_; _; _] => OAdvance 0 2 | _ => OFlow PropsNS.e3_step end.
Definition l3_start : lstate Z Z Z := {| l_sim := PropsCoupled.e3_state; l_body := fun _ => 0; l_seen := [] |}.
Definition l3_race : list Z -> Z -> nat -> list Z -> Z := fun h r f _ => r + Z.of_nat f.
Example C54_nonvacuous_3d :
  legal_3d Z.add Z.sub Z.mul 0 (fun x => x) (fold_right Z.add 0) 1 0 (fun _ _ : Z => fun v => v) (fun _ i => i) 2 (fun v => v) (PropsNS.e3_c 3) (PropsNS.e3_c 4) (PropsNS.e3_c 5) (fun a b c => a + b + c) Z.sub
    (Some (Multiplicative, 1%nat, 2)) 0 1 2 3 4 5 6 7 8 9 10 11 12 13 14 1 l3_rules l3_script lx_look 2 1 2 4 5 4 PropsCoupled.e3_actor (fun _ _ => [0]) l3_race 5 l3_start.
Proof.
  unfold legal_3d. cbv zeta. match goal with |- Forall _ ?l /\ _ => assert (E : l = [ELag 0 PropsCoupled.e3_pose; EFull 0 PropsCoupled.e3_pose; EAdvance 0 2; EFlow (PropsNS.e3_step, fun r f _ => r + Z.of_nat f)]) by (vm_compute; reflexivity) end.
  rewrite E. clear E. destruct PropsCoupled.C49_nonvacuous_3d as (_ & _ & H & _). unfold PropsCoupled.e3_events in H. apply Forall_cons_iff in H as [P1 H]. apply Forall_cons_iff in H as [P2 H]. apply Forall_cons_iff in H as [P3 H]. apply Forall_cons_iff in H as [P4 _]. split; [|split].
  - repeat (constructor; [assumption|]). constructor.
  - cbn; tauto.
  - cbn [moves_ok moves_change_counts PropsCoupled.e3_pose p_address]. repeat split; auto.
Qed.

(** C54, finding: in this legal run rank 1's copy of body 0 is not the body's state. *)
Theorem C54_all_copies_move_alike_refuted :
  exists q', loop_ends Z.add Z.sub Z.mul 0 (fun x => x) (fold_right Z.add 0) 1 0 [2; 1] [4; 5] 2 [2; 3]%nat [0; 1; 2; 3]%nat [4; 5]%nat PropsCoupled.ex_actor
    (exch_2d 2 1 4 5 2 false [2; 3]%nat) (spread_2 Z.add Z.mul (fun _ => 0) 1 0 2 1 4 5 2 [4; 5]%nat)
    (time_step_2d Z.add 0 (fun _ _ v => v) (fun v => v) 2 1 4 5 2 false 0 2 PropsNS.e_xg 0 1 2 3 4 5 6 7 8 PropsNS.e_cx PropsNS.e_cy)
    lx_rules lx_script lx_look [] lx_ord (fun _ s => s) 7 lx_ranks q' /\
  q_body lx_ranks 0 0%nat = q_body lx_ranks 1 0%nat /\ q_body q' 0 0%nat = (true, [118; 34; 12; -124]) /\ q_body q' 1 0%nat = (false, []).
Proof.
  destruct C54_nonvacuous as (HL & HT & HE & HB).
  destruct (C54_two_way_2d Z.add Z.sub Z.mul 0 (fun _ => 0) (fun x => x) (fold_right Z.add 0) 1 0 (fun _ _ : Z => fun v => v) (fun _ i => i) 2 (fun v => v) PropsNS.e_cx PropsNS.e_cy 0 1 2 3 4 5 6 7 8 2
    ltac:(repeat split; intros; lia) ltac:(reflexivity) ltac:(qle) lx_rules lx_script lx_look [] 2 1 4 5 2 false 0%nat PropsNS.e_xg PropsCoupled.ex_actor lx_ord 7 lx_start lx_ranks
    PropsNS.setting_instance (proj1 PropsCoupled.C49_nonvacuous) HL HT (fun c P _ _ => eq_refl) (fun _ _ => eq_refl) eq_refl) as (q' & R & _ & _ & B & E).
  exists q'. split; [exact R|]. split; [reflexivity|]. change (serial_loop _ _ _ _ _ _ _ _ _ _ _ _ _ _ _ _ _ _ _) with (lx_serial 7 lx_start) in *. split; [exact (eq_trans (B 0%nat (Nat.lt_0_succ _)) HB)|].
  rewrite (C54_copies_off_master _ _ _ _ _ _ _ _ _ _ _ _ _ _ _ _ _ _ _ _ _ _ _ _ _ _ _ 1 0%nat R) by discriminate. rewrite E, HE. reflexivity.
Qed.

Print Assumptions C54_two_way_2d.
Print Assumptions C54_decomposition_independent_2d.
Print Assumptions C54_two_way_3d.
Print Assumptions C54_decomposition_independent_3d.
Print Assumptions C54_copies_off_master.
Print Assumptions C54_all_copies_move_alike_refuted.
