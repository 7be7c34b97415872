(** Properties C49 and C52: simulations that couple the flow with immersed bodies. *)
From Coq Require Import QArith.
From Verif Require Import Base SpecGrid SpecGhostSum SpecStencil SpecStep SpecPenalise SpecFilter SpecDouble SpecLag SpecIB SpecVbf SpecNS SpecBodies SpecCoupled
  Comm Blocking Spmd Stencil Lagrangian Vbf NavierStokes Coupled SpecTracks.
From Verif Require PropsNS KernelProofs CoupledProofs CoupledThms LagProofs GhostRefute.
Open Scope Z_scope.

Section Two.
Context {T C : Type}.
Variables (add sub mul : T -> T -> T) (z : T) (times0 scale : T -> T) (sum : list T -> T) (dx shift : Q).
Variables (damp : C -> C -> T -> T) (coord : nat -> Z -> C) (width : Z) (conv : (list Z -> T) -> list Z -> T) (Kcx Kcy : @kfun T).
Variables (w psi vx vy fx fy buf D S : nat) (nb : nat).
Hypothesis add_monoid : comm_monoid add z.
Hypothesis zeroing : forall x, times0 x = z.
Hypothesis spacing : (0 < dx)%Q.
Notation setting py px ny nx g dd xg := (ns2_setting py px ny nx g width dd xg coord w psi vx vy fx fy buf D S Kcx Kcy).
Notation all_ok py px g actors := (actors_ok [py; px] g nb actors [w; psi; vx; vy; fx; fy; buf; D; S]).
Notation legal py px ny nx actors := (Forall (event_ok [py; px] [ny; nx] nb actors dx shift (flow2_ok z w vx vy fx fy))).
Notation shows py px ny nx g actors := (tracks z [py; px] [ny; nx] g [w; psi; vx; vy] [fx; fy] nb actors [[g; nx + 2 * g]; [ny + 2 * g; g]]).
(* the parallel program of a history of calls *)
Notation program py px ny nx g full dd xg actors := (coupled_segs add sub mul z scale sum dx shift [py; px] [ny; nx] g [vx; vy] [fx; fy] actors
  (exch_2d py px ny nx g full [vx; vy]) (spread_2 add mul times0 dx shift py px ny nx g [fx; fy])
  (time_step_2d add z damp conv py px ny nx g full dd width xg w psi vx vy fx fy buf D S Kcx Kcy)).
(* the serial simulation of the same history *)
Notation reference N actors := (serial_coupled add sub mul z scale sum dx shift [vx; vy]
  (fun frc u s => serial_ns_2d add z damp coord width conv Kcx Kcy N w psi vx vy fx fy u (with_forcing2 [fx; fy] frc s)) (fun b => a_body (actors b))).

(** C49 (2D), every history.  Any number of bodies, any sequence of calls (a body acts on the flow, forces on a body
    are computed, an interactor is advanced, the flow is advanced): the run ends, in one memory whatever the
    schedules, and it shows the serial simulation in which a node continues with the mismatch [continues] says. *)
Theorem C49_coupled_every_history_2d py px ny nx g full dd xg actors es ss (m : mem T) st :
  setting py px ny nx g dd xg -> all_ok py px g actors -> legal py px ny nx actors es -> ghosts_ok actors false es ->
  shows py px ny nx g actors ss m st -> off_edge z [py; px] [ny; nx] st ->
  exists m', segs_end (zprod [py; px]) (program py px ny nx g full dd xg actors ss es) m m' /\
    (forall m'', segs_end (zprod [py; px]) (program py px ny nx g full dd xg actors ss es) m m'' -> m'' = m') /\
    shows py px ny nx g actors (final_maps [py; px] ss es) m' (reference (global_size [py; px] [ny; nx]) actors (continues (zprod [py; px])) st es).
Proof.
  intros HS HA He Hgh Ht Ho.
  exact (CoupledThms.coupled_2d add sub mul z times0 scale sum dx shift damp coord width conv Kcx Kcy py px ny nx g full dd xg w psi vx vy fx fy buf D S nb actors HS add_monoid zeroing spacing HA
    (continues (zprod [py; px])) es ss m st Ht Ho Hgh He (CoupledThms.all_fit_continues _ _ _ _ _ _ _ es ss (CoupledThms.tracks_nums _ _ _ _ _ _ _ _ _ _ _ _ Ht) He)).
Qed.

(** C49 (2D).  If every change of a body's mapping changes some rank's node count, every node continues with its own
    mismatch: the run shows the serial simulation. *)
Theorem C49_coupled_2d py px ny nx g full dd xg actors es ss (m : mem T) st :
  setting py px ny nx g dd xg -> all_ok py px g actors -> legal py px ny nx actors es -> ghosts_ok actors false es -> moves_ok (zprod [py; px]) (cs_map st) es ->
  shows py px ny nx g actors ss m st -> off_edge z [py; px] [ny; nx] st ->
  exists m', segs_end (zprod [py; px]) (program py px ny nx g full dd xg actors ss es) m m' /\
    (forall m'', segs_end (zprod [py; px]) (program py px ny nx g full dd xg actors ss es) m m'' -> m'' = m') /\
    shows py px ny nx g actors (final_maps [py; px] ss es) m' (reference (global_size [py; px] [ny; nx]) actors (fun _ _ j => j) st es).
Proof.
  intros HS HA He Hgh Hm Ht Ho.
  exact (CoupledThms.coupled_2d add sub mul z times0 scale sum dx shift damp coord width conv Kcx Kcy py px ny nx g full dd xg w psi vx vy fx fy buf D S nb actors HS add_monoid zeroing spacing HA
    (fun _ _ j => j) es ss m st Ht Ho Hgh He (CoupledThms.all_fit_own _ _ _ _ _ _ _ es ss (cs_map st) (CoupledThms.tracks_nums _ _ _ _ _ _ _ _ _ _ _ _ Ht) (tr_map _ _ _ _ _ _ _ _ _ _ _ _ Ht) Hm He)).
Qed.

(** C52 (2D).  Options, masters and decomposition do not change results: two runs with the same calls, each with its own
    assume_data_locality and auto_ghosting options, masters, ghost exchanges in the history and decomposition, have the same flow and
    forcing everywhere and the same forces on every body, if with assume_data_locality the body is in its master's block
    ([legal]) and without auto_ghosting a ghost exchange follows each flow step before the next interaction ([ghosts_ok]). *)
Theorem C52_options_independent_2d py px ny nx full dd xg actors es ss py' px' ny' nx' full' dd' xg' actors' es' ss' g (m m' e e' : mem T) st st' :
  setting py px ny nx g dd xg -> setting py' px' ny' nx' g dd' xg' -> global_size [py; px] [ny; nx] = global_size [py'; px'] [ny'; nx'] ->
  all_ok py px g actors -> all_ok py' px' g actors' -> (forall b, a_body (actors b) = a_body (actors' b)) ->
  legal py px ny nx actors es -> legal py' px' ny' nx' actors' es' -> ghosts_ok actors false es -> ghosts_ok actors' false es' -> Forall2 (same_event eq) (calls es) (calls es') ->
  moves_ok (zprod [py; px]) (cs_map st) es -> moves_ok (zprod [py'; px']) (cs_map st') es' ->
  shows py px ny nx g actors ss m st -> shows py' px' ny' nx' g actors' ss' m' st' -> same_state st st' -> off_edge z [py; px] [ny; nx] st ->
  segs_end (zprod [py; px]) (program py px ny nx g full dd xg actors ss es) m e ->
  segs_end (zprod [py'; px']) (program py' px' ny' nx' g full' dd' xg' actors' ss' es') m' e' ->
  agree [py; px] [ny; nx] [py'; px'] [ny'; nx'] g [w; psi; vx; vy; fx; fy] e e' /\
  forall b c j, (b < nb)%nat -> 0 <= c < 2 -> 0 <= j < v_count (a_body (actors b)) ->
    e (a_master (actors b), (gfo (a_arrays (actors b)), c * v_count (a_body (actors b)) + j)) =
    e' (a_master (actors' b), (gfo (a_arrays (actors' b)), c * v_count (a_body (actors b)) + j)).
Proof.
  intros HS HS' EN HA HA' Hb He He' Hgh Hgh' Hsame Hm Hm' Ht Ht' Hst Ho R R'.
  assert (Ho' : off_edge z [py'; px'] [ny'; nx'] st') by (unfold off_edge in *; rewrite <- EN; destruct Hst as (_ & <- & _); exact Ho).
  destruct (C49_coupled_2d py px ny nx g full dd xg actors es ss m st HS HA He Hgh Hm Ht Ho) as (e1 & _ & U & Tr).
  destruct (C49_coupled_2d py' px' ny' nx' g full' dd' xg' actors' es' ss' m' st' HS' HA' He' Hgh' Hm' Ht' Ho') as (e2 & _ & U' & Tr').
  rewrite (U e R), (U' e' R'). rewrite <- EN in Tr'.
  pose proof HS as [G Hg2 _ _ _ _ _ _ _]. pose proof HS' as [G' _ _ _ _ _ _ _ _].
  eapply (CoupledThms.tracks_agree z _ _ _ _ g [w; psi; vx; vy] [fx; fy]); try exact Tr; try exact Tr'; auto; try lia; [eapply KernelProofs.g2_ok; eauto|eapply KernelProofs.g2_ok; eauto|].
  rewrite (CoupledThms.serial_calls _ _ _ _ _ _ _ _ _ _ _ _ es), (CoupledThms.serial_calls _ _ _ _ _ _ _ _ _ _ _ _ es').
  apply (CoupledThms.serial_same add sub mul z scale sum dx shift [vx; vy] _ _ (fun b => a_body (actors b)) (fun b => a_body (actors' b)) eq); auto. now intros s s' ->.
Qed.

(** C49 (2D).  Runs of the same calls on two decompositions of one domain, possibly with other masters and other full_exchange
    flags: the same flow and forcing everywhere and the same forces on every body. *)
Theorem C49_decomposition_independent_2d py px ny nx full dd xg actors es ss py' px' ny' nx' full' dd' xg' actors' es' ss' g (m m' e e' : mem T) st st' :
  setting py px ny nx g dd xg -> setting py' px' ny' nx' g dd' xg' -> global_size [py; px] [ny; nx] = global_size [py'; px'] [ny'; nx'] ->
  all_ok py px g actors -> all_ok py' px' g actors' -> (forall b, a_body (actors b) = a_body (actors' b)) ->
  legal py px ny nx actors es -> legal py' px' ny' nx' actors' es' -> ghosts_ok actors false es -> ghosts_ok actors' false es' -> Forall2 (same_event eq) es es' ->
  moves_ok (zprod [py; px]) (cs_map st) es -> moves_ok (zprod [py'; px']) (cs_map st') es' ->
  shows py px ny nx g actors ss m st -> shows py' px' ny' nx' g actors' ss' m' st' -> same_state st st' -> off_edge z [py; px] [ny; nx] st ->
  segs_end (zprod [py; px]) (program py px ny nx g full dd xg actors ss es) m e ->
  segs_end (zprod [py'; px']) (program py' px' ny' nx' g full' dd' xg' actors' ss' es') m' e' ->
  agree [py; px] [ny; nx] [py'; px'] [ny'; nx'] g [w; psi; vx; vy; fx; fy] e e' /\
  forall b c j, (b < nb)%nat -> 0 <= c < 2 -> 0 <= j < v_count (a_body (actors b)) ->
    e (a_master (actors b), (gfo (a_arrays (actors b)), c * v_count (a_body (actors b)) + j)) =
    e' (a_master (actors' b), (gfo (a_arrays (actors' b)), c * v_count (a_body (actors b)) + j)).
Proof.
  intros HS HS' EN HA HA' Hb He He' Hgh Hgh' Hsame Hm Hm' Ht Ht' Hst Ho R R'.
  refine (C52_options_independent_2d py px ny nx full dd xg actors es ss py' px' ny' nx' full' dd' xg' actors' es' ss' g m m' e e' st st' _ _ _ _ _ _ _ _ _ _ _ _ _ _ _ _ _ _ _); auto using CoupledThms.calls_same.
Qed.
End Two.

Section Three.
Context {T C : Type}.
Variables (add sub mul : T -> T -> T) (z : T) (times0 scale : T -> T) (sum : list T -> T) (dx shift : Q).
Variables (damp : C -> C -> T -> T) (coord : nat -> Z -> C) (width : Z) (conv : (list Z -> T) -> list Z -> T) (Kcx Kcy Kcz : @kfun T)
          (lap : T -> T -> T -> T) (fsub : T -> T -> T) (filt : option (filter_type * nat * Z)).
Variables (w0 w1 w2 p0 p1 p2 vx vy vz fx fy fz b0 b1 b2 buf D S : nat) (nb : nat).
Hypothesis add_monoid : comm_monoid add z.
Hypothesis zeroing : forall x, times0 x = z.
Hypothesis spacing : (0 < dx)%Q.
Notation ws := [w0; w1; w2].
Notation vs := [vx; vy; vz].
Notation fs := [fx; fy; fz].
Notation bs := [b0; b1; b2].
Notation Fs0 := [w0; w1; w2; p0; p1; p2; vx; vy; vz].
Notation setting pz py px n0 n1 n2 g xg := (ns3_setting pz py px n0 n1 n2 g width filt xg coord w0 w1 w2 p0 p1 p2 vx vy vz fx fy fz b0 b1 b2 buf D S Kcx Kcy Kcz).
Notation all_ok pz py px g actors := (actors_ok [pz; py; px] g nb actors [w0; w1; w2; p0; p1; p2; vx; vy; vz; fx; fy; fz; b0; b1; b2; buf; D; S]).
Notation legal pz py px n0 n1 n2 actors := (Forall (event_ok [pz; py; px] [n0; n1; n2] nb actors dx shift (fun s => flow3_ok z ws vs bs fs (fst s)))).
Notation shows pz py px n0 n1 n2 g actors := (tracks z [pz; py; px] [n0; n1; n2] g Fs0 fs nb actors
  [[g; n1 + 2 * g; n2 + 2 * g]; [n0 + 2 * g; g; n2 + 2 * g]; [n0 + 2 * g; n1 + 2 * g; g]]).
Notation program pz py px n0 n1 n2 g full xg actors := (coupled_segs add sub mul z scale sum dx shift [pz; py; px] [n0; n1; n2] g vs fs actors
  (exch_3d pz py px n0 n1 n2 g full vs) (spread_3 add mul times0 dx shift pz py px n0 n1 n2 g fs)
  (fun sr => time_step_3d add z damp conv lap fsub filt pz py px n0 n1 n2 g full width xg w0 w1 w2 p0 p1 p2 vx vy vz fx fy fz b0 b1 b2 buf D S Kcx Kcy Kcz (snd sr) (fst sr))).
Notation reference N actors := (serial_coupled add sub mul z scale sum dx shift vs
  (fun frc u s => serial_ns_3d add z damp coord width conv Kcx Kcy Kcz lap fsub filt N w0 w1 w2 p0 p1 p2 vx vy vz b0 b1 b2 fx fy fz u (with_forcing3 fs frc (fst s))) (fun b => a_body (actors b))).

(** C49 (3D).  As in 2D; the ghost exchange must serve corners where two axes are split (the code's simulators with
    forcing do: [full] = true).  Each flow step carries an arbitrary value for every cell
    that the curl kernel updates while a ghost it reads is being received (Stencil.v: [race]); none of it shows. *)
Theorem C49_coupled_every_history_3d pz py px n0 n1 n2 g full xg actors es ss (m : mem T) st :
  setting pz py px n0 n1 n2 g xg -> all_ok pz py px g actors -> full = true \/ at_most_one_split [pz; py; px] ->
  legal pz py px n0 n1 n2 actors es -> ghosts_ok actors false es -> shows pz py px n0 n1 n2 g actors ss m st -> off_edge z [pz; py; px] [n0; n1; n2] st ->
  exists m', segs_end (zprod [pz; py; px]) (program pz py px n0 n1 n2 g full xg actors ss es) m m' /\
    (forall m'', segs_end (zprod [pz; py; px]) (program pz py px n0 n1 n2 g full xg actors ss es) m m'' -> m'' = m') /\
    shows pz py px n0 n1 n2 g actors (final_maps [pz; py; px] ss es) m' (reference (global_size [pz; py; px] [n0; n1; n2]) actors (continues (zprod [pz; py; px])) st es).
Proof.
  intros HS HA Hc He Hgh Ht Ho.
  exact (CoupledThms.coupled_3d add sub mul z times0 scale sum dx shift damp coord width conv Kcx Kcy Kcz lap fsub filt pz py px n0 n1 n2 g full xg w0 w1 w2 p0 p1 p2 vx vy vz fx fy fz b0 b1 b2 buf D S nb actors
    HS add_monoid zeroing spacing HA Hc (continues (zprod [pz; py; px])) es ss m st Ht Ho Hgh He (CoupledThms.all_fit_continues _ _ _ _ _ _ _ es ss (CoupledThms.tracks_nums _ _ _ _ _ _ _ _ _ _ _ _ Ht) He)).
Qed.
Theorem C49_coupled_3d pz py px n0 n1 n2 g full xg actors es ss (m : mem T) st :
  setting pz py px n0 n1 n2 g xg -> all_ok pz py px g actors -> full = true \/ at_most_one_split [pz; py; px] ->
  legal pz py px n0 n1 n2 actors es -> ghosts_ok actors false es -> moves_ok (zprod [pz; py; px]) (cs_map st) es ->
  shows pz py px n0 n1 n2 g actors ss m st -> off_edge z [pz; py; px] [n0; n1; n2] st ->
  exists m', segs_end (zprod [pz; py; px]) (program pz py px n0 n1 n2 g full xg actors ss es) m m' /\
    (forall m'', segs_end (zprod [pz; py; px]) (program pz py px n0 n1 n2 g full xg actors ss es) m m'' -> m'' = m') /\
    shows pz py px n0 n1 n2 g actors (final_maps [pz; py; px] ss es) m' (reference (global_size [pz; py; px] [n0; n1; n2]) actors (fun _ _ j => j) st es).
Proof.
  intros HS HA Hc He Hgh Hm Ht Ho.
  exact (CoupledThms.coupled_3d add sub mul z times0 scale sum dx shift damp coord width conv Kcx Kcy Kcz lap fsub filt pz py px n0 n1 n2 g full xg w0 w1 w2 p0 p1 p2 vx vy vz fx fy fz b0 b1 b2 buf D S nb actors
    HS add_monoid zeroing spacing HA Hc (fun _ _ j => j) es ss m st Ht Ho Hgh He
    (CoupledThms.all_fit_own _ _ _ _ _ _ _ es ss (cs_map st) (CoupledThms.tracks_nums _ _ _ _ _ _ _ _ _ _ _ _ Ht) (tr_map _ _ _ _ _ _ _ _ _ _ _ _ Ht) Hm He)).
Qed.
(** C52 (3D).  Options, masters and decomposition do not change results: two runs with the same calls, each with its own
    assume_data_locality and auto_ghosting options, masters, ghost exchanges in the history and decomposition, have the same flow and
    forcing everywhere and the same forces on every body, if with assume_data_locality the body is in its master's block
    ([legal]) and without auto_ghosting a ghost exchange follows each flow step before the next interaction ([ghosts_ok]). *)
Theorem C52_options_independent_3d pz py px n0 n1 n2 full xg actors es ss pz' py' px' n0' n1' n2' full' xg' actors' es' ss' g (m m' e e' : mem T) st st' :
  setting pz py px n0 n1 n2 g xg -> setting pz' py' px' n0' n1' n2' g xg' -> global_size [pz; py; px] [n0; n1; n2] = global_size [pz'; py'; px'] [n0'; n1'; n2'] ->
  full = true \/ at_most_one_split [pz; py; px] -> full' = true \/ at_most_one_split [pz'; py'; px'] ->
  all_ok pz py px g actors -> all_ok pz' py' px' g actors' -> (forall b, a_body (actors b) = a_body (actors' b)) ->
  legal pz py px n0 n1 n2 actors es -> legal pz' py' px' n0' n1' n2' actors' es' -> ghosts_ok actors false es -> ghosts_ok actors' false es' -> Forall2 (same_event (fun s s' => fst s = fst s')) (calls es) (calls es') ->
  moves_ok (zprod [pz; py; px]) (cs_map st) es -> moves_ok (zprod [pz'; py'; px']) (cs_map st') es' ->
  shows pz py px n0 n1 n2 g actors ss m st -> shows pz' py' px' n0' n1' n2' g actors' ss' m' st' -> same_state st st' -> off_edge z [pz; py; px] [n0; n1; n2] st ->
  segs_end (zprod [pz; py; px]) (program pz py px n0 n1 n2 g full xg actors ss es) m e ->
  segs_end (zprod [pz'; py'; px']) (program pz' py' px' n0' n1' n2' g full' xg' actors' ss' es') m' e' ->
  agree [pz; py; px] [n0; n1; n2] [pz'; py'; px'] [n0'; n1'; n2'] g (Fs0 ++ fs) e e' /\
  forall b c j, (b < nb)%nat -> 0 <= c < 3 -> 0 <= j < v_count (a_body (actors b)) ->
    e (a_master (actors b), (gfo (a_arrays (actors b)), c * v_count (a_body (actors b)) + j)) =
    e' (a_master (actors' b), (gfo (a_arrays (actors' b)), c * v_count (a_body (actors b)) + j)).
Proof.
  intros HS HS' EN Hc Hc' HA HA' Hb He He' Hgh Hgh' Hsame Hm Hm' Ht Ht' Hst Ho R R'.
  assert (Ho' : off_edge z [pz'; py'; px'] [n0'; n1'; n2'] st') by (unfold off_edge in *; rewrite <- EN; destruct Hst as (_ & <- & _); exact Ho).
  destruct (C49_coupled_3d pz py px n0 n1 n2 g full xg actors es ss m st HS HA Hc He Hgh Hm Ht Ho) as (e1 & _ & U & Tr).
  destruct (C49_coupled_3d pz' py' px' n0' n1' n2' g full' xg' actors' es' ss' m' st' HS' HA' Hc' He' Hgh' Hm' Ht' Ho') as (e2 & _ & U' & Tr').
  rewrite (U e R), (U' e' R'). rewrite <- EN in Tr'.
  pose proof HS as [G _ _ _ _ _ _ _]. pose proof HS' as [G' _ _ _ _ _ _ _].
  eapply (CoupledThms.tracks_agree z _ _ _ _ g Fs0 fs); try exact Tr; try exact Tr'; auto; try (unfold KernelList.grid3 in G; lia); [eapply KernelProofs.g3_ok; eauto|eapply KernelProofs.g3_ok; eauto|].
  rewrite (CoupledThms.serial_calls _ _ _ _ _ _ _ _ _ _ _ _ es), (CoupledThms.serial_calls _ _ _ _ _ _ _ _ _ _ _ _ es').
  apply (CoupledThms.serial_same add sub mul z scale sum dx shift vs _ _ (fun b => a_body (actors b)) (fun b => a_body (actors' b)) (fun s s' => fst s = fst s')); auto. now intros s s' ->.
Qed.

(** C49 (3D). *)
Theorem C49_decomposition_independent_3d pz py px n0 n1 n2 full xg actors es ss pz' py' px' n0' n1' n2' full' xg' actors' es' ss' g (m m' e e' : mem T) st st' :
  setting pz py px n0 n1 n2 g xg -> setting pz' py' px' n0' n1' n2' g xg' -> global_size [pz; py; px] [n0; n1; n2] = global_size [pz'; py'; px'] [n0'; n1'; n2'] ->
  full = true \/ at_most_one_split [pz; py; px] -> full' = true \/ at_most_one_split [pz'; py'; px'] ->
  all_ok pz py px g actors -> all_ok pz' py' px' g actors' -> (forall b, a_body (actors b) = a_body (actors' b)) ->
  legal pz py px n0 n1 n2 actors es -> legal pz' py' px' n0' n1' n2' actors' es' -> ghosts_ok actors false es -> ghosts_ok actors' false es' -> Forall2 (same_event (fun s s' => fst s = fst s')) es es' ->
  moves_ok (zprod [pz; py; px]) (cs_map st) es -> moves_ok (zprod [pz'; py'; px']) (cs_map st') es' ->
  shows pz py px n0 n1 n2 g actors ss m st -> shows pz' py' px' n0' n1' n2' g actors' ss' m' st' -> same_state st st' -> off_edge z [pz; py; px] [n0; n1; n2] st ->
  segs_end (zprod [pz; py; px]) (program pz py px n0 n1 n2 g full xg actors ss es) m e ->
  segs_end (zprod [pz'; py'; px']) (program pz' py' px' n0' n1' n2' g full' xg' actors' ss' es') m' e' ->
  agree [pz; py; px] [n0; n1; n2] [pz'; py'; px'] [n0'; n1'; n2'] g (Fs0 ++ fs) e e' /\
  forall b c j, (b < nb)%nat -> 0 <= c < 3 -> 0 <= j < v_count (a_body (actors b)) ->
    e (a_master (actors b), (gfo (a_arrays (actors b)), c * v_count (a_body (actors b)) + j)) =
    e' (a_master (actors' b), (gfo (a_arrays (actors' b)), c * v_count (a_body (actors b)) + j)).
Proof.
  intros HS HS' EN Hc Hc' HA HA' Hb He He' Hgh Hgh' Hsame Hm Hm' Ht Ht' Hst Ho R R'.
  refine (C52_options_independent_3d pz py px n0 n1 n2 full xg actors es ss pz' py' px' n0' n1' n2' full' xg' actors' es' ss' g m m' e e' st st' _ _ _ _ _ _ _ _ _ _ _ _ _ _ _ _ _ _ _ _ _); auto using CoupledThms.calls_same.
Qed.
End Three.

(** *** A case that meets the hypotheses: the flow of PropsNS (2 x 1 ranks, blocks of 4 x 5 cells) with two bodies, one of
    two nodes on different ranks, the other of one node; then the first body's node 0 migrates. *)
Definition ex_arr (k : nat) : arrays := {| gpm := k; gvm := k + 1; gfo := k + 2; gpos := k + 3; gvel := k + 4; lpm := k + 5; lvm := k + 6; lfo := k + 7; lpos := k + 8; lvel := k + 9; lflow := k + 10 |}.
Definition ex_actor (b : nat) : actor Z :=
  match b with
  | O => {| a_arrays := ex_arr 10; a_master := 0; a_bufs := [21%nat; 22%nat]; a_body := {| v_stiff := 3; v_damp := 2; v_width := 1; v_weight := fun _ => 1; v_reset := true; v_count := 2 |}; a_local := false; a_auto := true |}
  | _ => {| a_arrays := ex_arr 30; a_master := 1; a_bufs := [41%nat; 42%nat]; a_body := {| v_stiff := 1; v_damp := 1; v_width := 1; v_weight := fun l => match l with d :: _ => if Qlt_le_dec d 0 then 1 else 2 | [] => 0 end; v_reset := false; v_count := 1 |}; a_local := false; a_auto := true |}
  end.
Definition ex_pose0 : pose Z := {| p_nodes := [[3 # 2; 5 # 2]; [5 # 2; 9 # 2]]%Q; p_pos := fun c j => c + j; p_vel := fun c j => c + 10 * j + 1; p_address := [0; 1]; p_order := [1] |}.
Definition ex_pose1 : pose Z := {| p_nodes := [[3 # 2; 9 # 2]; [5 # 2; 9 # 2]]%Q; p_pos := fun c j => c + j; p_vel := fun c j => c + 10 * j + 1; p_address := [1; 1]; p_order := [1] |}.
Definition ex_poseb : pose Z := {| p_nodes := [[5 # 2; 5 # 2]]%Q; p_pos := fun c j => c; p_vel := fun c j => 7; p_address := [0]; p_order := [0] |}.
Definition ex_events : list (event Z (@ns2_step Z)) := [EFull 0 ex_pose0; EFull 1 ex_poseb; EFlow PropsNS.e_step; EAdvance 0 2; ELag 0 ex_pose1; EFlow PropsNS.e_step].
Definition ex_maps (b : nat) : vb := match b with O => vb_init [0; 1] [1] | _ => vb_init [0] [0] end.
Definition ex_state : cstate Z := {| cs_u := fun _ _ => 0; cs_f := fun _ _ => 0; cs_map := fun b => address (ex_maps b); cs_st := fun _ => at_rest 0 |}.
Ltac qle := unfold Qle, Qlt; cbn; lia.
Example C49_nonvacuous : actors_ok [2; 1] 2 2 ex_actor [0; 1; 2; 3; 4; 5; 6; 7; 8]%nat /\
  Forall (event_ok [2; 1] [4; 5] 2 ex_actor 1 0 (flow2_ok 0 0 2 3 4 5)) ex_events /\ ghosts_ok ex_actor false ex_events /\ moves_ok 2 (cs_map ex_state) ex_events /\
  tracks 0 [2; 1] [4; 5] 2 [0; 1; 2; 3]%nat [4; 5]%nat 2 ex_actor [[2; 9]; [8; 2]] ex_maps (fun _ => 0) ex_state /\ off_edge 0 [2; 1] [4; 5] ex_state /\
  let e := serial_coupled Z.add Z.sub Z.mul 0 (fun x => x) (fold_right Z.add 0) 1 0 [2; 3]%nat
    (fun frc u s => serial_ns_2d Z.add 0 (fun _ _ v => v) (fun _ i => i) 2 (fun v => v) PropsNS.e_cx PropsNS.e_cy (global_size [2; 1] [4; 5]) 0 1 2 3 4 5 u (with_forcing2 [4; 5]%nat frc s))
    (fun b => a_body (ex_actor b)) (fun _ _ j => j) ex_state ex_events in
  cs_u e 0%nat [3; 3] <> 0 /\ fo (cs_st e 0%nat) 0 0 <> 0 /\ fo (cs_st e 1%nat) 1 0 = -7.
Proof.
  split; [split; [cbn; repeat constructor; cbn; intuition discriminate|intros [|[|b]] Hb; cbn; lia]|].
  split; [|split; [cbn; tauto|split; [|split; [|split; [intros c P _ _; reflexivity|vm_compute; repeat split; discriminate]]]]].
  - assert (F : flow2_ok 0 0 2 3 4 5 PropsNS.e_step).
    { destruct PropsNS.step_instance as (X & X' & _). split; [exact X'|]. destruct X as (_ & _ & _ & X). cbn [n2_frc PropsNS.e_step] in *. tauto. }
    assert (P0 : pose_ok [2; 1] [4; 5] 1 0 0 (a_body (ex_actor 0)) ex_pose0).
    { split; [repeat constructor; qle|reflexivity| |vm_compute; reflexivity|].
      - repeat constructor; vm_compute; intuition discriminate.
      - split; [repeat constructor; cbn; lia|split; [split; [repeat constructor; cbn; tauto|intros s; cbn; lia]|reflexivity]]. }
    assert (P1 : pose_ok [2; 1] [4; 5] 1 0 0 (a_body (ex_actor 0)) ex_pose1).
    { split; [repeat constructor; qle|reflexivity| |vm_compute; reflexivity|].
      - repeat constructor; vm_compute; intuition discriminate.
      - split; [repeat constructor; cbn; lia|split; [split; [repeat constructor; cbn; tauto|intros s; cbn; lia]|reflexivity]]. }
    assert (P2 : pose_ok [2; 1] [4; 5] 1 0 1 (a_body (ex_actor 1)) ex_poseb).
    { split; [repeat constructor; qle|reflexivity| |vm_compute; reflexivity|].
      - repeat constructor; vm_compute; intuition discriminate.
      - split; [repeat constructor; cbn; lia|split; [split; [repeat constructor; cbn; tauto|intros s; cbn; lia]|reflexivity]]. }
    unfold ex_events. repeat (constructor; [cbn [event_ok]; auto; try (split; [lia|split; [assumption|intros H; discriminate H]]); lia|]). constructor.
  - cbn [ex_events moves_ok moves_change_counts ex_pose0 ex_pose1 ex_poseb p_address]. repeat split; auto. intros H. specialize (H 0 ltac:(lia)). discriminate H.
  - split; try reflexivity; try (split; reflexivity).
    + intros b Hb. assert (Eb : b = 0%nat \/ b = 1%nat) by lia.
      destruct Eb as [-> | ->]; (split; [|reflexivity]); (split; [|split; [intros; apply LagProofs.count_eq|split; intros ? ? ? ? _ _ _; reflexivity]]);
        (split; [repeat constructor; cbn; lia|split; [split; [repeat constructor; cbn; tauto|intros s; cbn; lia]|reflexivity]]).
    + intros b Hb. assert (Eb : b = 0%nat \/ b = 1%nat) by lia. destruct Eb as [-> | ->]; repeat constructor; intros r K _ _; reflexivity.
    + intros b Hb Hl. assert (Eb : b = 0%nat \/ b = 1%nat) by lia. destruct Eb as [-> | ->]; (discriminate Hl || reflexivity).
Qed.

(** The same calls on one rank (8 x 5 cells), the user exchanging ghosts, the second body with assume_data_locality: the
    hypotheses of the comparison are met too. *)
Definition ex_actor1 (b : nat) : actor Z := {| a_arrays := a_arrays (ex_actor b); a_master := 0; a_bufs := a_bufs (ex_actor b); a_body := a_body (ex_actor b); a_local := (b =? 1)%nat; a_auto := false |}.
Definition on_one (p : pose Z) : pose Z := {| p_nodes := p_nodes p; p_pos := p_pos p; p_vel := p_vel p; p_address := map (fun _ => 0) (p_address p); p_order := [] |}.
Definition ex_events1 : list (event Z (@ns2_step Z)) := [EGhost; EFull 0 (on_one ex_pose0); EFull 1 (on_one ex_poseb); EFlow PropsNS.e_step; EAdvance 0 2; EGhost; ELag 0 (on_one ex_pose1); EFlow PropsNS.e_step].
Definition ex_maps1 (b : nat) : vb := match b with O => vb_init [0; 0] [] | _ => vb_init [0] [] end.
Definition ex_state1 : cstate Z := {| cs_u := fun _ _ => 0; cs_f := fun _ _ => 0; cs_map := fun b => address (ex_maps1 b); cs_st := fun _ => at_rest 0 |}.
Example C52_nonvacuous :
  ns2_setting 1 1 8 5 2 2 0%nat (fun r a i => nth a (block_start [1; 1] [8; 5] r) 0 + (i - 2)) (fun _ i => i) 0 1 2 3 4 5 6 7 8 PropsNS.e_cx PropsNS.e_cy /\ global_size [2; 1] [4; 5] = global_size [1; 1] [8; 5] /\
  actors_ok [1; 1] 2 2 ex_actor1 [0; 1; 2; 3; 4; 5; 6; 7; 8]%nat /\ (forall b, a_body (ex_actor b) = a_body (ex_actor1 b)) /\
  Forall (event_ok [1; 1] [8; 5] 2 ex_actor1 1 0 (flow2_ok 0 0 2 3 4 5)) ex_events1 /\ ghosts_ok ex_actor1 false ex_events1 /\ Forall2 (same_event eq) (calls ex_events) (calls ex_events1) /\ moves_ok 1 (cs_map ex_state1) ex_events1 /\
  tracks 0 [1; 1] [8; 5] 2 [0; 1; 2; 3]%nat [4; 5]%nat 2 ex_actor1 [[2; 9]; [12; 2]] ex_maps1 (fun _ => 0) ex_state1 /\ same_state ex_state ex_state1.
Proof.
  split; [destruct PropsNS.setting_instance as [_ _ _ _ _ _ Q1 Q2 Q3]; split; try lia; auto; [unfold KernelList.grid2; lia|intros r a i Hr Ha Hi; reflexivity]|].
  split; [reflexivity|]. split; [split; [cbn; repeat constructor; cbn; intuition discriminate|intros [|[|b]] Hb; cbn; lia]|]. split; [reflexivity|].
  split; [|split; [cbn; tauto|split; [repeat constructor|split; [cbn; tauto|split; [|repeat split]]]]].
  - assert (F : flow2_ok 0 0 2 3 4 5 PropsNS.e_step).
    { destruct PropsNS.step_instance as (X & X' & _). split; [exact X'|]. destruct X as (_ & _ & _ & X). cbn [n2_frc PropsNS.e_step] in *. tauto. }
    assert (P0 : forall p, p = ex_pose0 \/ p = ex_pose1 -> pose_ok [1; 1] [8; 5] 1 0 0 (a_body (ex_actor1 0)) (on_one p)).
    { intros p [-> | ->]; (split; [repeat constructor; qle|reflexivity|repeat constructor; vm_compute; intuition discriminate|vm_compute; reflexivity|]);
        (split; [repeat constructor; cbn; lia|split; [split; [repeat constructor; cbn; tauto|intros s; cbn; lia]|reflexivity]]). }
    assert (P2 : pose_ok [1; 1] [8; 5] 1 0 0 (a_body (ex_actor1 1)) (on_one ex_poseb)).
    { split; [repeat constructor; qle|reflexivity|repeat constructor; vm_compute; intuition discriminate|vm_compute; reflexivity|].
      split; [repeat constructor; cbn; lia|split; [split; [repeat constructor; cbn; tauto|intros s; cbn; lia]|reflexivity]]. }
    unfold ex_events1. repeat (constructor; [cbn [event_ok]; auto; try (split; [lia|split; [auto|intros H; (discriminate H || reflexivity)]]); lia|]). constructor.
  - split; try reflexivity; try (split; reflexivity).
    + intros b Hb. assert (Eb : b = 0%nat \/ b = 1%nat) by lia.
      destruct Eb as [-> | ->]; (split; [|reflexivity]); (split; [|split; [intros; apply LagProofs.count_eq|split; intros ? ? ? ? _ _ _; reflexivity]]);
        (split; [repeat constructor; cbn; lia|split; [split; [repeat constructor; cbn; tauto|intros s; cbn; lia]|reflexivity]]).
    + intros b Hb. assert (Eb : b = 0%nat \/ b = 1%nat) by lia. destruct Eb as [-> | ->]; repeat constructor; intros r K _ _; reflexivity.
    + intros b Hb Hl. assert (Eb : b = 0%nat \/ b = 1%nat) by lia. destruct Eb as [-> | ->]; (discriminate Hl || reflexivity).
Qed.

(** 3D: 2 x 1 x 2 ranks, blocks of 4 x 5 x 4 cells, the filter on, one body of two nodes on different ranks. *)
Definition e3_actor (b : nat) : actor Z :=
  {| a_arrays := ex_arr 20; a_master := 3; a_bufs := [40%nat; 41%nat; 42%nat]; a_body := {| v_stiff := 3; v_damp := 2; v_width := 1; v_weight := fun _ => 1; v_reset := false; v_count := 2 |}; a_local := false; a_auto := true |}.
Definition e3_pose : pose Z := {| p_nodes := [[3 # 2; 5 # 2; 7 # 2]; [9 # 2; 5 # 2; 9 # 2]]%Q; p_pos := fun c j => c + j; p_vel := fun c j => c + 10 * j + 1; p_address := [0; 3]; p_order := [0] |}.
Definition e3_events : list (event Z (@ns3_step Z * (Z -> nat -> list Z -> Z))) := [EFull 0 e3_pose; EAdvance 0 2; EFlow (PropsNS.e3_step, fun r f _ => r + Z.of_nat f); ELag 0 e3_pose].
Definition e3_state : cstate Z := {| cs_u := fun _ _ => 0; cs_f := fun _ _ => 0; cs_map := fun b => [0; 3]; cs_st := fun _ => at_rest 0 |}.
Example C49_nonvacuous_3d :
  ns3_setting 2 1 2 4 5 4 2 2 (Some (Multiplicative, 1%nat, 2)) (fun r a i => nth a (block_start [2; 1; 2] [4; 5; 4] r) 0 + (i - 2)) (fun _ i => i)
    0 1 2 3 4 5 6 7 8 9 10 11 12 13 14 15 16 17 (PropsNS.e3_c 3) (PropsNS.e3_c 4) (PropsNS.e3_c 5) /\
  actors_ok [2; 1; 2] 2 1 e3_actor (seq 0 18) /\
  Forall (event_ok [2; 1; 2] [4; 5; 4] 1 e3_actor 1 0 (fun s => flow3_ok 0 [0; 1; 2]%nat [6; 7; 8]%nat [12; 13; 14]%nat [9; 10; 11]%nat (fst s))) e3_events /\ ghosts_ok e3_actor false e3_events /\
  moves_ok 4 (cs_map e3_state) e3_events /\
  tracks 0 [2; 1; 2] [4; 5; 4] 2 [0; 1; 2; 3; 4; 5; 6; 7; 8]%nat [9; 10; 11]%nat 1 e3_actor [[2; 9; 8]; [8; 2; 8]; [8; 9; 2]] (fun _ => vb_init [0; 3] [0]) (fun _ => 0) e3_state /\
  off_edge 0 [2; 1; 2] [4; 5; 4] e3_state.
Proof.
  split; [|split; [split; [cbn; repeat constructor; cbn; intuition discriminate|intros b Hb; cbn; lia]|split; [|split; [cbn; tauto|split; [|split; [|intros c P _ _; reflexivity]]]]]].
  - destruct PropsNS.setting3_instance as [_ _ _ _ _ Q1 Q2 _]. split; try lia; auto; [unfold KernelList.grid3; lia|repeat constructor; lia|intros r a i Hr Ha Hi; reflexivity].
  - assert (F : flow3_ok 0 [0; 1; 2]%nat [6; 7; 8]%nat [12; 13; 14]%nat [9; 10; 11]%nat PropsNS.e3_step).
    { destruct PropsNS.step3_instance as (X & _). destruct X as (X1 & X2 & X3 & X4). unfold flow3_ok, ns3_shapes. cbn [n3_frc PropsNS.e3_step] in *. repeat split; try apply X1; try apply X2; try apply X3; try apply X4; auto. }
    assert (P0 : pose_ok [2; 1; 2] [4; 5; 4] 1 0 3 (a_body (e3_actor 0)) e3_pose).
    { split; [repeat constructor; qle|reflexivity|repeat constructor; vm_compute; intuition discriminate|vm_compute; reflexivity|].
      split; [repeat constructor; cbn; lia|split; [split; [repeat constructor; cbn; tauto|intros s; cbn; lia]|reflexivity]]. }
    unfold e3_events. repeat (constructor; [cbn [event_ok fst]; auto; try (split; [lia|split; [auto|intros H; (discriminate H || reflexivity)]]); lia|]). constructor.
  - cbn [e3_events moves_ok moves_change_counts e3_pose p_address]. repeat split; auto.
  - split; try reflexivity; try (split; reflexivity).
    + intros b Hb. (split; [|reflexivity]); (split; [|split; [intros; apply LagProofs.count_eq|split; intros ? ? ? ? _ _ _; reflexivity]]);
        (split; [repeat constructor; cbn; lia|split; [split; [repeat constructor; cbn; tauto|intros s; cbn; lia]|reflexivity]]).
    + intros b Hb. repeat constructor; intros r K _ _; reflexivity.
    + intros b Hb Hl. discriminate Hl.
Qed.

(** C52.  The exchange is needed: in a legal setting, a body without auto_ghosting, called when the ghosts are stale, gets a force
    that differs from the serial one. *)
Theorem C52_stale_ghosts_refuted :
  exists (actors : nat -> actor Z) (es : list (event Z (@ns2_step Z))) ss (m : mem Z) st,
  ns2_setting 2 1 4 5 2 2 0%nat PropsNS.e_xg (fun _ i => i) 0 1 2 3 4 5 6 7 8 PropsNS.e_cx PropsNS.e_cy /\
  actors_ok [2; 1] 2 1 actors [0; 1; 2; 3; 4; 5; 6; 7; 8]%nat /\ Forall (event_ok [2; 1] [4; 5] 1 actors 1 0 (flow2_ok 0 0 2 3 4 5)) es /\ moves_ok 2 (cs_map st) es /\
  tracks 0 [2; 1] [4; 5] 2 [0; 1; 2; 3]%nat [4; 5]%nat 1 actors [[2; 9]; [8; 2]] ss m st /\ off_edge 0 [2; 1] [4; 5] st /\
  forall e, segs_end 2 (coupled_segs Z.add Z.sub Z.mul 0 (fun x => x) (fold_right Z.add 0) 1 0 [2; 1] [4; 5] 2 [2; 3]%nat [4; 5]%nat actors
      (exch_2d 2 1 4 5 2 false [2; 3]%nat) (spread_2 Z.add Z.mul (fun _ => 0) 1 0 2 1 4 5 2 [4; 5]%nat)
      (time_step_2d Z.add 0 (fun _ _ v => v) (fun v => v) 2 1 4 5 2 false 0 2 PropsNS.e_xg 0 1 2 3 4 5 6 7 8 PropsNS.e_cx PropsNS.e_cy) ss es) m e ->
    e (a_master (actors 0%nat), (gfo (a_arrays (actors 0%nat)), 0)) <>
    fo (cs_st (serial_coupled Z.add Z.sub Z.mul 0 (fun x => x) (fold_right Z.add 0) 1 0 [2; 3]%nat
      (fun frc u s => serial_ns_2d Z.add 0 (fun _ _ v => v) (fun _ i => i) 2 (fun v => v) PropsNS.e_cx PropsNS.e_cy (global_size [2; 1] [4; 5]) 0 1 2 3 4 5 u (with_forcing2 [4; 5]%nat frc s))
      (fun b => a_body (actors b)) (fun _ _ j => j) st es) 0%nat) 0 0.
Proof.
  exists GhostRefute.st_actor, GhostRefute.st_events, GhostRefute.st_maps, GhostRefute.st_mem, GhostRefute.st_state.
  split; [exact PropsNS.setting_instance|]. destruct GhostRefute.stale_legal as (H1 & H2 & H3 & H4 & H5). repeat (split; [assumption|]). exact GhostRefute.stale_run.
Qed.

Print Assumptions C49_coupled_every_history_2d.
Print Assumptions C49_coupled_2d.
Print Assumptions C49_decomposition_independent_2d.
Print Assumptions C52_options_independent_2d.
Print Assumptions C49_coupled_every_history_3d.
Print Assumptions C49_coupled_3d.
Print Assumptions C49_decomposition_independent_3d.
Print Assumptions C52_options_independent_3d.
Print Assumptions C52_stale_ghosts_refuted.
