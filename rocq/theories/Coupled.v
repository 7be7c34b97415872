(** Model of a simulation coupling a flow simulator with immersed bodies: the loop of the examples
    (examples/*: interactor.time_step(dt); interactor(); flow_sim.time_step(dt)),
    sopht_mpi/simulator/immersed_body/immersed_body_flow_interaction_mpi.py:103-176 and VirtualBoundaryForcingMPI.py:333-460,
    with both values of auto_ghosting and assume_data_locality.

    Simplifications: the flow simulator's step and the ghost exchange are programs of the machine with nonblocking
    messages (Spmd.v), the Lagrangian part and the ghost sums programs of the machine with blocking messages
    (Blocking.v); they are composed one after the other, each ending on all ranks before the next begins.  A node's
    position enters the weights as an exact rational.  The body's own motion is an input (the pose at each call); the
    transfer of the gathered forces to the body and the body's motion under them are in Loop.v. *)
From Coq Require Import QArith.
From Verif Require Import Base SpecGrid SpecLag SpecIB SpecVbf SpecNS SpecBlocking SpecCoupled Comm Blocking Spmd Ghost2D Ghost3D Lagrangian EulLag Vbf Bodies.
From Verif Require NavierStokes.
Open Scope Z_scope.

(** One part of a run: all ranks run nonblocking phases, or blocking programs. *)
Section Seg.
Context {T : Type}.
Inductive segment := SSpmd (ps : list (@phase T)) | SBlk (prog : Z -> list (@bop T)).
Definition by_rank (m : mem T) : Z -> @lmem T := fun r a => m (r, a).
Definition at_place (m : Z -> @lmem T) : mem T := fun l => m (fst l) (snd l).
(** [segs_end n l m m']: the parts run one after the other, each, under every schedule, ends with the next memory. *)
Inductive segs_end (n : Z) : list segment -> mem T -> mem T -> Prop :=
| se_nil m : segs_end n [] m m
| se_spmd ps l m m1 m2 : spmd_ends n ps m m1 -> segs_end n l m1 m2 -> segs_end n (SSpmd ps :: l) m m2
| se_blk prog l m m1 m2 : runs_to n prog (by_rank m) m1 -> segs_end n l (at_place m1) m2 -> segs_end n (SBlk prog :: l) m m2.
End Seg.

(** An interactor: its arrays, master rank, ghost-sum buffers, the body, and the options assume_data_locality and auto_ghosting. *)
Record actor (T : Type) := { a_arrays : arrays; a_master : Z; a_bufs : list nat; a_body : vbody T; a_local : bool; a_auto : bool }.
Arguments a_arrays {T}. Arguments a_master {T}. Arguments a_bufs {T}. Arguments a_body {T}. Arguments a_local {T}. Arguments a_auto {T}.
Definition actor_ids {T} (a : actor T) : list nat := all_arrays (a_arrays a) ++ a_bufs a.

Section C.
Context {T F : Type}.
Variables (add sub mul : T -> T -> T) (z : T) (scale : T -> T) (sum : list T -> T) (dx shift : Q).
Variables (dims loc : list Z) (g : Z) (vels fs : list nat) (actors : nat -> actor T).
Variable exch : list (place * place).                                   (* the ghost exchange of the velocity *)
Variable spread : actor T -> pose T -> Z -> list (@bop T).              (* spread2 / spread3 *)
Variable flow : F -> list (@phase T).                                   (* the flow simulator's time_step *)

(** Support, weights and interpolation of the velocity at the rank's local nodes.  VirtualBoundaryForcingMPI.py:361-380 *)
Definition interpolate (a : actor T) (p : pose T) (r : Z) : @lmem T -> @lmem T :=
  run_lops (e2l_lops (q_cell dx shift) (q_dist dx shift) (v_weight (a_body a)) scale sum mul dims loc g (v_width (a_body a)) r vels (lflow (a_arrays a))
    (local_positions (p_nodes p) (p_address p) r)).
(** compute_interaction_force_on_lag_grid, 333-406 *)
Definition lag_force (a : actor T) (s : vb) (p : pose T) : Z -> list (@bop T) :=
  if a_local a then
    interact_local add sub mul (v_stiff (a_body a)) (v_damp (a_body a)) (Z.of_nat (length fs)) (a_master a) (a_arrays a) (v_count (a_body a)) (p_pos p) (p_vel p) (interpolate a p)
  else interact_with add sub mul z (v_stiff (a_body a)) (v_damp (a_body a)) (zprod dims) (Z.of_nat (length fs)) (a_master a) (a_arrays a) s
    (p_address p) (p_order p) (p_pos p) (p_vel p) (interpolate a p).
(** compute_interaction_forcing, 408-450 *)
Definition full_force (a : actor T) (s : vb) (p : pose T) (r : Z) : list (@bop T) :=
  (if v_reset (a_body a) then [BLocal (reset_forcing z fs (ghosted g loc))] else []) ++ lag_force a s p r ++ spread a p r.

(** _ghost_velocity_field_for_interaction, only with auto_ghosting.  immersed_body_flow_interaction_mpi.py:103-135 *)
Definition ghosting (a : actor T) : list (@segment T) := if a_auto a then [SSpmd [PExch exch (fun _ => [])]] else [].
(** immersed_body_flow_interaction_mpi.py:128-176; time_step of the interactor and of the flow; a ghost exchange of the velocity by the user *)
Definition event_segs (ss : nat -> vb) (e : event T F) : list (@segment T) :=
  match e with
  | EFull b p => ghosting (actors b) ++ [SBlk (full_force (actors b) (ss b) p)]
  | ELag b p => ghosting (actors b) ++ [SBlk (lag_force (actors b) (ss b) p)]
  | EAdvance b dt => [SBlk (advance add mul (Z.of_nat (length fs)) (a_arrays (actors b)) (ss b) dt)]
  | EFlow s => [SSpmd (flow s)]
  | EGhost => [SSpmd [PExch exch (fun _ => [])]]
  end.
(** The interactors' mapping state (with assume_data_locality, where every node is always on the master, it never changes). *)
Definition event_maps (ss : nat -> vb) (e : event T F) : nat -> vb :=
  match e with
  | EFull b p | ELag b p => set_at ss b (remapped (zprod dims) (ss b) (p_address p) (p_order p))
  | _ => ss
  end.
Fixpoint coupled_segs (ss : nat -> vb) (es : list (event T F)) : list (@segment T) :=
  match es with [] => [] | e :: es' => event_segs ss e ++ coupled_segs (event_maps ss e) es' end.
Definition final_maps (ss : nat -> vb) (es : list (event T F)) : nat -> vb := fold_left event_maps es ss.
End C.

(** The interactors' parts in 2D and 3D.  The communicator is the flow simulator's, so [full] is its full_exchange flag. *)
Section D.
Context {T : Type}.
Variables (add mul : T -> T -> T) (times0 : T -> T) (dx shift : Q).
Definition exch_2d (py px ny nx g : Z) (full : bool) (vels : list nat) := all_copies (zprod [py; px]) (exchange2 false py px ny nx g full vels).
Definition exch_3d (pz py px n0 n1 n2 g : Z) (full : bool) (vels : list nat) := all_copies (zprod [pz; py; px]) (exchange3 false pz py px n0 n1 n2 g full vels).
Definition spread_2 (py px ny nx g : Z) (fs : list nat) (a : actor T) (p : pose T) : Z -> list (@bop T) :=
  spread2 (q_cell dx shift) (q_dist dx shift) (v_weight (a_body a)) mul add times0 false py px ny nx g (v_width (a_body a)) fs
    (lfo (a_arrays a)) (nth 0 (a_bufs a) 0%nat) (nth 1 (a_bufs a) 0%nat) (local_positions (p_nodes p) (p_address p)).
Definition spread_3 (pz py px n0 n1 n2 g : Z) (fs : list nat) (a : actor T) (p : pose T) : Z -> list (@bop T) :=
  spread3 (q_cell dx shift) (q_dist dx shift) (v_weight (a_body a)) mul add times0 false pz py px n0 n1 n2 g (v_width (a_body a)) fs
    (lfo (a_arrays a)) (nth 0 (a_bufs a) 0%nat) (nth 1 (a_bufs a) 0%nat) (nth 2 (a_bufs a) 0%nat) (local_positions (p_nodes p) (p_address p)).
End D.
