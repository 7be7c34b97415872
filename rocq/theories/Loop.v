(** Model of the time loop of a two-way coupled simulation, as in examples/2d_examples/FlowPastRodCase/flow_past_rod.py:210-301
    (and 3d_examples/FlowPastRodCase, FlowPastFreelyRotatingRodCase): each rank has its own copy of every body; a body's
    motion calls compute_flow_forces_and_torques of its interactor, which transfers the gathered forces to the body on the
    master only (immersed_body_flow_interaction_mpi.py:178-185; immersed_body_forcing_grid.py:19-22: elsewhere
    transfer_forcing_from_grid_to_body does nothing and the loads keep their initial zeros,
    cosserat_rod_flow_interaction_mpi.py:36-41); the forcing grid's positions and velocities are those of the master's copy
    (cosserat_rod_flow_interaction_mpi.py:42-51).

    Simplifications: what the script sees of the flow (time step size, diagnostics) is a function of the values of the flow
    arrays on the domain, the same on all ranks (C35: these functions are reductions); the transfer of forces to loads and
    the motion of a body (sopht, PyElastica) are arbitrary functions. *)
From Coq Require Import QArith.
From Verif Require Import Base SpecGrid SpecVbf SpecCoupled SpecLoop Comm Blocking Spmd Lagrangian Vbf Coupled.
Open Scope Z_scope.

Section P.
Context {T F F' B L W : Type}.
Variables (add sub mul : T -> T -> T) (z : T) (scale : T -> T) (sum : list T -> T) (dx shift : Q).
Variables (dims loc : list Z) (g : Z) (vels Fs fs : list nat) (actors : nat -> actor T).
Variable exch : list (place * place).
Variable spread : actor T -> pose T -> Z -> list (@bop T).
Variable flow : F' -> list (@phase T).
Variable rules : nat -> body_rules T B L.
Variables (script : list W -> action T F) (look : list (list T) -> W) (none : L).
Variables (ord : nat -> list Z -> list Z) (lift : list W -> F -> F').   (* order of the set of slave ranks, per body; what a step reads from ghosts in flight (3D curl) *)

(** map_lagrangian_nodes_based_on_position, in update_buffers (VirtualBoundaryForcingMPI.py:250-252). *)
Definition placed (b : nat) (p : pose T) : pose T :=
  match map_nodes false dims loc dx shift (Z.of_nat (length dims)) (p_nodes p) with
  | Mapped a => {| p_nodes := p_nodes p; p_pos := p_pos p; p_vel := p_vel p; p_address := a; p_order := ord b a |}
  | _ => p
  end.
Definition placed_event (h : list W) (e : event T F) : event T F' :=
  match e with EFull b p => EFull b (placed b p) | ELag b p => ELag b (placed b p) | EAdvance b dt => EAdvance b dt | EFlow s => EFlow (lift h s) | EGhost => EGhost end.

(** The flow array f, assembled from the owners' blocks. *)
Definition assembled (m : mem T) (f : nat) (P : list Z) : T :=
  match owner false dims loc P with Some (s, x) => m (s, (f, ravel (ghosted g loc) (map (fun i => i + g) x))) | None => z end.
(** global_lag_grid_forcing_field of body b on rank r. *)
Definition gathered_forces (m : mem T) (r : Z) (b : nat) : list T :=
  listed (Z.of_nat (length fs)) (v_count (a_body (actors b))) (fun c j => m (r, (gfo (a_arrays (actors b)), c * v_count (a_body (actors b)) + j))).

(** Memory, mappings, every rank's copy of every body, what the script has seen. *)
Record pstate := { q_mem : mem T; q_maps : nat -> vb; q_body : Z -> nat -> B; q_seen : list W }.
(** The calls of one step: poses are those of the masters' copies. *)
Definition next_op (x : pstate) : action T F := script (q_seen x).
Definition here (x : pstate) : list (event T F') := map (placed_event (q_seen x)) (call_of rules (next_op x) (fun b => q_body x (a_master (actors b)) b)).
Definition step_segs (x : pstate) : list (@segment T) :=
  coupled_segs add sub mul z scale sum dx shift dims loc g vels fs actors exch spread flow (q_maps x) (here x).
Definition step_to (x : pstate) (m1 : mem T) : pstate :=
  {| q_mem := m1; q_maps := final_maps dims (q_maps x) (here x);
     q_body := fun r => moved rules (next_op x) (fun b => if r =? a_master (actors b) then b_loads (rules b) (q_body x r b) (gathered_forces m1 r b) else none) (q_body x r);
     q_seen := q_seen x ++ [look (whole (global_size dims loc) Fs (assembled m1))] |}.
Inductive loop_ends : nat -> pstate -> pstate -> Prop :=
| le_0 x : loop_ends 0 x x
| le_S k x y m1 : loop_ends k x y -> segs_end (zprod dims) (step_segs y) (q_mem y) m1 -> loop_ends (S k) x (step_to y m1).
(** The calls of the first k steps of the serial loop, as placed on this decomposition. *)
Variable flow_step : (Z -> list Z -> T) -> (nat -> list Z -> T) -> F -> nat -> list Z -> T.
Fixpoint placed_calls (k : nat) (x : lstate T B W) : list (event T F') :=
  match k with
  | O => []
  | S k' =>
      let y := serial_loop (Z.of_nat (length fs)) (global_size dims loc) Fs (fun b => a_body (actors b)) rules script look add sub mul z scale sum dx shift vels flow_step k' x in
      placed_calls k' x ++ map (placed_event (l_seen y)) (call_of rules (script (l_seen y)) (l_body y))
  end.
End P.
