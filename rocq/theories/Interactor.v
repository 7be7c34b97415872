(** Model of the construction of interactors: CosseratRodFlowInteraction / RigidBodyFlowInteractionMPI.__init__
    (sopht_mpi/simulator/immersed_body/cosserat_rod/cosserat_rod_flow_interaction_mpi.py:12-66,
    rigid_body/rigid_body_flow_interaction_mpi.py:12-62), ImmersedBodyFlowInteractionMPI.__init__
    (immersed_body_flow_interaction_mpi.py:19-126), VirtualBoundaryForcingMPI.__init__ and its buffers
    (sopht_mpi/numeric/immersed_boundary_ops/VirtualBoundaryForcingMPI.py:32-236), EulerianLagrangianGridCommunicatorMPI2D/3D
    and MPIGhostSumCommunicator2D/3D.__init__ (the ghost-sum buffers: EulerianLagrangianGridCommunicatorMPI2D.py:556-561,
    3D: the same for three buffers).

    Simplifications: grid_dim is the dimension of the MPI construct, or not 2 or 3 at all; the forcing grid (sopht) is its
    nodes and its largest spacing; types of the numbers are not modelled; logged text is an [advice]. *)
From Coq Require Import QArith.
From Verif Require Import Base SpecGrid SpecVbf SpecCoupled SpecInteractor Comm Blocking Spmd Lagrangian Vbf Coupled.
Open Scope Z_scope.

Section R.
Context {T : Type}.
Variables (mul : T -> T -> T) (pow : T -> Z -> T) (lt : T -> T -> bool) (two_dx half_dx : T).
Variables (dims loc : list Z) (dx shift : Q) (g : Z).

(** The forcing grid of a rank: the body's on the master, EmptyForcingGrid elsewhere.
    cosserat_rod_flow_interaction_mpi.py:43-51, immersed_body_forcing_grid.py:4-26 *)
Inductive forcing_grid := BodyGrid (nodes : list (list Q)) (h : T) | EmptyForcingGrid.
Definition grid_of (q : request T) (r : Z) : forcing_grid := if r =? g_master q then BodyGrid (g_nodes q) (g_spacing q) else EmptyForcingGrid.
Definition get_maximum_lagrangian_grid_spacing (f : forcing_grid) : option T := match f with BodyGrid _ h => Some h | EmptyForcingGrid => None end.
Definition position_field (f : forcing_grid) : list (list Q) := match f with BodyGrid l _ => l | EmptyForcingGrid => [] end.

(** comm.bcast(v, root): every rank gets the root's object; all ranks fail if there is no such rank. *)
Definition bcast {A} (v : Z -> A) (root : Z) : option A := if (0 <=? root) && (root <? zprod dims) then Some (v root) else None.

(** How a constructor ends on a rank: with an object, an exception, the whole job aborted, or waiting for ever in a broadcast
    that its root has left. *)
Inductive ended {A : Type} := Ready (x : A) | RaisesValueError | RaisesTypeError | RaisesIndexError | RaisesMPIError | JobAborted | Waits.
Arguments ended : clear implicits.
(** What the constructor leaves on a rank: rescaled coefficients, width, number of nodes here and in total, where the nodes are,
    options, and what was logged. *)
Record made := { k_stiff : T; k_damp : T; k_width : Z; k_num : Z; k_total : Z; k_address : list Z; k_reset : bool; k_local : bool; k_auto : bool; k_log : list advice }.

(** VirtualBoundaryForcingMPI.__init__, 79-199, on rank r; [log] from before *)
Definition vbf_init (q : request T) (stiff damp : T) (log : list advice) (r : Z) : ended made :=
  if negb (g_dim q =? 2) && negb (g_dim q =? 3) then RaisesValueError
  else
    let w := match g_width q with Some w => w | None => 2 end in
    if g <? w then RaisesValueError
    else
      let log' := log ++ (if g_auto q then [] else [GhostYourself]) in
      let here := position_field (grid_of q r) in
      if g_local q then
        Ready {| k_stiff := stiff; k_damp := damp; k_width := w; k_num := Z.of_nat (length here); k_total := Z.of_nat (length here);
                 k_address := []; k_reset := g_reset q; k_local := true; k_auto := g_auto q; k_log := log' |}
      else
        (* map_lagrangian_nodes_based_on_position: the master computes, then bcast *)
        match map_nodes false dims loc dx shift (g_dim q) (position_field (grid_of q (g_master q))) with
        | Aborted => JobAborted
        | IndexError => if r =? g_master q then RaisesIndexError else Waits
        | Mapped a =>
            Ready {| k_stiff := stiff; k_damp := damp; k_width := w; k_num := local_num_lag_nodes a r; k_total := Z.of_nat (length a);
                     k_address := a; k_reset := g_reset q; k_local := false; k_auto := g_auto q; k_log := log' |}
        end.
(** ImmersedBodyFlowInteractionMPI.__init__, 36-126 *)
Definition interactor_init (q : request T) (r : Z) : ended made :=
  match bcast (fun r => get_maximum_lagrangian_grid_spacing (grid_of q r)) (g_master q) with
  | None => RaisesMPIError
  | Some None => RaisesTypeError                                    (* None > 2 * dx *)
  | Some (Some h) =>
      let log := if lt two_dx h then [TooCoarse] else if lt h half_dx then [TooFine] else [SameResolution] in
      vbf_init q (mul (g_stiff q) (pow h (g_dim q - 1))) (mul (g_damp q) (pow h (g_dim q - 1))) log r
  end.

(** *** The interactors of a script, constructed one after the other *)
(** The arrays of interactor b: new ones ([base]: first number not in use before). *)
Definition arrays_from (i : nat) : arrays := {| gpm := i; gvm := 1 + i; gfo := 2 + i; gpos := 3 + i; gvel := 4 + i; lpm := 5 + i; lvm := 6 + i; lfo := 7 + i; lpos := 8 + i; lvel := 9 + i; lflow := 10 + i |}%nat.
Definition bufs_from (i : nat) (dim : Z) : list nat := seq (11 + i) (Z.to_nat dim).
Definition first_array (base b : nat) : nat := (base + 14 * b)%nat.
Variables (qs : nat -> request T) (ord : nat -> list Z -> list Z).   (* the requests; order of the set of slave ranks *)
(** The actor and the mapping state of interactor b, from what the constructor left on the ranks. *)
Definition actor_made (base b : nat) (x : made) : actor T :=
  {| a_arrays := arrays_from (first_array base b); a_master := g_master (qs b); a_bufs := bufs_from (first_array base b) (g_dim (qs b));
     a_body := {| v_stiff := k_stiff x; v_damp := k_damp x; v_width := k_width x; v_weight := g_weight (qs b); v_reset := k_reset x; v_count := k_total x |};
     a_local := k_local x; a_auto := k_auto x |}.
(** With assume_data_locality there is no mapping: all nodes are on the master, for good. *)
Definition state_made (b : nat) (x : Z -> made) : vb :=
  let a := if g_local (qs b) then repeat (g_master (qs b)) (Z.to_nat (k_total (x (g_master (qs b))))) else k_address (x (g_master (qs b))) in
  {| address := a; order := ord b a; num := fun r => k_num (x r) |}.
(** Memory: the buffers made with np.zeros, VirtualBoundaryForcingMPI.py:176-199, 215-236 (the body's position and velocity arrays
    belong to its forcing grid), and the ghost-sum buffers. *)
Definition zeroed_arrays (A : arrays) : list nat := [gpm A; gvm A; gfo A] ++ locals A.
Definition zero_arrays (z : T) (l : list nat) (m : mem T) : mem T := fun p => if existsb (Nat.eqb (fst (snd p))) l then z else m p.
Definition init_memory (z : T) (a : actor T) (m : mem T) : mem T := zero_arrays z (zeroed_arrays (a_arrays a) ++ a_bufs a) m.
Definition init_memories (z : T) (actors : nat -> actor T) (nb : nat) (m : mem T) : mem T := fold_left (fun m b => init_memory z (actors b) m) (seq 0 nb) m.
End R.

(** The simulator's arrays at the start: np.zeros (simulator/flow/flow_simulators_mpi_2d.py:147-165, 3d: the same), then the user sets the inner cells
    of the flow arrays Fs to u0. *)
Section F.
Context {T : Type}.
Variables (z : T) (dims loc : list Z) (g : Z) (Fs fs : list nat) (u0 : nat -> list Z -> T).
Definition start_value (r : Z) (f : nat) (k : Z) (old : T) : T :=
  if existsb (Nat.eqb f) Fs then
    let I := unravel (ghosted g loc) k in
    if forallb (fun il => (g <=? fst il) && (fst il <? g + snd il)) (combine I loc) then u0 f (ghost_pos dims loc g r I) else z
  else if existsb (Nat.eqb f) fs then z else old.
Definition start_memory (m : mem T) : mem T := fun p => start_value (fst p) (fst (snd p)) (snd (snd p)) (m p).
End F.
