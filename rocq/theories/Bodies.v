(** Model of several immersed bodies acting on one Eulerian forcing field
    (sopht_mpi/simulator/immersed_body/immersed_body_flow_interaction_mpi.py and
    VirtualBoundaryForcingMPI.py), 2D and 3D.

    Simplifications: the flow velocity at the nodes is an input (C30); a node's
    position enters the weights as an exact rational (the copy of the positions
    scattered to the ranks is modelled in [interact]); the ghost exchange of the
    velocity is modelled separately (ghosted_interp2/3 in EulLag.v). *)
From Coq Require Import QArith.
From Verif Require Import Base SpecGrid SpecGhostSum SpecLag SpecIB SpecVbf Comm Blocking Lagrangian EulLag Vbf.
Open Scope Z_scope.

(** One interactor: its arrays, mapping state, coefficients, kernel width,
    ghost-sum buffers, whether it resets the forcing
    (enable_eul_grid_forcing_reset), and the data of one call: node positions,
    their new mapping, body and flow velocity. *)
Record interactor (T : Type) := {
  i_arrays : arrays; i_state : vb; i_stiff : T; i_damp : T; i_master : Z; i_width : Z; i_bufs : list nat; i_reset : bool;
  i_weight : list Q -> T;
  c_nodes : list (list Q); c_address : list Z; c_order : list Z;
  c_pos : Z -> Z -> T; c_body : Z -> Z -> T; c_flow : Z -> Z -> T }.
Arguments i_arrays {T}. Arguments i_state {T}. Arguments i_stiff {T}. Arguments i_damp {T}. Arguments i_master {T}. Arguments i_width {T}. Arguments i_bufs {T}.
Arguments i_reset {T}. Arguments i_weight {T}. Arguments c_nodes {T}. Arguments c_address {T}. Arguments c_order {T}. Arguments c_pos {T}. Arguments c_body {T}. Arguments c_flow {T}.

Section B.
Context {T : Type}.
Variables (add sub mul : T -> T -> T) (z : T) (times0 : T -> T).

(** set_eul_grid_vector_field(vector_field=forcing, fixed_vals=[0]*grid_dim)
    on the whole (ghosted) local array.  VirtualBoundaryForcingMPI.py:440-443 *)
Definition reset_forcing (comps : list nat) (sizes : list Z) (m : @lmem T) : @lmem T :=
  fold_left (fun m f => fill f (zprod sizes) (fun _ _ => z) m) comps m.

(** compute_interaction_force_on_lag_grid for the call's data. *)
Definition lag_part (n nc : Z) (b : interactor T) : Z -> list (@bop T) :=
  interact add sub mul z (i_stiff b) (i_damp b) n nc (i_master b) (i_arrays b) (i_state b) (c_address b) (c_order b) (c_pos b) (c_body b) (c_flow b).

(** compute_interaction_forcing, VirtualBoundaryForcingMPI.py:408-450. *)
Definition full_interaction2 (py px ny nx g : Z) (dx shift : Q) (comps : list nat) (b : interactor T) (r : Z) : list (@bop T) :=
  (if i_reset b then [BLocal (reset_forcing comps (ghosted g [ny; nx]))] else []) ++
  lag_part (py * px) (Z.of_nat (length comps)) b r ++
  spread2 (q_cell dx shift) (q_dist dx shift) (i_weight b) mul add times0 false py px ny nx g (i_width b) comps
    (lfo (i_arrays b)) (nth 0 (i_bufs b) 0%nat) (nth 1 (i_bufs b) 0%nat) (local_positions (c_nodes b) (c_address b)) r.
Definition full_interaction3 (pz py px n0 n1 n2 g : Z) (dx shift : Q) (comps : list nat) (b : interactor T) (r : Z) : list (@bop T) :=
  (if i_reset b then [BLocal (reset_forcing comps (ghosted g [n0; n1; n2]))] else []) ++
  lag_part (pz * py * px) (Z.of_nat (length comps)) b r ++
  spread3 (q_cell dx shift) (q_dist dx shift) (i_weight b) mul add times0 false pz py px n0 n1 n2 g (i_width b) comps
    (lfo (i_arrays b)) (nth 0 (i_bufs b) 0%nat) (nth 1 (i_bufs b) 0%nat) (nth 2 (i_bufs b) 0%nat) (local_positions (c_nodes b) (c_address b)) r.

(** The user calls the interactors one after the other. *)
Fixpoint all_interactions (prog : interactor T -> Z -> list (@bop T)) (bodies : list (interactor T)) (r : Z) : list (@bop T) :=
  match bodies with [] => [] | b :: bs => prog b r ++ all_interactions prog bs r end.
End B.
