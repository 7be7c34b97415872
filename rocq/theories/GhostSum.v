(** Model of MPIGhostSumCommunicator2D (EulerianLagrangianGridCommunicatorMPI2D.py:521-652) and
    MPIGhostSumCommunicator3D (EulerianLagrangianGridCommunicatorMPI3D.py:592-792). *)
From Verif Require Import Base SpecGrid Cart Comm Blocking Spmd Ghost2D Ghost3D Stencil.

(** MPI [Create_contiguous(count)]: element displacements. *)
Definition mpi_contiguous (count : Z) : list Z := zrange 0 count.

Section GhostSum.
Context {T : Type}.
(** Addition of array elements, and x |-> x * 0. *)
Variables (add : T -> T -> T) (times0 : T -> T).

(** f[view] += buf, where the buffer has the extents of the view. *)
Definition add_buffer (sizes : list Z) (f : nat) (v : list pslice) (buf : nat) : list (@lop T) :=
  map (fun I => {| la := (f, ravel sizes I);
                   lf := fun m => add (m (f, ravel sizes I)) (m (buf, ravel (view_lens sizes v) (vadd I (vneg (view_starts sizes v))))) |})
      (view_cells sizes v).
(** f[view] *= 0 *)
Definition clear (sizes : list Z) (f : nat) (v : list pslice) : list (@lop T) :=
  map (fun I => {| la := (f, ravel sizes I); lf := fun m => times0 (m (f, ravel sizes I)) |}) (view_cells sizes v).
(** All elements of an array, as the receive buffer of a message. *)
Definition whole (f : nat) (sizes : list Z) : list addr := map (fun k => (f, k)) (zrange 0 (zprod sizes)).

Section D2.
Variables (per : bool) (py px ny nx g : Z) (f rb cb : nat).
(** EulerianLagrangianGridCommunicatorMPI2D.py:540, 556-561: field size, receive buffers. *)
Let s0 := ny + 2 * g.
Let s1 := nx + 2 * g.
Let sizes := [s0; s1].
Let row_sizes := [g; s1].
Let col_sizes := [s0; g].
(** EulerianLagrangianGridCommunicatorMPI2D.py:543-554 *)
Definition gs_row_type : list Z := mpi_contiguous (g * s1).
Definition gs_column_type : list Z := mpi_vector s0 g s1.
Definition gs_next (r : Z) (a : nat) := next_grid_along per [py; px] r a.
Definition gs_prev (r : Z) (a : nat) := previous_grid_along per [py; px] r a.
(** Address of the first element of f.ravel()[k:]. *)
Definition from_offset (k : Z) (ty : list Z) : list addr := map (fun o => (f, py_start (s0 * s1) k + o)) ty.
(** f[k:, :] starts at element k' * s1, where k' is the normalised k. *)
Definition from_row (k : Z) (ty : list Z) : list addr := map (fun o => (f, py_start s0 k * s1 + o)) ty.

(** clear_ghost_cells, EulerianLagrangianGridCommunicatorMPI2D.py:648-652 *)
Definition clear_ghost_cells2 : list (@lop T) :=
  clear sizes f [STo g; SAll] ++ clear sizes f [SFrom (- g); SAll] ++ clear sizes f [SAll; STo g] ++ clear sizes f [SAll; SFrom (- g)].

(** ghost_sum, EulerianLagrangianGridCommunicatorMPI2D.py:563-646 *)
Definition ghost_sum2 (r : Z) : list (@bop T) :=
  [ (* 575-591: along Y, to next *)
    BSend (gs_next r 0) (from_row (- g) gs_row_type);
    BRecv (gs_prev r 0) (whole rb row_sizes);
    BLocal (run_lops (add_buffer sizes f [SBetween g (2 * g); SAll] rb ++ clear row_sizes rb [SAll; SAll]));
    (* 593-609: along X, to next *)
    BSend (gs_next r 1) (from_offset (s1 - g) gs_column_type);
    BRecv (gs_prev r 1) (whole cb col_sizes);
    BLocal (run_lops (add_buffer sizes f [SAll; SBetween g (2 * g)] cb ++ clear col_sizes cb [SAll; SAll]));
    (* 611-626: along Y, to previous *)
    BSend (gs_prev r 0) (from_row 0 gs_row_type);
    BRecv (gs_next r 0) (whole rb row_sizes);
    BLocal (run_lops (add_buffer sizes f [SBetween (-2 * g) (- g); SAll] rb ++ clear row_sizes rb [SAll; SAll]));
    (* 628-643: along X, to previous *)
    BSend (gs_prev r 1) (from_offset 0 gs_column_type);
    BRecv (gs_next r 1) (whole cb col_sizes);
    BLocal (run_lops (add_buffer sizes f [SAll; SBetween (-2 * g) (- g)] cb ++ clear col_sizes cb [SAll; SAll]));
    (* 645-646 *)
    BLocal (run_lops clear_ghost_cells2) ].
End D2.

Section D3.
Variables (per : bool) (pz py px n0 n1 n2 g : Z) (f bz by_ bx : nat).
Let s0 := n0 + 2 * g.
Let s1 := n1 + 2 * g.
Let s2 := n2 + 2 * g.
Let sizes := [s0; s1; s2].
(** EulerianLagrangianGridCommunicatorMPI3D.py:612, 663-675: receive buffers. *)
Let x_sizes := [s0; s1; g].
Let y_sizes := [s0; g; s2].
Let z_sizes := [g; s1; s2].
(** EulerianLagrangianGridCommunicatorMPI3D.py:620-661 *)
Definition send_next_along_x : list Z := mpi_subarray sizes x_sizes [0; 0; s2 - g].
Definition send_previous_along_x : list Z := mpi_subarray sizes x_sizes [0; 0; 0].
Definition send_next_along_y : list Z := mpi_subarray sizes y_sizes [0; s1 - g; 0].
Definition send_previous_along_y : list Z := mpi_subarray sizes y_sizes [0; 0; 0].
Definition send_next_along_z : list Z := mpi_subarray sizes z_sizes [s0 - g; 0; 0].
Definition send_previous_along_z : list Z := mpi_subarray sizes z_sizes [0; 0; 0].
Definition gs_next3 (r : Z) (a : nat) := next_grid_along per [pz; py; px] r a.
Definition gs_prev3 (r : Z) (a : nat) := previous_grid_along per [pz; py; px] r a.

(** clear_ghost_cells, EulerianLagrangianGridCommunicatorMPI3D.py:786-792 *)
Definition clear_ghost_cells3 : list (@lop T) :=
  clear sizes f [STo g; SAll; SAll] ++ clear sizes f [SFrom (- g); SAll; SAll] ++
  clear sizes f [SAll; STo g; SAll] ++ clear sizes f [SAll; SFrom (- g); SAll] ++
  clear sizes f [SAll; SAll; STo g] ++ clear sizes f [SAll; SAll; SFrom (- g)].

(** ghost_sum, EulerianLagrangianGridCommunicatorMPI3D.py:677-784 *)
Definition ghost_sum3 (r : Z) : list (@bop T) :=
  [ BSend (gs_next3 r 0) (buf3 f send_next_along_z);
    BRecv (gs_prev3 r 0) (whole bz z_sizes);
    BLocal (run_lops (add_buffer sizes f [SBetween g (2 * g); SAll; SAll] bz ++ clear z_sizes bz [SAll; SAll; SAll]));
    BSend (gs_next3 r 1) (buf3 f send_next_along_y);
    BRecv (gs_prev3 r 1) (whole by_ y_sizes);
    BLocal (run_lops (add_buffer sizes f [SAll; SBetween g (2 * g); SAll] by_ ++ clear y_sizes by_ [SAll; SAll; SAll]));
    BSend (gs_next3 r 2) (buf3 f send_next_along_x);
    BRecv (gs_prev3 r 2) (whole bx x_sizes);
    BLocal (run_lops (add_buffer sizes f [SAll; SAll; SBetween g (2 * g)] bx ++ clear x_sizes bx [SAll; SAll; SAll]));
    BSend (gs_prev3 r 0) (buf3 f send_previous_along_z);
    BRecv (gs_next3 r 0) (whole bz z_sizes);
    BLocal (run_lops (add_buffer sizes f [SBetween (-2 * g) (- g); SAll; SAll] bz ++ clear z_sizes bz [SAll; SAll; SAll]));
    BSend (gs_prev3 r 1) (buf3 f send_previous_along_y);
    BRecv (gs_next3 r 1) (whole by_ y_sizes);
    BLocal (run_lops (add_buffer sizes f [SAll; SBetween (-2 * g) (- g); SAll] by_ ++ clear y_sizes by_ [SAll; SAll; SAll]));
    BSend (gs_prev3 r 2) (buf3 f send_previous_along_x);
    BRecv (gs_next3 r 2) (whole bx x_sizes);
    BLocal (run_lops (add_buffer sizes f [SAll; SAll; SBetween (-2 * g) (- g)] bx ++ clear x_sizes bx [SAll; SAll; SAll]));
    BLocal (run_lops clear_ghost_cells3) ].
End D3.
End GhostSum.
