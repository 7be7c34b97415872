(** Model of MPIGhostCommunicator2D (sopht_mpi/utils/mpi_utils_2d.py:87-420). *)
From Verif Require Import Base SpecGrid Cart Comm.

(** numpy basic slicing [a.ravel()[k:]] on an array of len elements: the
    normalised start index (negative k counts from the end, clipped). *)
Definition py_start (len k : Z) : Z := if k <? 0 then Z.max 0 (len + k) else Z.min k len.

(** MPI [Create_vector(count, blocklength, stride)]: element displacements. *)
Definition mpi_vector (count blocklength stride : Z) : list Z :=
  flat_map (fun i => map (fun j => i * stride + j) (zrange 0 blocklength)) (zrange 0 count).

Section Ghost2D.
(** mpi_construct: periodic flag, topology (ranks along y, x), local size; ghost size.
    MPIGhostCommunicator2D.__init__, mpi_utils_2d.py:119-141. *)
Variables (per : bool) (py px : Z) (ny nx : Z) (g : Z).

(** Shape of a ghosted local field (fields are allocated with local_grid_size + 2*ghost_size). *)
Definition shape0 : Z := ny + 2 * g.
Definition shape1 : Z := nx + 2 * g.

(** init_datatypes, mpi_utils_2d.py:152-175. *)
Definition row_type : list Z := mpi_vector g nx (nx + 2 * g).
Definition column_type : list Z := mpi_vector ny g (nx + 2 * g).
Definition corner_type : list Z := mpi_vector g g (nx + 2 * g).

(** Buffer specification (local_field.ravel()[k:], 1, datatype) for field f. *)
Definition buf2 (f : nat) (k : Z) (ty : list Z) : list addr :=
  map (fun o => (f, py_start (shape0 * shape1) k + o)) ty.

(** ghost_rows_offset, mpi_utils_2d.py:198 and 296. *)
Definition ghost_rows_offset : Z := g * shape1.

Definition topo2 : list Z := [py; px].
Definition y_axis2 : nat := 0.
Definition x_axis2 : nat := 1.
Definition prev2 (r : Z) (dim : nat) := previous_grid_along per topo2 r dim.
Definition next2 (r : Z) (dim : nat) := next_grid_along per topo2 r dim.
Definition diag2 (r : Z) (sh : list Z) := diagonal_rank per topo2 r sh.

(** exchange_scalar_field_edges_init, mpi_utils_2d.py:191-290. *)
Definition edges_init2 (r : Z) (f : nat) : list op :=
  let gro := ghost_rows_offset in
  [ (* 200-220: along Y, send to previous, receive from next *)
    ISend (prev2 r y_axis2) (buf2 f (gro + g) row_type);
    IRecv (next2 r y_axis2) (buf2 f (- gro + g) row_type);
    (* 222-242: along Y, send to next, receive from previous *)
    ISend (next2 r y_axis2) (buf2 f (-2 * gro + g) row_type);
    IRecv (prev2 r y_axis2) (buf2 f g row_type);
    (* 244-266: along X, send to previous, receive from next *)
    ISend (prev2 r x_axis2) (buf2 f (gro + g) column_type);
    IRecv (next2 r x_axis2) (buf2 f (gro + shape1 - g) column_type);
    (* 268-290: along X, send to next, receive from previous *)
    ISend (next2 r x_axis2) (buf2 f (gro + shape1 - 2 * g) column_type);
    IRecv (prev2 r x_axis2) (buf2 f gro column_type) ].

(** exchange_scalar_field_vertices_init, mpi_utils_2d.py:292-397. *)
Definition vertices_init2 (r : Z) (f : nat) : list op :=
  let gro := ghost_rows_offset in
  [ (* 298-323 *)
    ISend (diag2 r [-1; -1]) (buf2 f (gro + g) corner_type);
    IRecv (diag2 r [1; 1]) (buf2 f (- (g - 1) * shape1 - g) corner_type);
    (* 324-349 *)
    ISend (diag2 r [1; 1]) (buf2 f (- (2 * g - 1) * shape1 - 2 * g) corner_type);
    IRecv (diag2 r [-1; -1]) (buf2 f 0 corner_type);
    (* 350-374 *)
    ISend (diag2 r [-1; 1]) (buf2 f (gro + shape1 - 2 * g) corner_type);
    IRecv (diag2 r [1; -1]) (buf2 f (- gro) corner_type);
    (* 375-397 *)
    ISend (diag2 r [1; -1]) (buf2 f (-2 * gro + g) corner_type);
    IRecv (diag2 r [-1; 1]) (buf2 f (shape1 - g) corner_type) ].

(** exchange_scalar_field_full_init, mpi_utils_2d.py:399-404, and the choice
    made in __init__ (mpi_utils_2d.py:138-141). *)
Definition exchange_scalar_field_init2 (full_exchange : bool) (r : Z) (f : nat) : list op :=
  if full_exchange then edges_init2 r f ++ vertices_init2 r f else edges_init2 r f.

(** Operations pending when exchange_finalise (mpi_utils_2d.py:414-420) is
    called after exchange_scalar_field_init on the fields F, in order.
    exchange_vector_field_init (406-412) is the two-field case: x, then y. *)
Definition exchange2 (full_exchange : bool) (F : list nat) (r : Z) : list op :=
  flat_map (exchange_scalar_field_init2 full_exchange r) F.

Definition exchange_vector2 (full_exchange : bool) (fx fy : nat) (r : Z) : list op :=
  exchange_scalar_field_init2 full_exchange r fx ++ exchange_scalar_field_init2 full_exchange r fy.
End Ghost2D.
