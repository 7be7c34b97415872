(** Model, in double precision, of the two places that decide where a Lagrangian node is:
    - sopht_mpi/utils/mpi_utils_2d.py:594, 617-625 (mpi_utils_3d.py the same per axis): which block along an axis;
    - sopht_mpi/numeric/immersed_boundary_ops/EulerianLagrangianGridCommunicatorMPI2D.py:40-45, 156-158 (3D the same): the nearest grid
      index in the rank's ghosted array, and 217-226 the slice used around it.
    Along one axis: dx the grid spacing, s the coordinate shift, n the rank's number of cells, x the node's coordinate.
    Positions and dx are doubles; no overflow. *)
From Coq Require Import ZArith Reals.
From Flocq Require Import Core.
From Verif Require Import SpecRounding.
Open Scope R_scope.

(** lag_position - eul_grid_coord_shift *)
Definition rel64 (x s : R) : R := b64 (x - s).
(** eul_subblock_dx = eul_grid_dx * local_grid_size; (rel / eul_subblock_dx).astype(np.int32) *)
Definition block_coord64 (dx s : R) (n : Z) (x : R) : Z := Ztrunc (b64 (rel64 x s / b64 (dx * IZR n))).
(** rel // dx: either the floor of the rounded quotient, ... *)
Definition floordiv_quot (a dx : R) : Z := Zfloor (b64 (a / dx)).
(** ... or python's algorithm (fmod is exact): mod = fmod(a, dx); div = (a - mod) / dx; floor(div), plus one if
    div - floor(div) > 0.5.  (Positive operands only.)  Which of the two the compiled kernel uses depends on the
    version of numba; both are modelled. *)
Definition floordiv_py (a dx : R) : Z :=
  let md := a - dx * IZR (Ztrunc (a / dx)) in
  let div := b64 (b64 (a - md) / dx) in
  if Rlt_bool (/ 2) (div - IZR (Zfloor div)) then (Zfloor div + 1)%Z else Zfloor div.
Inductive floordiv := Quot | Py.
Definition floordiv64 (v : floordiv) : R -> R -> Z := match v with Quot => floordiv_quot | Py => floordiv_py end.
(** nearest_eul_grid_index: rel // dx - (coord * n - ghost_size), on the rank with coordinate c *)
Definition nearest64 (v : floordiv) (dx s : R) (n g c : Z) (x : R) : Z := (floordiv64 v (rel64 x s) dx - (c * n - g))%Z.
(** First and last index of the slice [nearest - w + 1 : nearest + w + 1]. *)
Definition slice_first (w i : Z) : Z := (i - w + 1)%Z.
Definition slice_last (w i : Z) : Z := (i + w)%Z.
