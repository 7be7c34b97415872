(** Model of the boundary penalisation kernels
    stencil_ops_2d/penalise_field_boundary_mpi_2d.py and
    stencil_ops_3d/penalise_field_boundary_mpi_3d.py. *)
From Verif Require Import Base SpecGrid SpecPenalise Cart Comm Spmd Stencil PyNum.

(** View sliced by s along axis a only. *)
Definition slab (d a : nat) (s : pslice) : list pslice := map (fun i => if Nat.eqb i a then s else SAll) (seq 0 d).

Section Penalise.
Context {T C : Type}.
(** [damp a b v] = v * sin(sine_prefactor * (b - a)). *)
Variable damp : C -> C -> T -> T.

(** field[view] = field[... src : src+1 ...] along axis a (numpy broadcasting of one layer).
    Simplification: where ghost_size + width exceeds the array numpy raises (empty source); the model
    is only used with width at most the block extent, except in the refutation of wider sponges. *)
Definition pen_copy (sizes : list Z) (v : list pslice) (a : nat) (src : Z) (fld : nat) : list (@lop T) :=
  map (fun I => {| la := (fld, ravel sizes I); lf := fun m => m (fld, ravel sizes (setn I a src)) |}) (view_cells sizes v).
(** The pystencils kernels field @= field * sin(...), on the same slice. *)
Definition pen_damp (sizes : list Z) (v : list pslice) (fld : nat) (h : list Z -> T -> T) : list (@lop T) :=
  map (fun I => {| la := (fld, ravel sizes I); lf := fun m => h I (m (fld, ravel sizes I)) |}) (view_cells sizes v).

(** penalise_field_boundary_mpi_2d.py:131-137, 147-153 (front); xg is the local coordinate array of the axis. *)
Definition pen_front (sizes : list Z) (g w : Z) (a : nat) (xg : nat -> Z -> C) (fld : nat) : list (@lop T) :=
  let v := slab (length sizes) a (STo (g + w)) in
  pen_copy sizes v a (g + w - 1) fld ++
  pen_damp sizes v fld (fun I => damp (xg a g) (xg a (nth a I 0))).
(** penalise_field_boundary_mpi_2d.py:139-145, 155-161 (back). *)
Definition pen_back (sizes : list Z) (g w : Z) (a : nat) (xg : nat -> Z -> C) (fld : nat) : list (@lop T) :=
  let n := nth a sizes 0 in
  let v := slab (length sizes) a (SFrom (- (g + w))) in
  pen_copy sizes v a (n - (g + w)) fld ++
  pen_damp sizes v fld (fun I => damp (xg a (nth a I 0)) (xg a (n - (g + 1)))).

Definition pen_axis (per : bool) (topo sizes : list Z) (g w : Z) (xg : Z -> nat -> Z -> C) (fld : nat) (r : Z) (a : nat) : list (@lop T) :=
  (if isnone (previous_grid_along per topo r a) then pen_front sizes g w a (xg r) fld else []) ++
  (if isnone (next_grid_along per topo r a) then pen_back sizes g w a (xg r) fld else []).

(** penalise_field_boundary_mpi_2d.py:119-161: first along x, then along y; nothing for width 0 (lines 25-29). *)
Definition penalise_2d per py px ny nx g w (xg : Z -> nat -> Z -> C) (fld : nat) : list (@phase T) :=
  if w =? 0 then [] else
  [PLoc (fun r => pen_axis per [py; px] (ghosted g [ny; nx]) g w xg fld r 1 ++
                  pen_axis per [py; px] (ghosted g [ny; nx]) g w xg fld r 0)].
(** penalise_field_boundary_mpi_3d.py:180-239: x, y, then z. *)
Definition penalise_3d per pz py px n0 n1 n2 g w (xg : Z -> nat -> Z -> C) (fld : nat) : list (@phase T) :=
  if w =? 0 then [] else
  [PLoc (fun r => pen_axis per [pz; py; px] (ghosted g [n0; n1; n2]) g w xg fld r 2 ++
                  pen_axis per [pz; py; px] (ghosted g [n0; n1; n2]) g w xg fld r 1 ++
                  pen_axis per [pz; py; px] (ghosted g [n0; n1; n2]) g w xg fld r 0)].
(** penalise_field_boundary_mpi_3d.py:244-264: the vector version, component after component. *)
Definition penalise_vector_3d per pz py px n0 n1 n2 g w xg (flds : list nat) : list (@phase T) :=
  flat_map (penalise_3d per pz py px n0 n1 n2 g w xg) flds.
End Penalise.

(** The check at generation time: penalise_field_boundary_mpi_2d.py:19-20, _3d.py:21-22. *)
Definition penalise_width (width : pynum) : outcome Z :=
  if py_lt0 width || negb (is_int width) then ValueError
  else match width with PyInt z => Ok z | PyFloat _ => ValueError end.
