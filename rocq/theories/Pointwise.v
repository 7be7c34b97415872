(** Model of the kernels with support 0:
    sopht_mpi/numeric/eulerian_grid_ops/stencil_ops_2d/brinkmann_penalise_mpi_2d.py:7-19, stencil_ops_3d/brinkmann_penalise_mpi_3d.py:7-19,
    stencil_ops_2d/char_func_from_level_set_mpi_2d.py:8-28, stencil_ops_3d/char_func_from_level_set_mpi_3d.py:8-28.
    The generators return sopht's serial kernels unchanged: called on a rank's whole (ghosted) arrays, they update every
    cell from the values in the same cell and exchange nothing.  The serial formulas (not in /repo) are arbitrary
    functions.  Simplification: a vector kernel goes through the cells once and updates the components one after the
    other in each cell. *)
From Verif Require Import Base SpecGrid Comm Spmd Stencil.

Section P.
Context {T : Type}.
Definition here (sizes : list Z) : list Z := map (fun _ => 0) sizes.
(** brinkmann_penalise_pyst_kernel(penalised_field, field, char_field, penalty_field, penalty_factor): [f field char penalty],
    the factor being part of f.  One triple (penalised, field, penalty) per component: one for field_type="scalar", two or
    three for "vector". *)
Definition brinkmann_kern (f : T -> T -> T -> T) (sizes : list Z) (chi : nat) (cs : list (nat * nat * nat)) : @kern T :=
  map (fun c => match c with (out, fld, pen) => (out, fun rd (_ : T) => f (rd fld (here sizes)) (rd chi (here sizes)) (rd pen (here sizes))) end) cs.
Definition brinkmann (f : T -> T -> T -> T) (sizes : list Z) (chi : nat) (cs : list (nat * nat * nat)) : list (@phase T) :=
  [PLoc (fun _ => kernel_lops sizes 0 (brinkmann_kern f sizes chi cs) (map (fun _ => SAll) sizes))].
(** char_func_from_level_set_via_sine_heaviside: [h level_set]. *)
Definition char_func (h : T -> T) (sizes : list Z) (chi phi : nat) : list (@phase T) :=
  [PLoc (fun _ => kernel_lops sizes 0 [(chi, fun rd (_ : T) => h (rd phi (here sizes)))] (map (fun _ => SAll) sizes))].
End P.
