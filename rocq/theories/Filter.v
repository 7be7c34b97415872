(** Model of stencil_ops_3d/laplacian_filter_mpi_3d.py. *)
From Verif Require Import Base SpecGrid SpecStencil SpecFilter Cart Comm Spmd Ghost3D Stencil TimeStep PyNum.

Section Filter.
Context {T : Type}.
Variables (lap : T -> T -> T -> T) (sub : T -> T -> T) (z : T).
Variables (per : bool) (pz py px n0 n1 n2 g : Z) (full : bool) (bw : Z).
Let topo := [pz; py; px].
Let sizes := ghosted g [n0; n1; n2].

(** laplacian_filter_mpi_3d.py:62-99: filter kernel along axis a (x is axis 2). *)
Definition lap_kern (buf : nat) (a : nat) : @kfun T := fun rd _ =>
  lap (rd buf (axis_vec 3 a 1)) (rd buf (axis_vec 3 a (-1))) (rd buf (axis_vec 3 a 0)).
(** elementwise_copy over the whole array. *)
Definition copy_lops (dst src : nat) : list (@lop T) :=
  kernel_lops sizes 0 [(dst, fun rd _ => rd src (map (fun _ => 0) sizes))] (map (fun _ => SAll) sizes).
(** lines 110-143: clear the flux buffer next to the physical boundary. *)
Definition clear_boundary (flux : nat) : @phase T := PLoc (fun r => zero_lops3 per topo sizes g [flux] z bw r).

(** lines 145-263 then 283-285: one filter pass, boundary cleared, flux copied back into the buffer. *)
Definition filter_pass (buf flux : nat) (a : nat) : list (@phase T) :=
  halo3 per pz py px n0 n1 n2 g full 1 [buf] [(flux, lap_kern buf a)] (Some (z, bw)) ++
  [PLoc (fun _ => copy_lops buf flux)].
Definition filter_passes (buf flux : nat) (order : nat) (axes : list nat) : list (@phase T) :=
  concat (repeat (flat_map (filter_pass buf flux) axes) order).
Definition filter_apply (buf flux : nat) (order : nat) (axes : list nat) (fld : nat) : list (@phase T) :=
  [PLoc (fun _ => copy_lops buf fld)] ++ filter_passes buf flux order axes ++ [PLoc (fun _ => sum_lops sub sizes fld flux)].

(** lines 265-314 *)
Definition multiplicative_filter (buf flux : nat) (order : nat) (fld : nat) : list (@phase T) :=
  [clear_boundary flux] ++ filter_apply buf flux order [2; 1; 0]%nat fld.
(** lines 316-377 *)
Definition convolution_filter (buf flux : nat) (order : nat) (fld : nat) : list (@phase T) :=
  [clear_boundary flux] ++ filter_apply buf flux order [2]%nat fld ++ filter_apply buf flux order [1]%nat fld ++ filter_apply buf flux order [0]%nat fld.
(** lines 379-415: scalar fields, or the three components of a vector field. *)
Definition filter_3d (ft : filter_type) (buf flux : nat) (order : nat) (fld : nat) : list (@phase T) :=
  match ft with Multiplicative => multiplicative_filter buf flux order fld | Convolution => convolution_filter buf flux order fld end.
Definition vector_filter_3d (ft : filter_type) (buf flux : nat) (order : nat) (flds : list nat) : list (@phase T) :=
  flat_map (filter_3d ft buf flux order) flds.
End Filter.

(** lines 42-48: argument checks. *)
Definition filter_args (order width : pynum) : outcome (Z * Z) :=
  if py_lt0 order || negb (is_int order) then ValueError
  else if py_le0 width || negb (is_int width) then ValueError
  else match order, width with PyInt o, PyInt w => Ok (o, w) | _, _ => ValueError end.
