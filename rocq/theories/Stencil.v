(** Model of the MPI stencil kernels
    sopht_mpi/numeric/eulerian_grid_ops/stencil_ops_2d/ and stencil_ops_3d/.

    Every kernel has the same structure: begin the ghost exchange of its input
    fields, run the serial (pystencils) kernel on the interior view, finish
    the exchange, run the serial kernel on one strip per side, and, for some,
    set the outermost layer at physical boundaries to zero.
    The serial kernels come from the sopht package, which is not part of
    /repo: they are modelled as arbitrary functions of the input arrays around
    a cell and of the old value of the output cell; what is used about them
    (radius, star shape) is a hypothesis of the theorems. *)
From Verif Require Import Base SpecGrid Cart Comm Spmd Ghost2D Ghost3D.

(** ** Python slices *)
(** [:], [a:b], [:b], [a:]. *)
Inductive pslice := SAll | SBetween (a b : Z) | STo (b : Z) | SFrom (a : Z).

(** Normalised bounds of a slice on an axis of n elements (CPython
    PySlice_AdjustIndices; [py_start] is the clipping of one index). *)
Definition slice_start (n : Z) (s : pslice) : Z :=
  match s with SAll | STo _ => 0 | SBetween a _ | SFrom a => py_start n a end.
Definition slice_stop (n : Z) (s : pslice) : Z :=
  match s with SAll | SFrom _ => n | SBetween _ b | STo b => py_start n b end.

Fixpoint view_starts (sizes : list Z) (v : list pslice) : list Z :=
  match sizes, v with n :: sizes', s :: v' => slice_start n s :: view_starts sizes' v' | _, _ => [] end.
Fixpoint view_lens (sizes : list Z) (v : list pslice) : list Z :=
  match sizes, v with n :: sizes', s :: v' => (slice_stop n s - slice_start n s) :: view_lens sizes' v' | _, _ => [] end.

(** Cells of a view. *)
Definition view_cells (sizes : list Z) (v : list pslice) : list (list Z) :=
  box (view_starts sizes v) (view_lens sizes v).
(** Cells a pystencils kernel with ks ghost layers updates when called on a
    view: those at distance >= ks from every side of the view. *)
Definition kernel_cells (ks : Z) (sizes : list Z) (v : list pslice) : list (list Z) :=
  box (map (fun s => s + ks) (view_starts sizes v)) (map (fun l => l - 2 * ks) (view_lens sizes v)).

Section Stencil.
Context {T : Type}.

(** New value of an output cell from (array, offset) |-> input value and the
    old value of the cell. *)
Definition kfun := (nat -> list Z -> T) -> T -> T.
(** A kernel: its output arrays, with the function for each of them. *)
Definition kern := list (nat * kfun).

Definition kernel_lops (sizes : list Z) (ks : Z) (k : kern) (v : list pslice) : list (@lop T) :=
  flat_map (fun I => map (fun oK : nat * kfun =>
     {| la := (fst oK, ravel sizes I);
        lf := fun m => snd oK (fun f d => m (f, ravel sizes (vadd I d))) (m (fst oK, ravel sizes I)) |}) k)
   (kernel_cells ks sizes v).

(** set_fixed_val kernels (sopht): every cell of the view, each output array. *)
Definition set_lops (sizes : list Z) (outs : list nat) (val : T) (v : list pslice) : list (@lop T) :=
  flat_map (fun I => map (fun o => {| la := (o, ravel sizes I); lf := fun _ => val |}) outs) (view_cells sizes v).

(** ** Slices used by the kernels *)
Section Views.
Variables (g ks : Z).
(** [ghost_size:-ghost_size] *)
Definition IN : pslice := SBetween g (- g).
(** [ghost_size - kernel_support : ghost_size + 2 * kernel_support] *)
Definition LO : pslice := SBetween (g - ks) (g + 2 * ks).
(** [-(ghost_size + 2 * kernel_support) : shape - (ghost_size - kernel_support)] *)
Definition HI (n : Z) : pslice := SBetween (- (g + 2 * ks)) (n - (g - ks)).

(** diffusion_flux_mpi_2d.py:47-117, advection_flux_mpi_2d.py:38-133,
    outplane_field_curl_mpi_2d.py:49-121,
    update_vorticity_from_velocity_forcing_mpi_2d.py:45-121. *)
Definition interior2 : list pslice := [IN; IN].
Definition strips2 (s0 s1 : Z) : list (list pslice) :=
  [ [LO; IN]; [HI s0; IN];
    [SAll; LO]; [SAll; HI s1] ].

(** diffusion_flux_mpi_3d.py:49-157, advection_flux_mpi_3d.py:38-192,
    divergence_mpi_3d.py:46-165, laplacian_filter_mpi_3d.py:158-263,
    update_vorticity_from_velocity_forcing_mpi_3d.py:48-176 and 221-394,
    curl_mpi_3d.py:52-161 (strips only). *)
Definition interior3 : list pslice := [IN; IN; IN].
Definition strips3 (s0 s1 s2 : Z) : list (list pslice) :=
  [ [LO; IN; IN]; [HI s0; IN; IN];
    [SAll; LO; IN]; [SAll; HI s1; IN];
    [SAll; SAll; LO]; [SAll; SAll; HI s2] ].

(** curl_mpi_3d.py:43-48: the slice [:, g:-g, g:-g] of a (3, z, y, x) array
    leaves the x axis unsliced. *)
Definition interior3_curl : list pslice := [IN; IN; SAll].

(** Layers reset to zero next to a missing neighbour, in program order.
    diffusion_flux_mpi_2d.py:119-140, outplane_field_curl_mpi_2d.py:123-139. *)
Variable bw : Z.
Definition isnone (o : option Z) : bool := match o with None => true | Some _ => false end.
Definition zero_views2 (yp yn xp xn : option Z) : list (list pslice) :=
  (if isnone xp then [[SAll; STo (g + bw)]] else []) ++
  (if isnone xn then [[SAll; SFrom (- g - bw)]] else []) ++
  (if isnone yp then [[STo (g + bw); SAll]] else []) ++
  (if isnone yn then [[SFrom (- g - bw); SAll]] else []).

(** diffusion_flux_mpi_3d.py:160-192, curl_mpi_3d.py:163-195,
    divergence_mpi_3d.py:167-199, laplacian_filter_mpi_3d.py:110-143. *)
Definition zero_views3 (zp zn yp yn xp xn : option Z) : list (list pslice) :=
  (if isnone xp then [[SAll; SAll; STo (g + bw)]] else []) ++
  (if isnone xn then [[SAll; SAll; SFrom (- g - bw)]] else []) ++
  (if isnone yp then [[SAll; STo (g + bw); SAll]] else []) ++
  (if isnone yn then [[SAll; SFrom (- g - bw); SAll]] else []) ++
  (if isnone zp then [[STo (g + bw); SAll; SAll]] else []) ++
  (if isnone zn then [[SFrom (- g - bw); SAll; SAll]] else []).
End Views.

(** ** The kernels as SPMD programs *)
(** [zero]: boundary value and width when the kernel resets the physical boundary. *)
Definition halo2 (per : bool) (py px ny nx g : Z) (full : bool) (ks : Z) (F : list nat) (k : kern)
    (zero : option (T * Z)) : list (@phase T) :=
  let topo := [py; px] in
  let sizes := ghosted g [ny; nx] in
  [ PExch (all_copies (zprod topo) (exchange2 per py px ny nx g full F))
          (fun _ => kernel_lops sizes ks k (interior2 g));
    PLoc (fun r =>
      flat_map (kernel_lops sizes ks k) (strips2 g ks (shape0 ny g) (shape1 nx g)) ++
      match zero with
      | None => []
      | Some (z, bw) =>
          flat_map (set_lops sizes (map fst k) z)
            (zero_views2 g bw (previous_grid_along per topo r 0) (next_grid_along per topo r 0)
                              (previous_grid_along per topo r 1) (next_grid_along per topo r 1))
      end) ].

Definition zero_lops3 (per : bool) (topo sizes : list Z) (g : Z) (outs : list nat) (z : T) (bw r : Z) : list (@lop T) :=
  flat_map (set_lops sizes outs z)
    (zero_views3 g bw (previous_grid_along per topo r 0) (next_grid_along per topo r 0)
                      (previous_grid_along per topo r 1) (next_grid_along per topo r 1)
                      (previous_grid_along per topo r 2) (next_grid_along per topo r 2)).

Definition halo3 (per : bool) (pz py px n0 n1 n2 g : Z) (full : bool) (ks : Z) (F : list nat) (k : kern)
    (zero : option (T * Z)) : list (@phase T) :=
  let topo := [pz; py; px] in
  let sizes := ghosted g [n0; n1; n2] in
  [ PExch (all_copies (zprod topo) (exchange3 per pz py px n0 n1 n2 g full F))
          (fun _ => kernel_lops sizes ks k (interior3 g));
    PLoc (fun r =>
      flat_map (kernel_lops sizes ks k) (strips3 g ks (s0 n0 g) (s1 n1 g) (s2 n2 g)) ++
      match zero with
      | None => []
      | Some (z, bw) => zero_lops3 per topo sizes g (map fst k) z bw r
      end) ].

(** ** The kernels of /repo.  Array identifiers stand for numpy arrays; the
    components of a vector field are separate arrays. *)
Variables (zero_val : T).

(** diffusion_flux_pyst_mpi_kernel_2d: field -> flux, radius 1, boundary reset. *)
Definition diffusion_flux_2d per py px ny nx g full (flux fld : nat) (K : kfun) :=
  halo2 per py px ny nx g full 1 [fld] [(flux, K)] (Some (zero_val, 1)).
(** outplane_field_curl_pyst_mpi_kernel_2d: field -> (cx, cy), radius 1, boundary reset. *)
Definition outplane_curl_2d per py px ny nx g full (cx cy fld : nat) (Kx Ky : kfun) :=
  halo2 per py px ny nx g full 1 [fld] [(cx, Kx); (cy, Ky)] (Some (zero_val, 1)).
(** advection_flux_conservative_eno3_pyst_mpi_kernel_2d: radius 2, adds to flux. *)
Definition advection_flux_2d per py px ny nx g full (flux fld vx vy : nat) (K : kfun) :=
  halo2 per py px ny nx g full 2 [fld; vx; vy] [(flux, K)] None.
(** update_vorticity_from_velocity_forcing_pyst_mpi_kernel_2d: radius 1, adds to vorticity. *)
Definition update_vorticity_2d per py px ny nx g full (w fx fy : nat) (K : kfun) :=
  halo2 per py px ny nx g full 1 [fx; fy] [(w, K)] None.

(** diffusion_flux_pyst_mpi_kernel_3d (scalar) and its vector version
    (diffusion_flux_mpi_3d.py:200-226: one component after the other; [flux_fld] pairs the
    flux and field arrays of each component). *)
Definition diffusion_flux_3d per pz py px n0 n1 n2 g full (flux fld : nat) (K : kfun) :=
  halo3 per pz py px n0 n1 n2 g full 1 [fld] [(flux, K)] (Some (zero_val, 1)).
Definition vector_diffusion_flux_3d per pz py px n0 n1 n2 g full (flux_fld : list (nat * nat)) (K : nat -> kfun) :=
  flat_map (fun p => diffusion_flux_3d per pz py px n0 n1 n2 g full (fst p) (snd p) (K (snd p))) flux_fld.
(** divergence_pyst_mpi_kernel_3d. *)
Definition divergence_3d per pz py px n0 n1 n2 g full (dvg vx vy vz : nat) (K : kfun) :=
  halo3 per pz py px n0 n1 n2 g full 1 [vx; vy; vz] [(dvg, K)] (Some (zero_val, 1)).
(** advection_flux_conservative_eno3_pyst_mpi_kernel_3d. *)
Definition advection_flux_3d per pz py px n0 n1 n2 g full (flux fld vx vy vz : nat) (K : kfun) :=
  halo3 per pz py px n0 n1 n2 g full 2 [fld; vx; vy; vz] [(flux, K)] None.
(** update_vorticity_from_velocity_forcing_pyst_mpi_kernel_3d. *)
Definition update_vorticity_3d per pz py px n0 n1 n2 g full (wx wy wz fx fy fz : nat) (Kx Ky Kz : kfun) :=
  halo3 per pz py px n0 n1 n2 g full 1 [fx; fy; fz] [(wx, Kx); (wy, Ky); (wz, Kz)] None.
(** update_vorticity_from_penalised_velocity_pyst_mpi_kernel_3d: exchanges the
    velocity, then the penalised velocity. *)
Definition update_vorticity_penalised_3d per pz py px n0 n1 n2 g full (wx wy wz ux uy uz vx vy vz : nat) (Kx Ky Kz : kfun) :=
  halo3 per pz py px n0 n1 n2 g full 1 [vx; vy; vz; ux; uy; uz] [(wx, Kx); (wy, Ky); (wz, Kz)] None.

(** curl_pyst_mpi_kernel_3d (curl_mpi_3d.py:29-195).  The interior pass is
    unsliced along x, so for cells whose stencil reaches the x ghosts it reads
    cells the exchange is writing.  Such a racing read may return anything:
    the value these cells receive is taken from an arbitrary oracle [race]
    (component, cell), which over-approximates every possible timing. *)
Definition curl_interior (sizes : list Z) (g nx : Z) (k : kern) (race : nat -> list Z -> T) : list (@lop T) :=
  flat_map (fun I => map (fun oK : nat * kfun =>
     {| la := (fst oK, ravel sizes I);
        lf := fun m =>
          if (g + 1 <=? nth 2 I 0) && (nth 2 I 0 <? g + nx - 1)
          then snd oK (fun f d => m (f, ravel sizes (vadd I d))) (m (fst oK, ravel sizes I))
          else race (fst oK) I |}) k)
   (kernel_cells 1 sizes (interior3_curl g)).

Definition curl_3d per pz py px n0 n1 n2 g full (cx cy cz vx vy vz : nat) (Kx Ky Kz : kfun)
    (race : Z -> nat -> list Z -> T) : list (@phase T) :=
  let topo := [pz; py; px] in
  let sizes := ghosted g [n0; n1; n2] in
  let k := [(cx, Kx); (cy, Ky); (cz, Kz)] in
  [ PExch (all_copies (zprod topo) (exchange3 per pz py px n0 n1 n2 g full [vx; vy; vz]))
          (fun r => curl_interior sizes g n2 k (race r));
    PLoc (fun r =>
      flat_map (kernel_lops sizes 1 k) (strips3 g 1 (s0 n0 g) (s1 n1 g) (s2 n2 g)) ++
      zero_lops3 per topo sizes g (map fst k) zero_val 1 r) ].
End Stencil.
