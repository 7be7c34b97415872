(** Model of the Green's function construction and of the convolution in
    poisson_solver_2d/UnboundedPoissonSolverMPI2D.py, poisson_solver_3d/UnboundedPoissonSolverMPI3D.py,
    poisson_solver_2d/fft_mpi_2d.py and poisson_solver_3d/fft_mpi_3d.py.
    Floating point numbers are modelled as real numbers. *)
From Coq Require Import Reals.
From Coquelicot Require Import Complex.
From Verif Require Import Base SpecGrid SpecDouble.
Open Scope Z_scope.

(** np.linspace(start, stop, n)[k]. *)
Definition linspace (start stop : R) (n k : Z) : R := (start + IZR k * ((stop - start) / IZR (n - 1)))%R.
(** UnboundedPoissonSolverMPI2D.py:69-81, UnboundedPoissonSolverMPI3D.py:75-91: element k of local_x (local_y, local_z);
    start, len: entries of substart and shape for that axis. *)
Definition local_coord (dx : R) (start len k : Z) : R :=
  linspace (IZR start * dx)%R (IZR (start + len - 1) * dx)%R len k.
(** np.minimum(x, 2 * range - x) (UnboundedPoissonSolverMPI2D.py:86-87, UnboundedPoissonSolverMPI3D.py:98-100). *)
Definition even_reflection (range x : R) : R := Rmin x (2 * range - x)%R.

(** Element (i, j) of the local Green's function array of a rank, [None] where it is not finite
    (UnboundedPoissonSolverMPI2D.py:34-36, 65-99).  gny, gnx: grid_size_y, grid_size_x. *)
Definition greens_2d (x_range : R) (gny gnx : Z) (sy sx ly lx i j : Z) : option R :=
  let y_range := (x_range * (IZR gny / IZR gnx))%R in
  let dx := (x_range / IZR gnx)%R in
  let local_x := local_coord dx sx lx in
  let local_y := local_coord dx sy ly in
  let distance := sqrt (even_reflection x_range (local_x j) ^ 2 + even_reflection y_range (local_y i) ^ 2)%R in
  if ((sy =? 0) && (sx =? 0)) && ((i =? 0) && (j =? 0))
  then Some (- (2 * ln (dx / sqrt PI) - 1) / (4 * PI))%R
  else if Req_EM_T distance 0 then None else Some (- ln distance / (2 * PI))%R.
(** UnboundedPoissonSolverMPI3D.py:38-41, 70-113. *)
Definition greens_3d (x_range : R) (gnz gny gnx : Z) (sz sy sx lz ly lx i j k : Z) : option R :=
  let y_range := (x_range * (IZR gny / IZR gnx))%R in
  let z_range := (x_range * (IZR gnz / IZR gnx))%R in
  let dx := (x_range / IZR gnx)%R in
  let local_x := local_coord dx sx lx in
  let local_y := local_coord dx sy ly in
  let local_z := local_coord dx sz lz in
  let distance := sqrt (even_reflection x_range (local_x k) ^ 2 + even_reflection y_range (local_y j) ^ 2 + even_reflection z_range (local_z i) ^ 2)%R in
  if ((sz =? 0) && (sy =? 0) && (sx =? 0)) && ((i =? 0) && (j =? 0) && (k =? 0))
  then Some (1 / (4 * PI * dx))%R
  else if Req_EM_T distance 0 then None else Some ((1 / distance) / (4 * PI))%R.

(** The local Green's function array of rank r: substart and shape of the distributed array of the
    doubled grid (fft_mpi_2d.py:18-22, fft_mpi_3d.py:21-25; mpi4py-fft gives every rank of an axis the
    same number of cells when that number divides the extent). *)
Definition rank_greens_2d (x_range : R) (py px ny nx : Z) (r : Z) (I : list Z) : option R :=
  match block_start [py; px] (doubled [ny; nx]) r, doubled [ny; nx], I with
  | [sy; sx], [ly; lx], [i; j] => greens_2d x_range (py * ny) (px * nx) sy sx ly lx i j
  | _, _, _ => None
  end.
Definition rank_greens_3d (x_range : R) (pz py px n0 n1 n2 : Z) (r : Z) (I : list Z) : option R :=
  match block_start [pz; py; px] (doubled [n0; n1; n2]) r, doubled [n0; n1; n2], I with
  | [sz; sy; sx], [lz; ly; lx], [i; j; k] => greens_3d x_range (pz * n0) (py * n1) (px * n2) sz sy sx lz ly lx i j k
  | _, _, _ => None
  end.

(** The distributed array made of the local arrays. *)
Definition distributed (dims loc : list Z) (local : Z -> list Z -> option R) (P : list Z) : R :=
  match local (ravel dims (vdiv P loc)) (vmod P loc) with Some v => v | None => 0%R end.

(** UnboundedPoissonSolverMPI2D.py:57-60, 101-105, 133-149 and UnboundedPoissonSolverMPI3D.py:63-66, 115-119, 146-162:
    transform of the right-hand side, product with (transform of the Green's function) * dx^d, backward transform. *)
Definition greens_convolution (fwd : (list Z -> R) -> list Z -> C) (bwd : (list Z -> C) -> list Z -> R) (G : list Z -> R) (vol : R) (v : list Z -> R) : list Z -> R :=
  bwd (fun K => (fwd v K * (fwd G K * RtoC vol))%C).
Definition poisson_convolution_2d fwd bwd (x_range : R) (py px ny nx : Z) :=
  greens_convolution fwd bwd (distributed [py; px] (doubled [ny; nx]) (rank_greens_2d x_range py px ny nx)) ((x_range / IZR (px * nx)) ^ 2)%R.
Definition poisson_convolution_3d fwd bwd (x_range : R) (pz py px n0 n1 n2 : Z) :=
  greens_convolution fwd bwd (distributed [pz; py; px] (doubled [n0; n1; n2]) (rank_greens_3d x_range pz py px n0 n1 n2)) ((x_range / IZR (px * n2)) ^ 3)%R.
