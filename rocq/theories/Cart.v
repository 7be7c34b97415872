(** Model of the domain decomposition and the Cartesian communicator queries. *)
From Verif Require Import Base SpecGrid.

(** ** MPIConstruct2D/3D.__init__
    mpi_utils_2d.py:50-62, mpi_utils_3d.py:49-61.
    [np.any(global % topology)] raises RuntimeError (None); otherwise the local
    size is (global / topology).astype(int).  [MPI.Compute_dims] is external:
    [topo] is whatever list of positive counts it returned.
    Simplification: the true division followed by astype(int) is exact integer
    division (exact in binary64 below 2^53). *)
Fixpoint vmod_nonzero (gl topo : list Z) : bool :=
  match gl, topo with
  | a :: gl', t :: topo' => negb (a mod t =? 0) || vmod_nonzero gl' topo'
  | _, _ => false
  end.

Definition mpi_construct (gl topo : list Z) : option (list Z) :=
  if vmod_nonzero gl topo then None else Some (vdiv gl topo).

(** ** Cartesian communicator: [Create_cart(topology, periods, reorder=False)]
    mpi_utils_2d.py:64-67, mpi_utils_3d.py:63-66.  [periods] is one boolean for
    all axes.  Ranks are numbered row-major (MPI standard, reorder=False). *)
Definition cart_coords (topo : list Z) (rank : Z) : list Z := unravel topo rank.

(** [grid.Get_cart_rank(coords)]: periodic axes wrap, an out-of-range
    coordinate on a non-periodic axis is an MPI error (None). *)
Definition get_cart_rank (per : bool) (topo coords : list Z) : option Z :=
  option_map (ravel topo) (wrapv per topo coords).

(** [grid.Shift(dim, disp)] destination: the rank displaced by [disp] along
    axis [dim]; None is MPI.PROC_NULL.  mpi_utils_2d.py:71-75. *)
Fixpoint add_at (dim : nat) (disp : Z) (cs : list Z) : list Z :=
  match dim, cs with
  | _, [] => []
  | O, c :: cs' => (c + disp) :: cs'
  | S k, c :: cs' => c :: add_at k disp cs'
  end.

Definition wrap_at (per : bool) (topo : list Z) (dim : nat) (cs : list Z) : option (list Z) :=
  match nth_error topo dim, nth_error cs dim with
  | Some d, Some c =>
      match wrap per d c with
      | Some q => Some (firstn dim cs ++ q :: skipn (S dim) cs)
      | None => None
      end
  | _, _ => None
  end.

Definition cart_shift_dest (per : bool) (topo : list Z) (rank : Z) (dim : nat) (disp : Z) : option Z :=
  option_map (ravel topo) (wrap_at per topo dim (add_at dim disp (cart_coords topo rank))).

(** [Shift] returns (source, dest) = ranks displaced by -disp and +disp;
    with disp = 1 these are previous_grid_along / next_grid_along.
    mpi_utils_2d.py:69-75, mpi_utils_3d.py:68-74. *)
Definition previous_grid_along (per : bool) (topo : list Z) (rank : Z) (dim : nat) : option Z :=
  cart_shift_dest per topo rank dim (-1).
Definition next_grid_along (per : bool) (topo : list Z) (rank : Z) (dim : nat) : option Z :=
  cart_shift_dest per topo rank dim 1.

(** [_get_diagonally_shifted_coord_rank(coord_shift)]
    mpi_utils_2d.py:177-189 and the 3D namesake: PROC_NULL when the domain is
    not periodic and some shifted coordinate is >= topology or < 0, else
    Get_cart_rank. *)
Fixpoint any_out (topo cs : list Z) : bool :=
  match topo, cs with
  | t :: topo', c :: cs' => (t <=? c) || (c <? 0) || any_out topo' cs'
  | _, _ => false
  end.

Definition diagonal_rank (per : bool) (topo : list Z) (rank : Z) (coord_shift : list Z) : option Z :=
  let shifted := vadd (cart_coords topo rank) coord_shift in
  if negb per && any_out topo shifted then None else get_cart_rank per topo shifted.
