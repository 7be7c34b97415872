(** Model of poisson_solver_2d/UnboundedPoissonSolverMPI2D.py and
    poisson_solver_3d/UnboundedPoissonSolverMPI3D.py. *)
From Verif Require Import Base SpecGrid SpecStep SpecDouble Cart Comm Spmd Ghost3D Stencil PyNum.

(** MPIDomainDoublingCommunicator2D *)
Section Double2.
Variables (per : bool) (py px ny nx g : Z).
Let topo := [py; px].
Let loc := [ny; nx].

(** UnboundedPoissonSolverMPI2D.py:180-192: distributed axis; ValueError if both axes are distributed. *)
Definition distributed_dim2 : outcome nat :=
  if negb (py =? 1) && negb (px =? 1) then ValueError
  else if py * px =? 1 then Ok 0%nat
  else if negb (px =? 1) then Ok 1%nat else Ok 0%nat.

(** UnboundedPoissonSolverMPI2D.py:201-211 and 261-271: inner cells of the ghosted array. *)
Definition actual_type (f : nat) : list addr := buf3 f (mpi_subarray (ghosted g loc) loc (map (fun _ => g) loc)).
(** UnboundedPoissonSolverMPI2D.py:212-260: first and second half of the doubled block. *)
Definition first_half_type (D : nat) : list addr := buf3 D (mpi_subarray (doubled loc) loc [0; 0]).
Definition second_half_type (dd : nat) (D : nat) : list addr :=
  buf3 D (mpi_subarray (doubled loc) loc (match dd with O => [ny; 0] | _ => [0; nx] end)).

(** Shift(dim, disp): [0] is the rank displaced by -disp, [1] the one displaced by +disp. *)
Definition shift0 (r : Z) (dd : nat) (disp : Z) := cart_shift_dest per topo r dd (- disp).
Definition shift1 (r : Z) (dd : nat) (disp : Z) := cart_shift_dest per topo r dd disp.

(** UnboundedPoissonSolverMPI2D.py:273-312; coord < P / 2 is a true division. *)
Definition to_doubled2 (dd : nat) (f D : nat) (r : Z) : list op :=
  let c := nth dd (cart_coords topo r) 0 in
  ISend (shift0 r dd (c / 2 + c mod 2)) (actual_type f) ::
  if 2 * c <? nth dd topo 0 then
    [ IRecv (shift1 r dd (2 * c - c)) (first_half_type D);
      IRecv (shift1 r dd (2 * c + 1 - c)) (second_half_type dd D) ]
  else [].
(** UnboundedPoissonSolverMPI2D.py:314-352 *)
Definition from_doubled2 (dd : nat) (f D : nat) (r : Z) : list op :=
  let c := nth dd (cart_coords topo r) 0 in
  (if 2 * c <? nth dd topo 0 then
    [ ISend (shift1 r dd (2 * c - c)) (first_half_type D);
      ISend (shift1 r dd (2 * c + 1 - c)) (second_half_type dd D) ]
  else []) ++
  [ IRecv (shift0 r dd (c / 2 + c mod 2)) (actual_type f) ].
End Double2.

(** MPIDomainDoublingCommunicator3D; nothing in it depends on the number of axes. *)
Section Double3.
Variables (per : bool) (topo loc : list Z) (g : Z).

(** UnboundedPoissonSolverMPI3D.py:214-226 *)
Definition num_distributed : nat := length (filter (fun t => negb (t =? 1)) topo).
Definition double3_check : outcome unit := if (length topo <=? num_distributed)%nat then ValueError else Ok tt.

(** UnboundedPoissonSolverMPI3D.py:247-249: itertools.product([0, 1]) over the distributed axes;
    here with a 0 for each axis that is not distributed. *)
Fixpoint offsets3 (ts : list Z) : list (list Z) :=
  match ts with
  | [] => [[]]
  | t :: ts' => if t =? 1 then map (cons 0) (offsets3 ts')
                else map (cons 0) (offsets3 ts') ++ map (cons 1) (offsets3 ts')
  end.

(** UnboundedPoissonSolverMPI3D.py:251-312: datatypes. *)
Definition actual_type3 (f : nat) : list addr := buf3 f (mpi_subarray (ghosted g loc) loc (map (fun _ => g) loc)).
Definition part_type3 (D : nat) (o : list Z) : list addr := buf3 D (mpi_subarray (doubled loc) loc (vmul loc o)).

(** 2 * coord + offset on the distributed axes, coord on the others. *)
Fixpoint child_coord (ts cs os : list Z) : list Z :=
  match ts, cs, os with
  | t :: ts', c :: cs', o :: os' => (if t =? 1 then c else 2 * c + o) :: child_coord ts' cs' os'
  | _, _, _ => []
  end.
(** np.all(coord < grid_topology / 2) *)
Fixpoint below_half (ts cs : list Z) : bool :=
  match ts, cs with t :: ts', c :: cs' => (2 * c <? t) && below_half ts' cs' | _, _ => true end.

(** Get_cart_rank raises on out-of-range coordinates of a non-periodic axis: then the whole call raises. *)
Fixpoint sequence (l : list (option op)) : outcome (list op) :=
  match l with
  | [] => Ok []
  | None :: _ => RuntimeError
  | Some a :: l' => match sequence l' with Ok as_ => Ok (a :: as_) | _ => RuntimeError end
  end.

(** UnboundedPoissonSolverMPI3D.py:314-347 *)
Definition to_doubled3 (f D : nat) (r : Z) : outcome (list op) :=
  let c := cart_coords topo r in
  sequence (option_map (fun d => ISend (Some d) (actual_type3 f)) (get_cart_rank per topo (map (fun x => x / 2) c)) ::
    if below_half topo c then
      map (fun o => option_map (fun s => IRecv (Some s) (part_type3 D o)) (get_cart_rank per topo (child_coord topo c o))) (offsets3 topo)
    else []).
(** UnboundedPoissonSolverMPI3D.py:349-382 *)
Definition from_doubled3 (f D : nat) (r : Z) : outcome (list op) :=
  let c := cart_coords topo r in
  sequence ((if below_half topo c then
      map (fun o => option_map (fun s => ISend (Some s) (part_type3 D o)) (get_cart_rank per topo (child_coord topo c o))) (offsets3 topo)
    else []) ++
    [option_map (fun d => IRecv (Some d) (actual_type3 f)) (get_cart_rank per topo (map (fun x => x / 2) c))]).
End Double3.

Definition ops_of (o : outcome (list op)) : list op := match o with Ok l => l | _ => [] end.

(** ** The solvers *)
Section Solve.
Context {T : Type}.
(** [conv]: forward transform, product with the transformed Green's function and backward
    transform, as a function of the whole doubled array (mpi4py-fft and the Green's function
    are not modelled).  z is 0. *)
Variables (conv : (list Z -> T) -> list Z -> T) (z : T).
Variables (dims loc : list Z).
Let n := zprod dims.
Let dl := doubled loc.

(** rfft, product, irfft (UnboundedPoissonSolverMPI2D.py:133-149, UnboundedPoissonSolverMPI3D.py:146-162).
    The parallel FFT is abstracted as an exchange that brings every block to every rank (scratch
    array S, one slot per rank) followed by the local computation of the block of the result: each
    value may depend on the whole doubled array, and there is no other synchronisation. *)
Definition gather_all (D S : nat) : list (place * place) :=
  flat_map (fun a => flat_map (fun b => map (fun k => ((a, (D, k)), (b, (S, a * zprod dl + k)))) (zrange 0 (zprod dl))) (zrange 0 n)) (zrange 0 n).
Definition assembled_doubled (m : @lmemT T) (S : nat) : list Z -> T := fun p =>
  if inbb (global_size dims dl) p then m (S, ravel dims (vdiv p dl) * zprod dl + ravel dl (vmod p dl)) else z.
Definition conv_lops (D S : nat) (r : Z) : list (@lop T) :=
  map (fun J => {| la := (D, ravel dl J); lf := fun m => conv (assembled_doubled m S) (vadd (block_start dims dl r) J) |})
      (box (map (fun _ => 0) dl) dl).
Definition fft_convolution (D S : nat) : list (@phase T) :=
  [PExch (gather_all D S) (fun _ => []); PLoc (conv_lops D S)].

(** UnboundedPoissonSolverMPI2D.py:120-153, UnboundedPoissonSolverMPI3D.py:133-167: reset the doubled
    buffer, copy to it, convolve, copy back. *)
Definition solve_phases (to_ from_ : Z -> list op) (D S : nat) : list (@phase T) :=
  [PLoc (fun _ => set_lops dl [D] z (map (fun _ => SAll) dl));
   PExch (all_copies n to_) (fun _ => [])] ++
  fft_convolution D S ++
  [PExch (all_copies n from_) (fun _ => [])].
End Solve.

Section Solvers.
Context {T : Type}.
Variables (conv : (list Z -> T) -> list Z -> T) (z : T).
Definition poisson_solve_2d per py px ny nx g dd (D S sol rhs : nat) : list (@phase T) :=
  solve_phases conv z [py; px] [ny; nx] (to_doubled2 per py px ny nx g dd rhs D) (from_doubled2 per py px ny nx g dd sol D) D S.
Definition poisson_solve_3d per pz py px n0 n1 n2 g (D S sol rhs : nat) : list (@phase T) :=
  let topo := [pz; py; px] in let loc := [n0; n1; n2] in
  solve_phases conv z topo loc (fun r => ops_of (to_doubled3 per topo loc g rhs D r)) (fun r => ops_of (from_doubled3 per topo loc g sol D r)) D S.
(** UnboundedPoissonSolverMPI3D.py:169-187: the components one after the other. *)
Definition poisson_vector_solve_3d per pz py px n0 n1 n2 g (D S : nat) (sols rhss : list nat) : list (@phase T) :=
  flat_map (fun sr => poisson_solve_3d per pz py px n0 n1 n2 g D S (fst sr) (snd sr)) (combine sols rhss).
End Solvers.
