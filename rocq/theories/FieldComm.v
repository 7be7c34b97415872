(** Model of MPIFieldCommunicator2D/3D
    (mpi_utils_2d.py:423-568, mpi_utils_3d.py:1145-1306).
    One model for both: the 2D and 3D classes differ only in the number of
    axes, i.e. in the lengths of [topo], [loc]. *)
From Verif Require Import Base SpecGrid Cart Comm Ghost3D Blocking.

Section FieldComm.
Context {T : Type}.
(** topology, local_grid_size, ghost size, master rank and the (arbitrary)
    order in which [for rank_idx in self.slave_ranks] enumerates the set. *)
Variables (topo loc : list Z) (g : Z) (master : Z) (order : list Z).

(** mpi_construct.global_grid_size *)
Definition fc_global : list Z := vmul topo loc.
(** local_grid_size + 2*ghost_size (the local fields' shape) *)
Definition fc_local : list Z := map (fun n => n + 2 * g) loc.

(** slave_ranks = set(arange(size)) - {master}; any enumeration of it.
    mpi_utils_2d.py:451, mpi_utils_3d.py:1173. *)
Definition slave_order : Prop :=
  Permutation order (filter (fun r => negb (r =? master)) (zrange 0 (zprod topo))).

(** sub_array_type on the master (of the global array, at 0) and elsewhere
    (of the ghosted local array, at the ghost offset).
    mpi_utils_2d.py:452-470, mpi_utils_3d.py:1174-1192. *)
Definition master_type : list Z := mpi_subarray fc_global loc (map (fun _ => 0) loc).
Definition slave_type : list Z := mpi_subarray fc_local loc (map (fun _ => g) loc).

(** (global_field.ravel()[idx:], 1, sub_array_type) with
    idx = ravel_multi_index(coords * local_grid_size, global_grid_size).
    Simplification: global_field is C contiguous, so [ravel()] is a view. *)
Definition master_buf (gid : nat) (r : Z) : list addr :=
  let idx := ravel fc_global (vmul (cart_coords topo r) loc) in
  map (fun o => (gid, idx + o)) master_type.
(** (local_field, 1, sub_array_type) *)
Definition slave_buf (lid : nat) : list addr := map (fun o => (lid, o)) slave_type.

(** local_chunk_idx: slices [coords*n, (coords+1)*n) of the global array;
    inner_idx: slices [g, -g) of the local array ("..." when g = 0).
    mpi_utils_2d.py:444-449 and 478-489. *)
Definition chunk_cells (gid : nat) : list addr :=
  map (fun c => (gid, ravel fc_global c)) (box (vmul (cart_coords topo master) loc) loc).
Definition inner_cells (lid : nat) : list addr :=
  map (fun c => (lid, ravel fc_local c)) (box (map (fun _ => g) loc) loc).

(** numpy assignment dst[...] = src[...] between distinct arrays. *)
Definition assign (dst src : list addr) : @bop T := BLocal (fun m => write dst (map m src) m).

(** gather_local_scalar_field, mpi_utils_2d.py:472-507, mpi_utils_3d.py:1194-1233 *)
Definition gather_scalar (r : Z) (gid lid : nat) : list bop :=
  if r =? master then
    assign (chunk_cells gid) (inner_cells lid) ::
    map (fun s => BRecv (Some s) (master_buf gid s)) order
  else [BSend (Some master) (slave_buf lid)].

(** scatter_global_scalar_field, mpi_utils_2d.py:523-555, mpi_utils_3d.py:1253-1290 *)
Definition scatter_scalar (r : Z) (gid lid : nat) : list bop :=
  if r =? master then
    assign (inner_cells lid) (chunk_cells gid) ::
    map (fun s => BSend (Some s) (master_buf gid s)) order
  else [BRecv (Some master) (slave_buf lid)].

(** gather_local_vector_field / scatter_global_vector_field: component by
    component.  mpi_utils_2d.py:509-521 and 557-568, mpi_utils_3d.py:1235-1251
    and 1292-1306.  [comps] lists the (global, local) component arrays. *)
Definition gather_fields (comps : list (nat * nat)) (r : Z) : list bop :=
  flat_map (fun c => gather_scalar r (fst c) (snd c)) comps.
Definition scatter_fields (comps : list (nat * nat)) (r : Z) : list bop :=
  flat_map (fun c => scatter_scalar r (fst c) (snd c)) comps.

(** A user program: a sequence of gather (true) and scatter (false) calls,
    executed by every rank, without barriers in between. *)
Definition calls_prog (calls : list (bool * list (nat * nat))) (r : Z) : list (@bop T) :=
  flat_map (fun c : bool * list (nat * nat) => if fst c then gather_fields (snd c) r else scatter_fields (snd c) r) calls.
End FieldComm.
