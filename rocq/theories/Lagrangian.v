(** Model of MPILagrangianFieldCommunicator2D/3D
    (mpi_utils_2d.py:571-712, mpi_utils_3d.py:1309-1459).
    One model for both: they differ in the number of axes only. *)
From Coq Require Import QArith.
From Verif Require Import Base SpecGrid Cart Comm Blocking FieldComm.
Open Scope Z_scope.

(** [x.astype(np.int32)]: truncation toward zero.
    Simplifications: coordinates are exact rationals instead of binary64, and
    int32 does not overflow. *)
Definition trunc (q : Q) : Z := Z.quot (Qnum q) (Zpos (Qden q)).

Inductive outcome (A : Type) := Mapped (a : A) | Aborted | IndexError.
Arguments Mapped {A}. Arguments Aborted {A}. Arguments IndexError {A}.

Section Map.
(** topology and local sizes (zyx order), Eulerian dx and coordinate shift, periodicity *)
Variables (per : bool) (topo loc : list Z) (dx shift : Q).

(** eul_subblock_coords of one node, zyx order; node positions are in xyz
    order, hence [rev].  eul_subblock_dx = eul_grid_dx * local_grid_size.
    mpi_utils_2d.py:593, 615-624, mpi_utils_3d.py:1331, 1354-1368 *)
Fixpoint subblock_coords (ns : list Z) (ps : list Q) : list Z :=
  match ns, ps with
  | n :: ns', p :: ps' => trunc ((p - shift) / (dx * inject_Z n))%Q :: subblock_coords ns' ps'
  | _, _ => []
  end.
Definition node_block (pos : list Q) : list Z := subblock_coords loc (rev pos).

(** [np.any(coords >= topology)] on some axis.  mpi_utils_2d.py:625-631, 3d:1369-1378 *)
Fixpoint any_ge (cs ts : list Z) : bool :=
  match cs, ts with
  | c :: cs', t :: ts' => (t <=? c) || any_ge cs' ts'
  | _, _ => false
  end.

(** numpy integer indexing: a negative index counts from the end. *)
Definition np_index (d c : Z) : option Z :=
  if (0 <=? c) && (c <? d) then Some c
  else if (- d <=? c) && (c <? 0) then Some (c + d) else None.
Fixpoint np_indices (ds cs : list Z) : option (list Z) :=
  match ds, cs with
  | d :: ds', c :: cs' =>
      match np_index d c, np_indices ds' cs' with
      | Some i, Some is => Some (i :: is)
      | _, _ => None
      end
  | _, _ => Some []
  end.

(** self.rank_map[coords]: the map filled with Get_cart_rank of every index.
    mpi_utils_2d.py:603-606 and 634-637, 3d:1343-1350 and 1380-1383 *)
Definition rank_map_lookup (cs : list Z) : option Z :=
  match np_indices topo cs with
  | Some is => get_cart_rank per topo is
  | None => None
  end.

Fixpoint all_some {A} (l : list (option A)) : option (list A) :=
  match l with
  | [] => Some []
  | Some a :: l' => option_map (cons a) (all_some l')
  | None :: _ => None
  end.

(** _compute_lag_nodes_rank_address, mpi_utils_2d.py:608-638, 3d:1352-1384 *)
Definition compute_rank_address (nodes : list (list Q)) : outcome (list Z) :=
  if existsb (fun p => any_ge (node_block p) topo) nodes then Aborted
  else match all_some (map (fun p => rank_map_lookup (node_block p)) nodes) with
       | Some a => Mapped a
       | None => IndexError
       end.

(** map_lagrangian_nodes_based_on_position on the master, up to the bcast that
    gives every rank the same rank_address.  mpi_utils_2d.py:640-654, 3d:1386-1400.
    [shape0] is global_lag_positions.shape[0]. *)
Definition map_nodes (shape0 : Z) (nodes : list (list Q)) : outcome (list Z) :=
  if negb (shape0 =? Z.of_nat (length topo)) then Aborted else compute_rank_address nodes.
End Map.

(** np.where(rank_address == r)[0]: ascending node numbers. mpi_utils_2d.py:656, 677, 701 *)
Definition where_eq (address : list Z) (r : Z) : list Z :=
  filter (fun j => nth (Z.to_nat j) address (-1) =? r) (zrange 0 (Z.of_nat (length address))).

(** np.count_nonzero(rank_address == rank), mpi_utils_2d.py:657-659 *)
Definition local_num_lag_nodes (address : list Z) (r : Z) : Z :=
  Z.of_nat (length (filter (fun a => a =? r) address)).

Section LagComm.
Context {T : Type}.
(** rank_address, number of components (grid_dim), master rank, enumeration
    order of the set slave_ranks_containing_lag_nodes *)
Variables (address : list Z) (nc : Z) (master : Z) (order : list Z).

(** set(rank_address) - {master}; any enumeration.  mpi_utils_2d.py:660-662 *)
Definition lag_slave_order : Prop :=
  NoDup order /\ forall s, In s order <-> In s address /\ s <> master.

Definition num_nodes : Z := Z.of_nat (length address).

(** global_lag_field[:, idx] in C order, global shape (nc, num_nodes) *)
Definition global_columns (gid : nat) (r : Z) : list addr :=
  flat_map (fun d => map (fun j => (gid, d * num_nodes + j)) (where_eq address r)) (zrange 0 nc).
(** a whole local field of shape (nc, k), C order *)
Definition local_all (lid : nat) (r : Z) : list addr :=
  map (fun i => (lid, i)) (zrange 0 (nc * local_num_lag_nodes address r)).

(** scatter_global_field, mpi_utils_2d.py:664-686, 3d:1410-1432.
    The temporary global_lag_field[:, idx].ravel() is not modelled: the Send
    reads the global field directly. *)
Definition lag_scatter (gid lid : nat) (r : Z) : list (@bop T) :=
  (if r =? master then
     assign (local_all lid r) (global_columns gid r) ::
     map (fun s => BSend (Some s) (global_columns gid s)) order
   else []) ++
  (if existsb (Z.eqb r) order then [BRecv (Some master) (local_all lid r)] else []).

(** gather_local_field, mpi_utils_2d.py:688-712, 3d:1434-1459.  The receive
    buffer and its assignment to global_lag_field[:, idx] are one receive. *)
Definition lag_gather (gid lid : nat) (r : Z) : list (@bop T) :=
  (if existsb (Z.eqb r) order then [BSend (Some master) (local_all lid r)] else []) ++
  (if r =? master then
     assign (global_columns gid r) (local_all lid r) ::
     map (fun s => BRecv (Some s) (global_columns gid s)) order
   else []).
End LagComm.
