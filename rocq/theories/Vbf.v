(** Model of VirtualBoundaryForcingMPI
    (sopht_mpi/numeric/immersed_boundary_ops/VirtualBoundaryForcingMPI.py):
    buffers, redistribution, mismatch, forcing, time step, with
    assume_data_locality = False ([interact_with], [interact]) or True
    ([interact_local]).  The forcing is spread by [spread2]/[spread3] (EulLag.v).

    Simplifications: the interpolated flow velocity of a node is an input
    (EulLag.v and C30 give it for every decomposition); collective operations
    used for control only (bcast of rank_address inside map, allreduce of the
    update flag) are not messages of the model: every rank uses the result. *)
From Verif Require Import Base SpecGrid SpecLag SpecVbf Comm Blocking Lagrangian.

(** Arrays: global position/velocity mismatch, forcing, and the body's position
    and velocity (on the master); local mismatches, forcing, body position and
    velocity, flow velocity (on every rank). *)
Record arrays := { gpm : nat; gvm : nat; gfo : nat; gpos : nat; gvel : nat;
                   lpm : nat; lvm : nat; lfo : nat; lpos : nat; lvel : nat; lflow : nat }.
Definition locals (a : arrays) : list nat := [lflow a; lpm a; lvm a; lfo a; lpos a; lvel a].
Definition all_arrays (a : arrays) : list nat := [gpm a; gvm a; gfo a; gpos a; gvel a] ++ locals a.

(** rank_address of the field communicator (with the enumeration order of its
    set of slave ranks) and every rank's self.local_num_lag_nodes. *)
Record vb := { address : list Z; order : list Z; num : Z -> Z }.

Section Vbf.
Context {T : Type}.
Variables (add sub mul : T -> T -> T) (z stiff damp : T).
Variables (n nc master : Z) (A : arrays).

(** f[...] = value, elementwise, for an array of k elements. *)
Definition fill (f : nat) (k : Z) (v : Z -> @lmem T -> T) (m : @lmem T) : @lmem T :=
  fun a => if (fst a =? f)%nat && (0 <=? snd a) && (snd a <? k) then v (snd a) m else m a.

(** __init__: map by the initial positions, local_num_lag_nodes.  140-153 *)
Definition vb_init (addr0 ord0 : list Z) : vb := {| address := addr0; order := ord0; num := local_num_lag_nodes addr0 |}.

(** _init_local_buffers, 201-236: fresh zero arrays (np.empty ones are not modelled). *)
Definition init_local_buffers (m : @lmem T) : @lmem T := fun a => if existsb (Nat.eqb (fst a)) (locals A) then z else m a.

(** update_buffer_flag after the allreduce, 253-260 *)
Definition update_flag (s : vb) (addr' : list Z) : bool :=
  existsb (fun r => negb (num s r =? local_num_lag_nodes addr' r)) (zrange 0 n).

(** local_num_lag_nodes after update_buffers, 261-266 *)
Definition remapped (s : vb) (addr' ord' : list Z) : vb :=
  {| address := addr'; order := ord'; num := if update_flag s addr' then local_num_lag_nodes addr' else num s |}.

(** update_buffers, 238-276 *)
Definition update_buffers (s : vb) (addr' ord' : list Z) (r : Z) : list (@bop T) :=
  lag_gather (address s) nc master (order s) (gpm A) (lpm A) r ++
  lag_gather (address s) nc master (order s) (gvm A) (lvm A) r ++
  (if update_flag s addr' then
     [BLocal init_local_buffers] ++
     lag_scatter addr' nc master ord' (gpm A) (lpm A) r ++
     lag_scatter addr' nc master ord' (gvm A) (lvm A) r
   else []).

(** The body's compute_lag_grid_position_field / velocity_field on the master
    (the other ranks' grids have no nodes). *)
Definition set_body (N : Z) (pos body : Z -> Z -> T) (m : @lmem T) : @lmem T :=
  fill (gvel A) (nc * N) (fun x _ => body (x / N) (x mod N)) (fill (gpos A) (nc * N) (fun x _ => pos (x / N) (x mod N)) m).

(** Steps 1-3 of compute_interaction_force_on_lag_grid with the flow velocity as
    an input: the k local nodes get the values [flow].  The variant that
    interpolates the velocity arrays is in Coupled.v. *)
Definition given_flow (k : Z) (nodes : list Z) (flow : Z -> Z -> T) : @lmem T -> @lmem T :=
  fill (lflow A) (nc * k) (fun x _ => flow (x / k) (nth (Z.to_nat (x mod k)) nodes 0)).

(** Steps 1-5 of compute_interaction_force_on_lag_grid on one rank with k local
    nodes: flow velocity ([interp]: support, weights, interpolation), velocity
    mismatch, forcing.  360-397 *)
Definition local_forcing (k : Z) (interp : @lmem T -> @lmem T) (m : @lmem T) : @lmem T :=
  let m1 := interp m in
  let m2 := fill (lvm A) (nc * k) (fun x m => sub (m (lflow A, x)) (m (lvel A, x))) m1 in
  fill (lfo A) (nc * k) (fun x m => add (mul stiff (m (lpm A, x))) (mul damp (m (lvm A, x)))) m2.

(** compute_interaction_force_on_lag_grid, 333-406 *)
Definition interact_with (s : vb) (addr' ord' : list Z) (pos body : Z -> Z -> T) (interp : Z -> @lmem T -> @lmem T) (r : Z) : list (@bop T) :=
  [BLocal (if r =? master then set_body (Z.of_nat (length (address s))) pos body else fun m => m)] ++
  update_buffers s addr' ord' r ++
  lag_scatter addr' nc master ord' (gpos A) (lpos A) r ++
  lag_scatter addr' nc master ord' (gvel A) (lvel A) r ++
  [BLocal (local_forcing (num (remapped s addr' ord') r) (interp r))] ++
  lag_gather addr' nc master ord' (gfo A) (lfo A) r.
Definition interact (s : vb) (addr' ord' : list Z) (pos body flow : Z -> Z -> T) (r : Z) : list (@bop T) :=
  interact_with s addr' ord' pos body (fun r => given_flow (num (remapped s addr' ord') r) (where_eq addr' r) flow) r.

(** The same with assume_data_locality = True (350-355, 399-406; buffers 150-153, 176-199; fixed for the whole run): the
    master keeps all N nodes of its forcing grid, the other ranks' forcing grids are empty (EmptyForcingGrid,
    immersed_body_forcing_grid.py:4-14), nothing is mapped or sent.  The local position and velocity are views of the body's
    arrays, the global forcing a view of the local one: here separate arrays, copied when their base has been written (the views
    of the mismatch arrays are left out, nothing reads them). *)
Definition view (base v : nat) (k : Z) (m : @lmem T) : @lmem T := fill v k (fun x m => m (base, x)) m.
Definition interact_local (N : Z) (pos body : Z -> Z -> T) (interp : Z -> @lmem T -> @lmem T) (r : Z) : list (@bop T) :=
  let k := if r =? master then N else 0 in
  [BLocal (if r =? master then set_body N pos body else fun m => m);
   BLocal (view (gpos A) (lpos A) (nc * k)); BLocal (view (gvel A) (lvel A) (nc * k));
   BLocal (local_forcing k (interp r));
   BLocal (view (lfo A) (gfo A) (nc * k))].

(** time_step, 452-460 *)
Definition advance (s : vb) (dt : T) (r : Z) : list (@bop T) :=
  [BLocal (fill (lpm A) (nc * num s r) (fun x m => add (m (lpm A, x)) (mul dt (m (lvm A, x)))))].

(** A history of calls.  An interaction comes with the mapping of the nodes'
    new positions. *)
Inductive call := CInteract (addr' ord' : list Z) (pos body flow : Z -> Z -> T) | CAdvance (dt : T).
Definition call1 (s : vb) (c : call) : vb := match c with CInteract addr' ord' _ _ _ => remapped s addr' ord' | CAdvance _ => s end.
Definition call_prog (s : vb) (c : call) : Z -> list (@bop T) :=
  match c with CInteract addr' ord' pos body flow => interact s addr' ord' pos body flow | CAdvance dt => advance s dt end.
Fixpoint calls_prog (s : vb) (cs : list call) (r : Z) : list (@bop T) :=
  match cs with [] => [] | c :: cs' => call_prog s c r ++ calls_prog (call1 s c) cs' r end.
Definition final (s : vb) (cs : list call) : vb := fold_left call1 cs s.
End Vbf.
