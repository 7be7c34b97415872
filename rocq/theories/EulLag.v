(** Model of EulerianLagrangianGridCommunicatorMPI2D/3D
    (sopht_mpi/numeric/immersed_boundary_ops/).  One model for both, they
    differ in the number of axes.  Coordinates, distances and field values are
    three arbitrary types; floating-point arithmetic enters only as arbitrary
    functions on them. *)
From Verif Require Import Base SpecGrid Cart Comm Blocking Spmd Ghost2D Ghost3D Stencil GhostSum.

Fixpoint zip {A B C} (f : A -> B -> C) (a : list A) (b : list B) : list C :=
  match a, b with x :: a', y :: b' => f x y :: zip f a' b' | _, _ => [] end.

Section EulLag.
Context {C D T : Type}.
(** x |-> (x - eul_grid_coord_shift) // dx ;  k, x |-> k * dx + eul_grid_coord_shift - x ;
    the weight formula, a function of the distance vector of one support point. *)
Variables (fdiv : C -> Z) (gdist : Z -> C -> D) (wt : list D -> T).
(** x |-> x * dx**grid_dim, np.sum, *, + *)
Variables (scale : T -> T) (sum : list T -> T) (mul add : T -> T -> T).
Variables (topo loc : list Z) (g w : Z).

(** The constructor rejects ghost sizes smaller than the kernel width.
    EulerianLagrangianGridCommunicatorMPI2D.py:29-34, 3D.py:29-34 *)
Definition communicator_rejects : bool := g <? w.

(** mpi_local_substart_coord_shift (xyz order): flip(coords * local_grid_size) - ghost_size.
    2D.py:40-46, 3D.py:40-46 *)
Definition substart_shift (r : Z) : list Z := map (fun s => s - g) (rev (vmul (cart_coords topo r) loc)).

(** nearest_eul_grid_index_to_lag_grid of one node (xyz order).
    2D.py:160-162, 3D.py:157-159.  Assignment to an integer array of an
    integral float is exact. *)
Definition nearest (r : Z) (pos : list C) : list Z := zip (fun x s => fdiv x - s) pos (substart_shift r).

(** The support offsets, np.arange(-w+1, w+1) on every axis; the last array
    axis is x.  2D.py:133-135 (meshgrid default indexing), 3D.py:132-134 (ij). *)
Definition support_idx : list (list Z) := box (map (fun _ => - w + 1) loc) (map (fun _ => 2 * w) loc).

(** local_eul_grid_support_of_lag_grid[:, k, i] for support offset o (zyx): the
    distance vector in xyz order.  2D.py:165-177, 3D.py:162-178 *)
Definition support (r : Z) (pos : list C) (o : list Z) : list D :=
  zip gdist (zip Z.add (zip Z.add (nearest r pos) (rev o)) (substart_shift r)) pos.

(** interp_weights[..., i] in C order.  2D.py:391-518, 3D.py:445-588: the
    formulas act elementwise on the distance vectors. *)
Definition weights (r : Z) (pos : list C) : list T := map (fun o => wt (support r pos o)) support_idx.

(** eul_grid_field[nearest[-1] - w + 1 : nearest[-1] + w + 1, ..., nearest[0] - w + 1 : nearest[0] + w + 1] *)
Definition window (r : Z) (pos : list C) : list pslice := map (fun n => SBetween (n - w + 1) (n + w + 1)) (rev (nearest r pos)).
Definition window_cells (r : Z) (pos : list C) : list (list Z) := view_cells (ghosted g loc) (window r pos).

(** Nodes of one rank with their local numbers. *)
Definition numbered {A} (l : list A) : list (Z * A) := combine (zrange 0 (Z.of_nat (length l))) l.

(** eulerian_to_lagrangian_grid_interpolation_kernel: for every node, for every
    component (array of comps), lag[c, i] = sum(eul[c][window] * weights[..., i]) * dx**dim.
    2D.py:182-273, 3D.py:182-330; the scalar version is comps = [f]. *)
Definition e2l_lops (r : Z) (comps : list nat) (lagf : nat) (nodes : list (list C)) : list (@lop T) :=
  flat_map (fun ip : Z * list C => map (fun cf : Z * nat =>
     {| la := (lagf, fst cf * Z.of_nat (length nodes) + fst ip);
        lf := fun m => scale (sum (zip mul (map (fun I => m (snd cf, ravel (ghosted g loc) I)) (window_cells r (snd ip))) (weights r (snd ip)))) |})
    (numbered comps)) (numbered nodes).

(** lagrangian_to_eulerian_grid_interpolation_kernel without the ghost sum: for
    every node, eul[..., window] += lag[..., i] * weights[..., i].
    2D.py:276-374, 3D.py:335-428 *)
Definition l2e_lops (r : Z) (comps : list nat) (lagf : nat) (nodes : list (list C)) : list (@lop T) :=
  flat_map (fun ip : Z * list C => flat_map (fun cf : Z * nat =>
     zip (fun I wk =>
       {| la := (snd cf, ravel (ghosted g loc) I);
          lf := fun m => add (m (snd cf, ravel (ghosted g loc) I)) (mul (m (lagf, fst cf * Z.of_nat (length nodes) + fst ip)) wk) |})
      (window_cells r (snd ip)) (weights r (snd ip)))
    (numbered comps)) (numbered nodes).
End EulLag.

(** lagrangian_to_eulerian_grid_interpolation_kernel: spreading, then one ghost
    sum per component.  2D.py:99-115 and 377-388, 3D.py:96-112 and 430-442.
    [lpos r]: positions of rank r's local nodes. *)
Definition spread2 {C D T : Type} (fdiv : C -> Z) (gdist : Z -> C -> D) (wt : list D -> T) (mul add : T -> T -> T) (times0 : T -> T)
    (per : bool) (py px ny nx g w : Z) (comps : list nat) (lagf rb cb : nat) (lpos : Z -> list (list C)) (r : Z) : list (@bop T) :=
  BLocal (run_lops (l2e_lops fdiv gdist wt mul add [py; px] [ny; nx] g w r comps lagf (lpos r))) ::
  flat_map (fun f => ghost_sum2 add times0 per py px ny nx g f rb cb r) comps.
Definition spread3 {C D T : Type} (fdiv : C -> Z) (gdist : Z -> C -> D) (wt : list D -> T) (mul add : T -> T -> T) (times0 : T -> T)
    (per : bool) (pz py px n0 n1 n2 g w : Z) (comps : list nat) (lagf bz by_ bx : nat) (lpos : Z -> list (list C)) (r : Z) : list (@bop T) :=
  BLocal (run_lops (l2e_lops fdiv gdist wt mul add [pz; py; px] [n0; n1; n2] g w r comps lagf (lpos r))) ::
  flat_map (fun f => ghost_sum3 add times0 per pz py px n0 n1 n2 g f bz by_ bx r) comps.

(** Velocity interpolation with ghosting: ghost exchange of all the components
    (init, finalise), then the interpolation kernel on every rank's local nodes.
    immersed_body_flow_interaction_mpi.py:128-135 and 153-155, then
    VirtualBoundaryForcingMPI.py:368-380.  The redistribution of the nodes in
    between is modelled in Lagrangian.v; [lpos] is its result. *)
Definition ghosted_interp2 {C D T : Type} (fdiv : C -> Z) (gdist : Z -> C -> D) (wt : list D -> T) (scale : T -> T) (sum : list T -> T) (mul : T -> T -> T)
    (per : bool) (py px ny nx g w : Z) (full : bool) (comps : list nat) (lagf : nat) (lpos : Z -> list (list C)) : list (@phase T) :=
  [PExch (all_copies (zprod [py; px]) (exchange2 per py px ny nx g full comps)) (fun _ => []);
   PLoc (fun r => e2l_lops fdiv gdist wt scale sum mul [py; px] [ny; nx] g w r comps lagf (lpos r))].
Definition ghosted_interp3 {C D T : Type} (fdiv : C -> Z) (gdist : Z -> C -> D) (wt : list D -> T) (scale : T -> T) (sum : list T -> T) (mul : T -> T -> T)
    (per : bool) (pz py px n0 n1 n2 g w : Z) (full : bool) (comps : list nat) (lagf : nat) (lpos : Z -> list (list C)) : list (@phase T) :=
  [PExch (all_copies (zprod [pz; py; px]) (exchange3 per pz py px n0 n1 n2 g full comps)) (fun _ => []);
   PLoc (fun r => e2l_lops fdiv gdist wt scale sum mul [pz; py; px] [n0; n1; n2] g w r comps lagf (lpos r))].
