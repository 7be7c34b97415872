(** Model of the cell-centre coordinate arrays built by init_domain:
    flow_simulators_mpi_2d.py:110-136, flow_simulators_mpi_3d.py:124-158.
    Exact rational arithmetic (the code rounds to real_t). *)
From Coq Require Import QArith.
From Verif Require Import Base SpecGrid Cart.
Open Scope Q_scope.

(** np.linspace(a, b, n)[i] *)
Definition linspace (a b : Q) (n i : Z) : Q :=
  if (n =? 1)%Z then a else a + inject_Z i * ((b - a) / inject_Z (n - 1)).
(** local_x, local_y, local_z: [sub] is substart_idx of the axis (coords * local_grid_size), lines 119, 124-133 / 134, 139-153 *)
Definition local_axis (dx : Q) (sub loc g i : Z) : Q :=
  let shift := dx / 2 in let gshift := inject_Z g * dx in
  linspace (shift + inject_Z sub * dx - gshift) (inject_Z (sub + loc) * dx - shift + gshift) (loc + 2 * g) i.
(** np.meshgrid(axis_0, axis_1, .., indexing="ij")[k][I] = axis_k[I[k]]; np.flipud reverses the first
    (component) axis: component c of the position field is axis d-1-c.  Lines 135 / 155-157 *)
Definition position_field (dims loc : list Z) (dx : Q) (g r : Z) (c : nat) (I : list Z) : Q :=
  let k := (length loc - 1 - c)%nat in
  local_axis dx (nth k (cart_coords dims r) 0%Z * nth k loc 0%Z) (nth k loc 0%Z) g (nth k I 0%Z).
(** dx = x_range / grid_size_x; y_range = x_range * grid_size_y / grid_size_x.  Lines 112-113 / 126-128 *)
Definition cell_size (x_range : Q) (nx : Z) : Q := x_range / inject_Z nx.
Definition other_range (x_range : Q) (n nx : Z) : Q := x_range * inject_Z n / inject_Z nx.
