(** What the description files of a save should say. *)
From Coq Require Import String.
From Verif Require Import Base SpecGrid SpecIO Comm IoEul IoLag SpecIOLag Xdmf.
Open Scope Z_scope.
Open Scope list_scope.

(** ".h5" occurs in s. *)
Definition has_h5 (s : string) : Prop := exists p q, s = (p ++ ".h5" ++ q)%string.

(** The ranks' writes, in some order: each rank's own writes in its order. *)
Definition some_order {W} (n : Z) (progs : Z -> list W) (ws : list (Z * W)) : Prop :=
  Forall (fun w => 0 <= fst w < n) ws /\ forall r, 0 <= r < n -> map snd (filter (fun w => fst w =? r) ws) = progs r.
(** What a file holds in the end: the last content written to it. *)
Fixpoint content {D} (name : string) (ws : list (Z * (string * D))) : option D :=
  match ws with
  | [] => None
  | (_, (f, d)) :: ws' => match content name ws' with Some d' => Some d' | None => if (f =? name)%string then Some d else None end
  end.

(** Three axes, z-y-x: a two-dimensional grid is a slab one cell thick. *)
Definition three_axes {V} (dim : Z) (thickness : V) (l : list V) : list V := if Z.eq_dec dim 3 then l else thickness :: l.
(** An Eulerian description fits: it lists the file's data sets, in order, each once, each of the shape of the grid, and gives
    the grid's shape, origin and spacing (along three axes). *)
Record eul_fits {V} (zero : V) (h5 : string) (dim : Z) (N : list Z) (origin dx : list V) (keys : list dkey) (d : xdoc V) : Prop := {
  ef_keys : map x_key (x_fields d) = map XEul keys;
  ef_items : Forall (fun i => x_file i = h5 /\ x_dims i = three_axes dim 1 N) (x_fields d);
  ef_topology : x_topology d = three_axes dim 1 N;
  ef_origin : snd (x_origin d) = three_axes dim zero origin;
  ef_spacing : snd (x_spacing d) = three_axes dim zero dx;
  ef_no_lagrangian : x_connect d = None /\ x_points d = None }.
(** Each vector field has dim components. *)
Definition vectors_ok (dim : Z) (fs : list efield) : Prop := Forall (fun f => match f with EVector _ arrs => Z.of_nat (length arrs) = dim | EScalar _ _ => True end) fs.

(** A Lagrangian description of grid [label] fits file F: it lists exactly the grid's data sets with their shapes. *)
Definition grid_of (k : lkey) : string := match k with KGrid g => g | KScalar g _ => g | KVector g _ => g end.
Definition lag_fits {T V} (h5 : string) (dim : Z) (label : string) (n : Z) (F : lfile T) (d : xdoc V) : Prop :=
  let listed := match x_points d with Some i => [i] | None => [] end ++ x_fields d in
  map (fun i => (x_key i, x_dims i)) listed =
    map (fun k : lkey * (bool * Z) => (XLag (fst k), if fst (snd k) then [snd (snd k); dim] else [snd (snd k)])) (filter (fun k => (grid_of (fst k) =? label)%string) (l_keys F)) /\
  x_topology d = [n] /\
  x_connect d = option_map (fun n => {| x_file := h5; x_key := XConn label; x_dims := [1; n] |}) (dget label (l_conns F)) /\
  Forall (fun i => x_file i = h5) listed.
