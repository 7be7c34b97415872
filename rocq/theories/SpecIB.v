(** Specification of interpolation and spreading between the (global) grid and
    Lagrangian nodes.  Independent of the code model and of any decomposition.

    Positions list the coordinates in xyz order, cells in zyx order. *)
From Coq Require Import QArith Qround.
From Verif Require Import Base SpecGrid SpecGhostSum SpecLag.
Open Scope Z_scope.

Fixpoint zip_with {A B C} (f : A -> B -> C) (a : list A) (b : list B) : list C :=
  match a, b with x :: a', y :: b' => f x y :: zip_with f a' b' | _, _ => [] end.

Section S.
(** C: coordinates, D: distances, T: field values. *)
Context {C D T : Type}.
(** [cell x]: the last grid point at or below coordinate x;
    [dist k x]: signed distance from x to grid point k. *)
Variables (cell : C -> Z) (dist : Z -> C -> D) (w : Z).

Definition home (pos : list C) : list Z := map cell (rev pos).
Definition distances (P : list Z) (pos : list C) : list D := zip_with dist (rev P) pos.

(** P is one of the (2w)^d grid points around the node: home - w < P <= home + w on every axis. *)
Definition in_support (P : list Z) (pos : list C) : bool :=
  forallb (fun ab => (snd ab - w <? fst ab) && (fst ab <=? snd ab + w)) (combine P (home pos)).
(** All of them, row-major. *)
Definition support_points (pos : list C) : list (list Z) :=
  box (map (fun h => h - w + 1) (home pos)) (map (fun _ => 2 * w) pos).

(** Interpolated value of the global field u at a node: (dx^dim times) the sum
    over the support points of value times weight; [sum] is the summation the
    code uses, whatever its order and rounding. *)
Definition interpolated (scale : T -> T) (sum : list T -> T) (mul : T -> T -> T) (wt : list D -> T) (u : list Z -> T) (pos : list C) : T :=
  scale (sum (map (fun P => mul (u P) (wt (distances P pos))) (support_points pos))).

(** What a node at [pos] carrying the force F adds to grid point P. *)
Definition contribution (z : T) (mul : T -> T -> T) (wt : list D -> T) (pos : list C) (F : T) (P : list Z) : T :=
  if in_support P pos then mul F (wt (distances P pos)) else z.

(** The node lies in (the cells of) rank r's block: its home is an inner cell of it. *)
Definition node_in_block (dims loc : list Z) (r : Z) (pos : list C) : Prop :=
  in_box (block_start dims loc r) loc (home pos).
End S.

(** Exact rational coordinates with spacing dx and first grid point at [shift]. *)
Definition q_cell (dx shift : Q) (x : Q) : Z := Qfloor ((x - shift) / dx).
Definition q_dist (dx shift : Q) (k : Z) (x : Q) : Q := (inject_Z k * dx + shift - x)%Q.

(** ** Sums over the whole grid *)
(** The inner cells of all ranks, as (rank, ghosted index) pairs. *)
Definition inner_cells (dims loc : list Z) (g : Z) : list (Z * list Z) :=
  list_prod (zrange 0 (zprod dims)) (box (map (fun _ => g) loc) loc).

(** A commutative semiring. *)
Record comm_semiring {T} (add mul : T -> T -> T) (z one : T) : Prop := {
  cs_add : comm_monoid add z;
  cs_mul : comm_monoid mul one;
  cs_dist : forall a b c, mul a (add b c) = add (mul a b) (mul a c);
  cs_zero : forall a, mul a z = z }.

(** ** Nodes on ranks *)
Definition node_at (nodes : list (list Q)) (j : Z) : list Q := nth (Z.to_nat j) nodes [].
(** Positions of the nodes assigned to rank r, in node order. *)
Definition local_positions (nodes : list (list Q)) (address : list Z) (r : Z) : list (list Q) := map (node_at nodes) (nodes_of address r).

(** Array b (extents [sizes]) is zero on all n ranks. *)
Definition zero_buf {T} (z : T) (n : Z) (b : nat) (sizes : list Z) (m : Z -> nat * Z -> T) : Prop :=
  forall r K, 0 <= r < n -> inb sizes K -> m r (b, ravel sizes K) = z.

(** At most one axis of the process grid is distributed. *)
Definition at_most_one_split (dims : list Z) : Prop := (length (filter (fun d => (1 <? d)%Z) dims) <= 1)%nat.
