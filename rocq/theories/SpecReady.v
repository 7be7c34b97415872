(** Spreading in rounded arithmetic: the terms of a cell's sum, and ranks that hold the forces and the field. *)
From Coq Require Import Reals QArith.
From Verif Require Import Base SpecGrid SpecGhostSum SpecLag SpecIB Comm Blocking Lagrangian.
Open Scope Z_scope.

(** The nodes that reach grid point P. *)
Definition reached (dx shift : Q) (w : Z) (nodes : list (list Q)) (P : list Z) : nat :=
  length (filter (fun j => in_support (q_cell dx shift) w P (node_at nodes j)) (zrange 0 (Z.of_nat (length nodes)))).
(** What the nodes add to P: node j's force times the weight, as computed ([mul] rounds). *)
Definition contributions (dx shift : Q) (w : Z) (mul : R -> R -> R) (wt : list Q -> R) (nodes : list (list Q)) (force : Z -> R) (P : list Z) : list R :=
  map (fun j => contribution (q_cell dx shift) (q_dist dx shift) w 0%R mul wt (node_at nodes j) (force j) P) (zrange 0 (Z.of_nat (length nodes))).

(** A process grid made ready for spreading: every rank holds the forces of its nodes, its block of the field u, zero ghosts and
    zero buffers, all of them numbers of the format. *)
Record ready (F : R -> Prop) (dims loc : list Z) (g : Z) (dx shift : Q) (nodes : list (list Q)) (address : list Z) (comps : list nat) (lagf : nat) (bufs : list (nat * list Z))
    (force : Z -> Z -> R) (u : nat -> list Z -> R) (m : Z -> @lmem R) : Prop := {
  rd_format : forall r a, F (m r a);
  rd_fields : NoDup (lagf :: comps ++ map fst bufs);
  rd_bufs : forall b s, In (b, s) bufs -> zero_buf 0%R (zprod dims) b s m;
  rd_inside : Forall (in_domain dx shift dims loc) nodes;
  rd_mapped : map_nodes false dims loc dx shift (Z.of_nat (length dims)) nodes = Mapped address;
  rd_forces : forall r c f i j, 0 <= r < zprod dims -> 0 <= c -> nth_error comps (Z.to_nat c) = Some f -> ith_node address r i j -> m r (lag_local address lagf r c i) = force c j;
  rd_inner : forall f r I, In f comps -> 0 <= r < zprod dims -> inner g loc I -> m r (f, ravel (ghosted g loc) I) = u f (ghost_pos dims loc g r I);
  rd_ghosts : forall f r I, In f comps -> 0 <= r < zprod dims -> inb (ghosted g loc) I -> ~ inner g loc I -> m r (f, ravel (ghosted g loc) I) = 0%R }.
Definition buffers_2d (ny nx g : Z) (rb cb : nat) : list (nat * list Z) := [(rb, [g; nx + 2 * g]); (cb, [ny + 2 * g; g])].
Definition buffers_3d (n0 n1 n2 g : Z) (bz by_ bx : nat) : list (nat * list Z) := [(bz, [g; n1 + 2 * g; n2 + 2 * g]); (by_, [n0 + 2 * g; g; n2 + 2 * g]); (bx, [n0 + 2 * g; n1 + 2 * g; g])].
