(** Specification vocabulary for interactions of bodies with the flow. *)
From Coq Require Import QArith.
From Verif Require Import Base SpecGrid SpecGhostSum SpecLag SpecIB SpecVbf Comm Blocking Lagrangian Vbf Bodies.
Open Scope Z_scope.

Section V.
Context {T : Type}.
Variables (n nc master : Z) (A : arrays) (N : Z).
(** On every rank, the local array [lid] has component c of node j at the place
    of that node. *)
Definition copies_agree (addr : list Z) (lid : nat) (m : Z -> @lmem T) (P : Z -> Z -> T) : Prop :=
  forall r c i j, 0 <= r < n -> 0 <= c < nc -> ith_node addr r i j -> m r (lag_local addr lid r c i) = P c j.
(** Legal mapping, right counts, and local mismatches P and V. *)
Definition consistent (s : vb) (m : Z -> @lmem T) (P V : Z -> Z -> T) : Prop :=
  mapping_ok n master N (address s) (order s) /\ (forall r, 0 <= r < n -> num s r = node_count (address s) r) /\
  copies_agree (address s) (lpm A) m P /\ copies_agree (address s) (lvm A) m V.
(** ... and the forcing [fo st] on the master. *)
Definition fstate (s : vb) (m : Z -> @lmem T) (st : @node_state T) : Prop :=
  consistent s m (pm st) (vm st) /\ (forall c j, 0 <= c < nc -> 0 <= j < N -> m master (gfo A, c * N + j) = fo st c j).
End V.

Section B.
Context {T : Type}.
Variables (add sub mul : T -> T -> T) (z : T).
(** Force of component c on node j, and what the body adds to grid point P. *)
Definition node_force (b : interactor T) (st : @node_state T) (c j : Z) : T :=
  add (mul (i_stiff b) (pm st c j)) (mul (i_damp b) (sub (c_flow b c j) (c_body b c j))).
Definition body_effect (dx shift : Q) (bs : interactor T * @node_state T) (u : Z -> list Z -> T) (c : Z) (P : list Z) : T :=
  add (if i_reset (fst bs) then z else u c P)
    (total add z (map (fun j => contribution (q_cell dx shift) (q_dist dx shift) (i_width (fst bs)) z mul (i_weight (fst bs)) (node_at (c_nodes (fst bs)) j) (node_force (fst bs) (snd bs) c j) P)
      (zrange 0 (Z.of_nat (length (c_nodes (fst bs))))))).

Section Grid.
Variables (dims loc : list Z) (g : Z) (dx shift : Q) (comps : list nat).
Notation n := (zprod dims).
Notation nc := (Z.of_nat (length comps)).
(** The forcing field is u on the (global) grid, and zero in all ghosts. *)
Definition forc (u : Z -> list Z -> T) (m : Z -> @lmem T) : Prop :=
  (forall c f r I, 0 <= c -> nth_error comps (Z.to_nat c) = Some f -> 0 <= r < n -> inner g loc I -> m r (f, ravel (ghosted g loc) I) = u c (ghost_pos dims loc g r I)) /\
  (forall f r I, In f comps -> 0 <= r < n -> inb (ghosted g loc) I -> ~ inner g loc I -> m r (f, ravel (ghosted g loc) I) = z).
(** One call is legal: mapping, positions, consistency, memory. *)
Record call_ready (bufsz : list (list Z)) (bs : interactor T * @node_state T) (m : Z -> @lmem T) : Prop := {
  rd_master : 0 <= i_master (fst bs) < n;
  rd_width : 1 <= i_width (fst bs) <= g;
  rd_nodes : Forall (in_domain dx shift dims loc) (c_nodes (fst bs));
  rd_map : map_nodes false dims loc dx shift (Z.of_nat (length dims)) (c_nodes (fst bs)) = Mapped (c_address (fst bs));
  rd_order : mapping_ok n (i_master (fst bs)) (Z.of_nat (length (c_nodes (fst bs)))) (c_address (fst bs)) (c_order (fst bs));
  rd_moves : moves_change_counts n (address (i_state (fst bs))) [c_address (fst bs)];
  rd_state : fstate n nc (i_master (fst bs)) (i_arrays (fst bs)) (Z.of_nat (length (c_nodes (fst bs)))) (i_state (fst bs)) m (snd bs);
  rd_bufs : Forall2 (fun b sz => zero_buf z n b sz m) (i_bufs (fst bs)) bufsz }.
Definition call_done (bufsz : list (list Z)) (bs : interactor T * @node_state T) (m : Z -> @lmem T) : Prop :=
  fstate n nc (i_master (fst bs)) (i_arrays (fst bs)) (Z.of_nat (length (c_nodes (fst bs)))) (remapped n (i_state (fst bs)) (c_address (fst bs)) (c_order (fst bs))) m
    (ev1 add sub mul (i_stiff (fst bs)) (i_damp (fst bs)) (snd bs) (Interact (c_body (fst bs)) (c_flow (fst bs)))) /\
  Forall2 (fun b sz => zero_buf z n b sz m) (i_bufs (fst bs)) bufsz.
Definition call_ids (bs : interactor T * @node_state T) : list nat := all_arrays (i_arrays (fst bs)) ++ i_bufs (fst bs).

End Grid.
End B.
