(** Specification vocabulary for Lagrangian nodes. *)
From Coq Require Import QArith.
From Verif Require Import Base SpecGrid Comm Blocking.
Open Scope Z_scope.

(** Node coordinates (zyx order, relative to the first cell) inside the box of
    cells with corner [ss] and extents [ls], half open. *)
Inductive in_cells (dx : Q) : list Z -> list Z -> list Q -> Prop :=
| ic_nil : in_cells dx [] [] []
| ic_cons s ss l ls x xs :
    (dx * inject_Z s <= x)%Q -> (x < dx * inject_Z (s + l))%Q -> in_cells dx ss ls xs ->
    in_cells dx (s :: ss) (l :: ls) (x :: xs).

(** position (xyz) -> zyx coordinates relative to the grid shift *)
Definition rel (shift : Q) (pos : list Q) : list Q := map (fun p => p - shift)%Q (rev pos).

Definition in_domain (dx shift : Q) (dims loc : list Z) (pos : list Q) : Prop :=
  in_cells dx (map (fun _ => 0) dims) (global_size dims loc) (rel shift pos).
(** the node lies in rank r's block of cells *)
Definition in_block (dx shift : Q) (dims loc : list Z) (r : Z) (pos : list Q) : Prop :=
  in_cells dx (block_start dims loc r) loc (rel shift pos).

(** Nodes assigned to rank r, ascending. *)
Definition nodes_of (address : list Z) (r : Z) : list Z :=
  filter (fun j => nth (Z.to_nat j) address (-1) =? r) (zrange 0 (Z.of_nat (length address))).
Definition node_count (address : list Z) (r : Z) : Z := Z.of_nat (length (nodes_of address r)).

Section S.
Context {T : Type}.
Variables (n : Z) (address : list Z) (nc master : Z) (gid lid : nat).

(** cell of component d of local node i on rank r, and of global node j *)
Definition lag_local (r d i : Z) : addr := (lid, d * node_count address r + i).
Definition lag_global (d j : Z) : addr := (gid, d * Z.of_nat (length address) + j).
(** j is the i-th node of rank r *)
Definition ith_node (r i j : Z) : Prop :=
  0 <= i /\ nth_error (nodes_of address r) (Z.to_nat i) = Some j.

Record lag_scattered (m m' : Z -> @lmem T) : Prop := {
  ls_values : forall r d i j, 0 <= r < n -> 0 <= d < nc -> ith_node r i j ->
    m' r (lag_local r d i) = m master (lag_global d j);
  ls_rest : forall r a,
    ~ (0 <= r < n /\ exists d i j, 0 <= d < nc /\ ith_node r i j /\ a = lag_local r d i) ->
    m' r a = m r a }.

Record lag_gathered (m m' : Z -> @lmem T) : Prop := {
  lg_values : forall r d i j, 0 <= r < n -> 0 <= d < nc -> ith_node r i j ->
    m' master (lag_global d j) = m r (lag_local r d i);
  lg_others : forall r a, r <> master -> m' r a = m r a;
  lg_rest : forall a,
    ~ (exists d j, 0 <= d < nc /\ 0 <= j < Z.of_nat (length address) /\ a = lag_global d j) ->
    m' master a = m master a }.
End S.
