(** Properties C12-C14: Lagrangian node mapping, scatter and gather. *)
From Coq Require Import QArith.
From Verif Require Import Base SpecGrid Comm Blocking SpecBlocking Lagrangian SpecLag SpecMap LagProofs LagComm MapExact.
Open Scope Z_scope.

(** ** C12 *)
(** All nodes in the domain: the mapping succeeds and gives each node the one
    rank whose half-open block of cells contains it. *)
Theorem C12_node_goes_to_owner_of_its_cell :
  forall per dims loc dx shift nodes,
    (0 < dx)%Q -> grid_ok dims loc -> Forall (in_domain dx shift dims loc) nodes ->
    exists address, map_nodes per dims loc dx shift (Z.of_nat (length dims)) nodes = Mapped address /\
      Forall2 (fun pos r => 0 <= r < zprod dims /\ in_block dx shift dims loc r pos /\
         forall r', 0 <= r' < zprod dims -> in_block dx shift dims loc r' pos -> r' = r) nodes address.
Proof. intros; now apply map_in_domain. Qed.
Print Assumptions C12_node_goes_to_owner_of_its_cell.

(** The ranks' index lists partition the nodes and the counts are their lengths. *)
Theorem C12_index_lists_partition_nodes :
  forall n address, Forall (fun r => 0 <= r < n) address ->
    (forall j, 0 <= j < Z.of_nat (length address) ->
       exists r, 0 <= r < n /\ In j (where_eq address r) /\ forall r', In j (where_eq address r') -> r' = r) /\
    (forall r j, In j (where_eq address r) -> 0 <= j < Z.of_nat (length address)) /\
    (forall r, NoDup (where_eq address r)) /\
    (forall r, local_num_lag_nodes address r = Z.of_nat (length (where_eq address r))).
Proof. exact index_lists_partition. Qed.
Print Assumptions C12_index_lists_partition_nodes.

(** A node exactly on a block interface (y = 2 cells) goes to the upper block. *)
Example C12_nonvacuous :
  let dx := (1 # 4)%Q in let shift := (1 # 8)%Q in
  Forall (in_domain dx shift [2; 2] [2; 3]) [[(7 # 8)%Q; (5 # 8)%Q]; [(12 # 8)%Q; (1 # 8)%Q]] /\
  map_nodes false [2; 2] [2; 3] dx shift 2 [[(7 # 8)%Q; (5 # 8)%Q]; [(12 # 8)%Q; (1 # 8)%Q]] = Mapped [3; 1].
Proof.
  split; [|reflexivity]. repeat constructor; compute; congruence.
Qed.

(** ** C13 *)
(** At or beyond the upper end of an axis: the run aborts. *)
Theorem C13_upper_side_aborts :
  forall per dims loc dx shift nodes pos k N x,
    (0 < dx)%Q -> grid_ok dims loc -> In pos nodes ->
    nth_error (global_size dims loc) k = Some N -> nth_error (rel shift pos) k = Some x ->
    (dx * inject_Z N <= x)%Q ->
    map_nodes per dims loc dx shift (Z.of_nat (length dims)) nodes = Aborted.
Proof. intros; eapply map_upper; eauto. Qed.
Print Assumptions C13_upper_side_aborts.

(** Exactly what happens to every set of node positions, inside the domain or not
    ([too_high], [too_low], [lands_on] in SpecMap.v). *)
Theorem C13_exact :
  forall per dims loc dx shift nodes,
    (0 < dx)%Q -> grid_ok dims loc -> Forall (fun pos => length pos = length dims) nodes ->
    match map_nodes per dims loc dx shift (Z.of_nat (length dims)) nodes with
    | Aborted => Exists (on_some_axis dims loc dx shift too_high) nodes
    | IndexError => Forall (fun pos => ~ on_some_axis dims loc dx shift too_high pos) nodes /\ Exists (on_some_axis dims loc dx shift too_low) nodes
    | Mapped address =>
        Forall (fun pos => ~ on_some_axis dims loc dx shift too_high pos /\ ~ on_some_axis dims loc dx shift too_low pos) nodes /\
        Forall2 (lands_on dims loc dx shift) nodes address /\ Forall (fun r => 0 <= r < zprod dims) address
    end.
Proof. exact map_exact. Qed.
Print Assumptions C13_exact.
Theorem C13_aborts_iff_above :
  forall per dims loc dx shift nodes,
    (0 < dx)%Q -> grid_ok dims loc -> Forall (fun pos => length pos = length dims) nodes ->
    (map_nodes per dims loc dx shift (Z.of_nat (length dims)) nodes = Aborted <-> Exists (on_some_axis dims loc dx shift too_high) nodes).
Proof.
  intros per dims loc dx shift nodes H1 H2 H3. pose proof (map_exact per dims loc dx shift nodes H1 H2 H3) as H.
  assert (C : forall Q : list Q -> Prop, Forall (fun pos => ~ on_some_axis dims loc dx shift too_high pos /\ Q pos) nodes -> Exists (on_some_axis dims loc dx shift too_high) nodes -> False).
  { intros Q F E. rewrite Forall_forall in F. apply Exists_exists in E as (p & Hp & E). destruct (F p Hp) as [F1 _]. auto. }
  destruct (map_nodes _ _ _ _ _ _ _) as [address| |]; split; try discriminate; auto.
  - intros E. destruct (C _ (proj1 H) E).
  - intros E. destruct H as [F _]. destruct (C (fun _ => True)); auto. apply Forall_impl with (2 := F). auto.
Qed.
Print Assumptions C13_aborts_iff_above.
(** All three outcomes occur; the last mapping is half a block below, then two blocks below an axis of 3 blocks. *)
Example C13_exact_nonvacuous :
  grid_ok [3] [2] /\ map_nodes false [3] [2] 1 0 1 [[1]; [6]]%Q = Aborted /\ map_nodes false [3] [2] 1 0 1 [[1]; [-8]]%Q = IndexError /\
  map_nodes false [3] [2] 1 0 1 [[5]; [-1]; [-5]]%Q = Mapped [2; 0; 1].
Proof. repeat split; repeat constructor; cbn; lia. Qed.

(** FINDING: a node below the lower corner is not rejected. *)
Theorem C13_below_lower_corner_refuted :
  exists per dims loc dx shift pos address,
    (0 < dx)%Q /\ grid_ok dims loc /\ ~ in_domain dx shift dims loc pos /\
    map_nodes per dims loc dx shift (Z.of_nat (length dims)) [pos] = Mapped address.
Proof. exact below_corner_refuted. Qed.
Print Assumptions C13_below_lower_corner_refuted.

(** Even far below: Python's negative indexing sends it to the last block. *)
Theorem C13_negative_index_refuted :
  exists per dims loc dx shift pos,
    (0 < dx)%Q /\ grid_ok dims loc /\ ~ in_domain dx shift dims loc pos /\
    map_nodes per dims loc dx shift (Z.of_nat (length dims)) [pos] = Mapped [zprod dims - 1] /\ 1 < zprod dims.
Proof. exact negative_index_refuted. Qed.
Print Assumptions C13_negative_index_refuted.

(** ** C14 *)
Theorem C14_scatter_gives_each_rank_its_columns :
  forall (T : Type) n address nc master order gid lid (m : Z -> @lmem T),
    0 <= master < n -> Forall (fun r => 0 <= r < n) address ->
    lag_slave_order address master order -> 0 <= nc -> gid <> lid ->
    exists m', runs_to n (lag_scatter address nc master order gid lid) m m' /\
               lag_scattered n address nc master gid lid m m'.
Proof. intros; now apply lag_scatter_runs. Qed.
Print Assumptions C14_scatter_gives_each_rank_its_columns.

Theorem C14_gather_puts_columns_back :
  forall (T : Type) n address nc master order gid lid (m : Z -> @lmem T),
    0 <= master < n -> Forall (fun r => 0 <= r < n) address ->
    lag_slave_order address master order -> 0 <= nc -> gid <> lid ->
    exists m', runs_to n (lag_gather address nc master order gid lid) m m' /\
               lag_gathered n address nc master gid lid m m'.
Proof. intros; now apply lag_gather_runs. Qed.
Print Assumptions C14_gather_puts_columns_back.

Theorem C14_scatter_then_gather_is_identity :
  forall (T : Type) n address nc master gid lid (m m1 m2 : Z -> @lmem T),
    Forall (fun r => 0 <= r < n) address -> gid <> lid ->
    lag_scattered n address nc master gid lid m m1 -> lag_gathered n address nc master gid lid m1 m2 ->
    forall d j, 0 <= d < nc -> 0 <= j < Z.of_nat (length address) ->
      m2 master (lag_global address gid d j) = m master (lag_global address gid d j).
Proof. intros; eapply lag_roundtrip; eauto. Qed.
Print Assumptions C14_scatter_then_gather_is_identity.

Theorem C14_gather_then_scatter_is_identity :
  forall (T : Type) n address nc master order gid lid (m m1 m2 : Z -> @lmem T),
    0 <= master < n -> Forall (fun r => 0 <= r < n) address -> lag_slave_order address master order -> gid <> lid ->
    lag_gathered n address nc master gid lid m m1 -> lag_scattered n address nc master gid lid m1 m2 ->
    forall r f i, ~ (r = master /\ f = gid) -> m2 r (f, i) = m r (f, i).
Proof. intros; eapply lag_roundtrip_back; eauto. Qed.
Print Assumptions C14_gather_then_scatter_is_identity.

Theorem C14_wrong_shape_aborts :
  forall per dims loc dx shift shape0 nodes, shape0 <> Z.of_nat (length dims) ->
    map_nodes per dims loc dx shift shape0 nodes = Aborted.
Proof. intros; now apply map_shape. Qed.
Print Assumptions C14_wrong_shape_aborts.

Example C14_nonvacuous :
  lag_slave_order [2; 0; 2; 1] 1 [0; 2] /\ where_eq [2; 0; 2; 1] 2 = [0; 2] /\
  global_columns [2; 0; 2; 1] 2 7%nat 2 = [(7%nat, 0); (7%nat, 2); (7%nat, 4); (7%nat, 6)].
Proof.
  split; [|split; reflexivity]. split; [repeat constructor; simpl; intuition lia|]. intros s. simpl. intuition lia.
Qed.
