(** Properties C01-C07, C45: decomposition, neighbours, ghost exchange. *)
From Verif Require Import Base SpecGrid SpecGhost Cart CartFacts Comm Ghost2D Ghost3D GhostProofs Refute1 WideGhost.

(** ** C01 *)
(** Construction fails exactly when an extent is not a multiple of the rank count. *)
Theorem C01_rejects_iff_not_divisible :
  forall gl topo, length gl = length topo ->
    (mpi_construct gl topo = None <-> ~ Forall2 (fun a t => a mod t = 0) gl topo).
Proof. exact construct_none. Qed.
Print Assumptions C01_rejects_iff_not_divisible.

(** On success the blocks tile the grid exactly. *)
Theorem C01_blocks_tile_grid :
  forall gl topo loc, positive gl -> positive topo -> length gl = length topo ->
    mpi_construct gl topo = Some loc ->
    (* global extents are topology times local extents *)
    global_size topo loc = gl /\
    (* every global cell is in exactly one block, at exactly one index *)
    (forall p, inb gl p ->
      exists r x, (0 <= r < zprod topo /\ inb loc x /\ vadd (block_start topo loc r) x = p) /\
        forall r' x', 0 <= r' < zprod topo -> inb loc x' -> vadd (block_start topo loc r') x' = p ->
          r' = r /\ x' = x) /\
    (* every block lies in the grid *)
    (forall r x, 0 <= r < zprod topo -> inb loc x -> inb gl (vadd (block_start topo loc r) x)).
Proof. exact construct_tiles. Qed.
Print Assumptions C01_blocks_tile_grid.

Example C01_nonvacuous : mpi_construct [12; 8; 6] [3; 2; 1] = Some [4; 4; 6] /\ mpi_construct [12; 9] [3; 2] = None.
Proof. split; reflexivity. Qed.

(** ** C02 *)
Theorem C02_axis_neighbours_inverse :
  forall per topo r s dim, positive topo -> (dim < length topo)%nat ->
    0 <= r < zprod topo -> 0 <= s < zprod topo ->
    (next_grid_along per topo r dim = Some s <-> previous_grid_along per topo s dim = Some r).
Proof. exact axis_inverse. Qed.
Print Assumptions C02_axis_neighbours_inverse.

Theorem C02_diagonal_neighbours_inverse :
  forall per topo r s dv, positive topo -> length dv = length topo ->
    0 <= r < zprod topo -> 0 <= s < zprod topo ->
    (diagonal_rank per topo r dv = Some s <-> diagonal_rank per topo s (vneg dv) = Some r).
Proof. exact diagonal_inverse. Qed.
Print Assumptions C02_diagonal_neighbours_inverse.

(** PROC_NULL exactly at a physical boundary. *)
Theorem C02_no_neighbour_iff_physical_boundary :
  forall per topo r dim, positive topo -> (dim < length topo)%nat -> 0 <= r < zprod topo ->
    (previous_grid_along per topo r dim = None <-> per = false /\ nth dim (unravel topo r) 0 = 0) /\
    (next_grid_along per topo r dim = None <->
       per = false /\ nth dim (unravel topo r) 0 = nth dim topo 0 - 1).
Proof. exact axis_none. Qed.
Print Assumptions C02_no_neighbour_iff_physical_boundary.

(** Neighbours are ranks of the communicator; a diagonal neighbour is reached
    by successive axis shifts (2D and 3D). *)
Theorem C02_diagonal_is_composition :
  forall per topo r a b, positive topo -> 0 <= r < zprod topo ->
    length a = length topo -> length b = length topo -> Forall2 (fun x y => x = 0 \/ y = 0) a b ->
    diagonal_rank per topo r (vadd a b) =
    match diagonal_rank per topo r a with Some s => diagonal_rank per topo s b | None => None end.
Proof. exact diagonal_compose. Qed.
Print Assumptions C02_diagonal_is_composition.

Theorem C02_axis_is_unit_diagonal :
  forall per topo r dim, positive topo -> (dim < length topo)%nat -> 0 <= r < zprod topo ->
    next_grid_along per topo r dim = diagonal_rank per topo r (uvec (length topo) dim 1) /\
    previous_grid_along per topo r dim = diagonal_rank per topo r (uvec (length topo) dim (-1)).
Proof. exact axis_diagonal. Qed.
Print Assumptions C02_axis_is_unit_diagonal.

Theorem C02_neighbours_in_range :
  forall per topo r dv s, positive topo -> length dv = length topo ->
    diagonal_rank per topo r dv = Some s -> 0 <= s < zprod topo.
Proof. exact diagonal_range. Qed.
Print Assumptions C02_neighbours_in_range.

Example C02_nonvacuous :
  next_grid_along true [2; 1] 1 0 = Some 0 /\ previous_grid_along true [2; 1] 1 0 = Some 0 /\
  next_grid_along false [2; 1] 1 0 = None /\ diagonal_rank false [2; 2; 2] 0 [1; 1; 1] = Some 7.
Proof. repeat split; reflexivity. Qed.

(** ** C03 *)
Theorem C03_full_exchange_2d :
  forall (T : Type) per py px ny nx g F E (m : mem T),
    1 <= py /\ 1 <= px -> 1 <= g -> g <= ny /\ g <= nx ->
    schedule (zprod [py; px]) (exchange2 per py px ny nx g true F) E ->
    full_exchanged per [py; px] [ny; nx] g F m (run_copies E m).
Proof. exact @full2'. Qed.
Print Assumptions C03_full_exchange_2d.

(** ** C04 *)
Theorem C04_edge_exchange_2d :
  forall (T : Type) per py px ny nx g F E (m : mem T),
    1 <= py /\ 1 <= px -> 1 <= g -> g <= ny /\ g <= nx ->
    schedule (zprod [py; px]) (exchange2 per py px ny nx g false F) E ->
    face_exchanged per [py; px] [ny; nx] g F m (run_copies E m).
Proof. exact @edges2'. Qed.
Print Assumptions C04_edge_exchange_2d.

(** A concrete case: 2x1 ranks, periodic (both neighbours are the same rank),
    a corner ghost cell really receives another rank's value. *)
Example C03_nonvacuous :
  let E := all_copies 2 (exchange2 true 2 1 2 3 1 true [0; 1]%nat) in
  schedule 2 (exchange2 true 2 1 2 3 1 true [0; 1]%nat) E /\
  field (run_copies E distinct_mem) [4; 5] 0 1 [0; 0] = field distinct_mem [4; 5] 1 1 [2; 3] /\
  field distinct_mem [4; 5] 0 1 [0; 0] <> field distinct_mem [4; 5] 1 1 [2; 3].
Proof. split; [apply Permutation_refl|]. vm_compute. split; [reflexivity|congruence]. Qed.

(** ** C05 *)
Theorem C05_full_exchange_3d :
  forall (T : Type) per pz py px n0 n1 n2 g F E (m : mem T),
    1 <= pz /\ 1 <= py /\ 1 <= px -> 1 <= g -> g <= n0 /\ g <= n1 /\ g <= n2 ->
    schedule (zprod [pz; py; px]) (exchange3 per pz py px n0 n1 n2 g true F) E ->
    full_exchanged per [pz; py; px] [n0; n1; n2] g F m (run_copies E m).
Proof. exact @full3'. Qed.
Print Assumptions C05_full_exchange_3d.

Theorem C05_face_exchange_3d :
  forall (T : Type) per pz py px n0 n1 n2 g F E (m : mem T),
    1 <= pz /\ 1 <= py /\ 1 <= px -> 1 <= g -> g <= n0 /\ g <= n1 /\ g <= n2 ->
    schedule (zprod [pz; py; px]) (exchange3 per pz py px n0 n1 n2 g false F) E ->
    face_exchanged per [pz; py; px] [n0; n1; n2] g F m (run_copies E m).
Proof. exact @faces3'. Qed.
Print Assumptions C05_face_exchange_3d.

Example C05_nonvacuous :
  let E := all_copies 4 (exchange3 false 2 2 1 1 1 1 1 true [0%nat]) in
  field (run_copies E distinct_mem) [3; 3; 3] 0 0 [2; 2; 1] = field distinct_mem [3; 3; 3] 3 0 [1; 1; 1] /\
  field (run_copies E distinct_mem) [3; 3; 3] 0 0 [0; 2; 1] = field distinct_mem [3; 3; 3] 0 0 [0; 2; 1].
Proof. vm_compute. split; reflexivity. Qed.

(** ** C06: matching. Sends and receives pair up one to one with equal sizes,
    for every list of fields posted before the finalise; that the paired
    regions are the right ones is C03/C04/C05, whose F is arbitrary. *)
Theorem C06_all_messages_matched_2d :
  forall per py px ny nx g full F,
    1 <= py /\ 1 <= px -> 1 <= g -> g <= ny /\ g <= nx ->
    all_matched (zprod [py; px]) (exchange2 per py px ny nx g full F).
Proof. intros; now apply matched2. Qed.
Print Assumptions C06_all_messages_matched_2d.

Theorem C06_all_messages_matched_3d :
  forall per pz py px n0 n1 n2 g full F,
    1 <= pz /\ 1 <= py /\ 1 <= px -> 1 <= g -> g <= n0 /\ g <= n1 /\ g <= n2 ->
    all_matched (zprod [pz; py; px]) (exchange3 per pz py px n0 n1 n2 g full F).
Proof. intros; now apply matched3. Qed.
Print Assumptions C06_all_messages_matched_3d.

(** Vector fields: exchange_vector_field_init exchanges all components, whatever the option. *)
Theorem C06_vector_exchange_2d :
  forall (T : Type) per py px ny nx g full fx fy E (m : mem T),
    1 <= py /\ 1 <= px -> 1 <= g -> g <= ny /\ g <= nx ->
    schedule (zprod [py; px]) (exchange_vector2 per py px ny nx g full fx fy) E ->
    if full then full_exchanged per [py; px] [ny; nx] g [fx; fy] m (run_copies E m) else face_exchanged per [py; px] [ny; nx] g [fx; fy] m (run_copies E m).
Proof. exact @vector2'. Qed.
Print Assumptions C06_vector_exchange_2d.
Theorem C06_vector_exchange_3d :
  forall (T : Type) per pz py px n0 n1 n2 g full fx fy fz E (m : mem T),
    1 <= pz /\ 1 <= py /\ 1 <= px -> 1 <= g -> g <= n0 /\ g <= n1 /\ g <= n2 ->
    schedule (zprod [pz; py; px]) (exchange_vector3 per pz py px n0 n1 n2 g full fx fy fz) E ->
    if full then full_exchanged per [pz; py; px] [n0; n1; n2] g [fx; fy; fz] m (run_copies E m) else face_exchanged per [pz; py; px] [n0; n1; n2] g [fx; fy; fz] m (run_copies E m).
Proof. exact @vector3'. Qed.
Print Assumptions C06_vector_exchange_3d.

(** A one-rank periodic topology: all eight neighbours are the rank itself. *)
Example C06_nonvacuous :
  length (sends_to 0 (exchange2 true 1 1 2 2 1 true [0; 1]%nat 0)) = 16%nat.
Proof. reflexivity. Qed.

(** ** C07: any two orders of the element copies give the same memory, and at
    every intermediate moment inner cells still hold their values. *)
Theorem C07_timing_independent_2d :
  forall (T : Type) per py px ny nx g full F E E' (m : mem T),
    1 <= py /\ 1 <= px -> 1 <= g -> g <= ny /\ g <= nx ->
    schedule (zprod [py; px]) (exchange2 per py px ny nx g full F) E ->
    schedule (zprod [py; px]) (exchange2 per py px ny nx g full F) E' ->
    forall l, run_copies E m l = run_copies E' m l.
Proof. exact @confluent2. Qed.
Print Assumptions C07_timing_independent_2d.

Theorem C07_timing_independent_3d :
  forall (T : Type) per pz py px n0 n1 n2 g full F E E' (m : mem T),
    1 <= pz /\ 1 <= py /\ 1 <= px -> 1 <= g -> g <= n0 /\ g <= n1 /\ g <= n2 ->
    schedule (zprod [pz; py; px]) (exchange3 per pz py px n0 n1 n2 g full F) E ->
    schedule (zprod [pz; py; px]) (exchange3 per pz py px n0 n1 n2 g full F) E' ->
    forall l, run_copies E m l = run_copies E' m l.
Proof. exact @confluent3. Qed.
Print Assumptions C07_timing_independent_3d.

Theorem C07_inner_cells_stable_in_flight_2d :
  forall (T : Type) per py px ny nx g full F E E1 E2 (m : mem T) r f I,
    1 <= py /\ 1 <= px -> 1 <= g -> g <= ny /\ g <= nx ->
    schedule (zprod [py; px]) (exchange2 per py px ny nx g full F) E -> E = E1 ++ E2 ->
    inner g [ny; nx] I ->
    field (run_copies E1 m) (ghosted g [ny; nx]) r f I = field m (ghosted g [ny; nx]) r f I.
Proof. exact @frame2'. Qed.
Print Assumptions C07_inner_cells_stable_in_flight_2d.

Theorem C07_inner_cells_stable_in_flight_3d :
  forall (T : Type) per pz py px n0 n1 n2 g full F E E1 E2 (m : mem T) r f I,
    1 <= pz /\ 1 <= py /\ 1 <= px -> 1 <= g -> g <= n0 /\ g <= n1 /\ g <= n2 ->
    schedule (zprod [pz; py; px]) (exchange3 per pz py px n0 n1 n2 g full F) E -> E = E1 ++ E2 ->
    inner g [n0; n1; n2] I ->
    field (run_copies E1 m) (ghosted g [n0; n1; n2]) r f I = field m (ghosted g [n0; n1; n2]) r f I.
Proof. exact @frame3'. Qed.
Print Assumptions C07_inner_cells_stable_in_flight_3d.

Example C07_nonvacuous :
  let p := exchange2 false 2 1 2 2 1 true [0%nat] in
  schedule 2 p (rev (all_copies 2 p)) /\ length (all_copies 2 p) = 4%nat.
Proof. split; [apply Permutation_sym, Permutation_rev | reflexivity]. Qed.

(** ** C45 (finding): with a ghost size larger than the block the exchange
    does not install the owners' values; the constructor accepts it. *)
Theorem C45_ghost_wider_than_block_refuted :
  exists per py px ny nx g F E (m : mem Z),
    1 <= py /\ 1 <= px /\ 1 <= ny /\ 1 <= nx /\ 1 <= g /\
    schedule (zprod [py; px]) (exchange2 per py px ny nx g true F) E /\
    ~ full_exchanged per [py; px] [ny; nx] g F m (run_copies E m).
Proof. exact ghost_wider_refuted. Qed.
Print Assumptions C45_ghost_wider_than_block_refuted.

(** Exactly when the exchange is correct for every order of delivery and every
    contents: every axis is at least as wide as the ghost layer, or has no
    neighbour in it (one rank, not periodic). *)
Theorem C45_exact_2d_full :
  forall per py px ny nx g f F, 1 <= py /\ 1 <= px -> 1 <= ny /\ 1 <= nx -> 1 <= g -> In f F ->
  ((forall E (m : mem Z), schedule (zprod [py; px]) (exchange2 per py px ny nx g true F) E ->
      full_exchanged per [py; px] [ny; nx] g F m (run_copies E m)) <->
   (g <= ny \/ per = false /\ py = 1) /\ (g <= nx \/ per = false /\ px = 1)).
Proof. exact exact2. Qed.
Print Assumptions C45_exact_2d_full.
Theorem C45_exact_2d_edges :
  forall per py px ny nx g f F, 1 <= py /\ 1 <= px -> 1 <= ny /\ 1 <= nx -> 1 <= g -> In f F ->
  ((forall E (m : mem Z), schedule (zprod [py; px]) (exchange2 per py px ny nx g false F) E ->
      face_exchanged per [py; px] [ny; nx] g F m (run_copies E m)) <->
   (g <= ny \/ per = false /\ py = 1) /\ (g <= nx \/ per = false /\ px = 1)).
Proof. exact exact2e. Qed.
Print Assumptions C45_exact_2d_edges.
Theorem C45_exact_3d_full :
  forall per pz py px n0 n1 n2 g f F, 1 <= pz /\ 1 <= py /\ 1 <= px -> 1 <= n0 /\ 1 <= n1 /\ 1 <= n2 -> 1 <= g -> In f F ->
  ((forall E (m : mem Z), schedule (zprod [pz; py; px]) (exchange3 per pz py px n0 n1 n2 g true F) E ->
      full_exchanged per [pz; py; px] [n0; n1; n2] g F m (run_copies E m)) <->
   (g <= n0 \/ per = false /\ pz = 1) /\ (g <= n1 \/ per = false /\ py = 1) /\ (g <= n2 \/ per = false /\ px = 1)).
Proof. exact exact3. Qed.
Print Assumptions C45_exact_3d_full.
Theorem C45_exact_3d_faces :
  forall per pz py px n0 n1 n2 g f F, 1 <= pz /\ 1 <= py /\ 1 <= px -> 1 <= n0 /\ 1 <= n1 /\ 1 <= n2 -> 1 <= g -> In f F ->
  ((forall E (m : mem Z), schedule (zprod [pz; py; px]) (exchange3 per pz py px n0 n1 n2 g false F) E ->
      face_exchanged per [pz; py; px] [n0; n1; n2] g F m (run_copies E m)) <->
   (g <= n0 \/ per = false /\ pz = 1) /\ (g <= n1 \/ per = false /\ py = 1) /\ (g <= n2 \/ per = false /\ px = 1)).
Proof. exact exact3f. Qed.
Print Assumptions C45_exact_3d_faces.

(** The good direction holds for values of any type. *)
Theorem C45_unsplit_axes_may_be_narrow_2d :
  forall (T : Type) per py px ny nx g F E (m : mem T), 1 <= py /\ 1 <= px -> 1 <= ny /\ 1 <= nx -> 1 <= g ->
  g <= ny \/ per = false /\ py = 1 -> g <= nx \/ per = false /\ px = 1 ->
  schedule (zprod [py; px]) (exchange2 per py px ny nx g true F) E ->
  full_exchanged per [py; px] [ny; nx] g F m (run_copies E m).
Proof. intros T per py px ny nx g F E m Hp Hn Hg. apply full2_roomy; assumption. Qed.
Print Assumptions C45_unsplit_axes_may_be_narrow_2d.
Theorem C45_unsplit_axes_may_be_narrow_2d_edges :
  forall (T : Type) per py px ny nx g F E (m : mem T), 1 <= py /\ 1 <= px -> 1 <= ny /\ 1 <= nx -> 1 <= g ->
  g <= ny \/ per = false /\ py = 1 -> g <= nx \/ per = false /\ px = 1 ->
  schedule (zprod [py; px]) (exchange2 per py px ny nx g false F) E ->
  face_exchanged per [py; px] [ny; nx] g F m (run_copies E m).
Proof. intros T per py px ny nx g F E m Hp Hn Hg. apply edges2_roomy; assumption. Qed.
Print Assumptions C45_unsplit_axes_may_be_narrow_2d_edges.
Theorem C45_unsplit_axes_may_be_narrow_3d :
  forall (T : Type) per pz py px n0 n1 n2 g F E (m : mem T), 1 <= pz /\ 1 <= py /\ 1 <= px -> 1 <= n0 /\ 1 <= n1 /\ 1 <= n2 -> 1 <= g ->
  g <= n0 \/ per = false /\ pz = 1 -> g <= n1 \/ per = false /\ py = 1 -> g <= n2 \/ per = false /\ px = 1 ->
  (schedule (zprod [pz; py; px]) (exchange3 per pz py px n0 n1 n2 g true F) E -> full_exchanged per [pz; py; px] [n0; n1; n2] g F m (run_copies E m)) /\
  (schedule (zprod [pz; py; px]) (exchange3 per pz py px n0 n1 n2 g false F) E -> face_exchanged per [pz; py; px] [n0; n1; n2] g F m (run_copies E m)).
Proof. intros T per pz py px n0 n1 n2 g F E m Hp Hn Hg R0 R1 R2. split; [apply full3_roomy|apply faces3_roomy]; assumption. Qed.
Print Assumptions C45_unsplit_axes_may_be_narrow_3d.

(** Slab decomposition 2x1 of a 4x1 grid with ghost size 2: correct although
    the grid is one cell wide along x; 1x2 of a 4x2 grid: not correct. *)
Example C45_exact_nonvacuous :
  (forall E (m : mem Z), schedule 2 (exchange2 false 2 1 2 1 2 true [0%nat]) E ->
      full_exchanged false [2; 1] [2; 1] 2 [0%nat] m (run_copies E m)) /\
  ~ (forall E (m : mem Z), schedule 2 (exchange2 false 1 2 4 1 2 true [0%nat]) E ->
      full_exchanged false [1; 2] [4; 1] 2 [0%nat] m (run_copies E m)).
Proof.
  split.
  - apply (C45_exact_2d_full false 2 1 2 1 2 0 [0%nat]); cbn; lia.
  - intros H. apply (C45_exact_2d_full false 1 2 4 1 2 0 [0%nat]) in H; cbn; lia.
Qed.
