# Formal model of fankiat/sopht-mpi in Rocq (Coq 8.16.1)

This file is assembled by `tools/design.py` from `tools/design_head.md`, `tools/design_tail.md`, `MANIFEST.json`,
`properties.jsonl` and `tools/assumptions.md` (the output of `tools/assumptions.py`, which asks Coq).

## 1. Approach

sopht-mpi is an SPMD layer: every rank runs the same Python code, keeps a ghosted block of each field, and communicates by
MPI.  What a user relies on is that the ranks together compute what the serial code would compute on the whole grid, for
every decomposition, message timing and history.  The model is a shallow embedding in Gallina, file by file.

* **Element values** are of an arbitrary type `T` (closed `Section` variables) wherever the code only moves data or applies an
  opaque kernel, so those theorems also hold bit for bit for floats.  `ghost_sum` and spreading use a commutative monoid or
  semiring; delta weights, diagnostics, deviation norm and Green's functions use Coq's `R`; node positions and coordinates use
  exact rationals `Q`.
* **Ranks** are integers, the topology is MPI's row-major Cartesian numbering (`Cart.v`), `PROC_NULL` is `None`.
* **Memory** maps (rank, array, flat index) to `T`; arrays have explicit shapes; python slices and negative indices are
  normalised explicitly.
* **Non-blocking communication** (`Comm.v`): each rank posts a list of `ISend`/`IRecv`.  MPI's matching rule is the model's:
  the k-th send A->B (program order of A) goes with the k-th receive at B from A.  The single elements of all matched messages
  are then transferred in an arbitrary order.
* **SPMD programs** (`Spmd.v`): lists of phases, each a local computation or an exchange overlapped with a local computation.
  Ranks advance asynchronously.  `spmd_ends n ps m m'` says that every execution, whatever the schedule, terminates in `m'`
  (no execution gets stuck, diverges, or ends elsewhere).
* **Blocking communication** (`Blocking.v`): small-step semantics of `Send`/`Recv` where each send may be buffered or
  synchronous, decided by the adversary.  `runs_to` says that every execution terminates, in the given memory.
* **Errors** (`RuntimeError`, `ValueError`, `Abort`) are values of result types.

Every definition of the model cites the file and lines of /repo it models and says where it simplifies.

## 2. Organisation

* `Spec*.v`: specifications, on the global grid and without ranks where the property is about serial equivalence.
* `Cart.v Comm.v Spmd.v Blocking.v Ghost2D.v Ghost3D.v FieldComm.v Lagrangian.v Stencil.v KernelList.v TimeStep.v Penalise.v
  Filter.v Doubling.v GhostSum.v EulLag.v Delta.v Vbf.v Bodies.v Deviation.v IoEul.v IoLag.v IoRod.v Logger.v Diagnostics.v
  Construct.v Coords.v NavierStokes.v Greens.v PyNum.v` and the later model files named in section 3: the model.
* `*Proofs.v *Thms.v *Facts.v NS*.v ...`: proofs.  `Refute*.v`: counterexamples.
* `Props*.v`: one theorem per claim with its hypotheses spelled out, `Example`s showing that concrete non-trivial cases meet the
  hypotheses, and `Print Assumptions` for each theorem.
* `/verif/seeded/LOG.jsonl`: wrong programs tried against the theorems (`tools/mutate.py`, `tools/seedlog.py`).

## 3. Properties

Status and theorem names are those of MANIFEST.json. `_refuted` theorems are findings: the negation of a claim the
documentation or the API suggests, proved with an explicit witness.

| id | property | model | how it is proved | status and theorems |
|----|----|----|----|----|
| C01 | Domain decomposition is accepted exactly when it tiles the grid | Cart.v (`MPIConstruct2D/3D.__init__`) | div/mod arithmetic, list induction over the axes; blocks tile the grid is a bijection (rank, local index) <-> global position | **proved**: C01_rejects_iff_not_divisible, C01_blocks_tile_grid |
| C02 | Neighbour tables are mutual inverses and missing exactly at a physical boundary | Cart.v (`Create_cart`, `Shift`, `Get_cart_rank`, diagonal ranks) | row-major rank numbering is a bijection; induction over the axes | **proved**: C02_axis_neighbours_inverse, C02_diagonal_neighbours_inverse, C02_no_neighbour_iff_physical_boundary, C02_diagonal_is_composition, C02_axis_is_unit_diagonal, C02_neighbours_in_range |
| C03 | 2D full ghost exchange installs the owners' values and nothing else | Ghost2D.v on Comm.v | typemaps of the derived datatypes are boxes; matching lemma pairs every send with its receive; the values delivered are the owner's (GhostGeo.v, any number of axes) | **proved**: C03_full_exchange_2d — hypothesis: ghost size at most the block extent (see C45) |
| C04 | 2D edge-only exchange leaves corner ghosts alone | Ghost2D.v | as C03, with the set of covered ghost cells computed exactly | **proved**: C04_edge_exchange_2d |
| C05 | 3D ghost exchange (faces, edges, vertices) installs the owners' values and nothing else | Ghost3D.v (tables transcribed mechanically from the source) | as C03; the 18 face/edge/vertex groups are shown to coincide with the generic exchange of GhostGeo.v | **proved**: C05_full_exchange_3d, C05_face_exchange_3d |
| C06 | Untagged messages are matched correctly for any number of fields and any degenerate topology | Comm.v (k-th send A->B meets k-th receive at B from A), Ghost2D.v, Ghost3D.v | induction over the posting order: filtered sends = filtered receives for every pair of ranks, including self-messages and coinciding neighbours | **proved**: C06_all_messages_matched_2d, C06_all_messages_matched_3d, C06_vector_exchange_2d, C06_vector_exchange_3d |
| C07 | The exchange result does not depend on message timing and can overlap interior compute | Comm.v (elements delivered in any order, interleaved with computation) | permutation induction: copies with disjoint sources/targets commute | **proved**: C07_timing_independent_2d, C07_timing_independent_3d, C07_inner_cells_stable_in_flight_2d, C07_inner_cells_stable_in_flight_3d |
| C08 | gather_local_field assembles the global field | FieldComm.v on Blocking.v | induction over the list of slaves; subarray datatypes tile the global array | **proved**: C08_gather_assembles_global_field |
| C09 | scatter_global_field writes exactly the inner cells | FieldComm.v | as C08 | **proved**: C09_scatter_writes_inner_cells |
| C10 | Gather/scatter round trips | FieldComm.v | composition of C08 and C09 | **proved**: C10_gather_after_scatter, C10_scatter_after_gather |
| C11 | Gather/scatter never deadlock | Blocking.v (synchronous or buffered sends, any schedule) | every reachable state can step or is final; confluence by diamond, measure = remaining operations | **proved**: C11_call_sequences_terminate |
| C12 | Each Lagrangian node inside the domain is assigned to exactly one rank, the owner of its cell | Lagrangian.v (exact rational coordinates) | floor/div arithmetic; the index lists partition the nodes | **proved**: C12_node_goes_to_owner_of_its_cell, C12_index_lists_partition_nodes — coordinates are exact rationals; see C51 for double precision |
| C13 | Lagrangian nodes outside the domain | Lagrangian.v | outcome of the mapping as a function of the position, for every position, including numpy's negative index wrap-around; refutation witnesses | **proved**: C13_exact, C13_aborts_iff_above, C13_upper_side_aborts, C13_below_lower_corner_refuted, C13_negative_index_refuted — outcome characterised for every position; the lower-side findings are also given as refutations |
| C14 | Lagrangian scatter/gather round trip | Lagrangian.v on Blocking.v | master/slave exchange lemmas of MasterSlave.v | **proved**: C14_scatter_gives_each_rank_its_columns, C14_gather_puts_columns_back, C14_scatter_then_gather_is_identity, C14_gather_then_scatter_is_identity, C14_wrong_shape_aborts |
| C15 | The position-mismatch history follows its node across ranks | Vbf.v (`VirtualBoundaryForcingMPI`, assume_data_locality=False) | invariant over arbitrary histories of remappings; exact misattribution law and its refuting witness | **proved**: C15_every_history, C15_mismatch_follows_node, C15_exchange_misattributes, C15_exchange_refuted — every history of mappings |
| C16 | MPI stencil kernels compute what the serial kernel computes | Stencil.v, KernelList.v (every stencil kernel) on Spmd.v | interval case analysis of the strip decomposition for any number of axes (HaloProofs.v); locality of a star-shaped kernel | **proved**: C16_reset_kernels_serial, C16_adding_kernels_serial, C16_result_unique — serial kernel functions are arbitrary star-shaped update functions; blocks at least as wide as the ghost layer |
| C17 | How often accumulating kernels add a cell's contribution | Stencil.v (adding kernels) | number of strips that contain a cell, computed exactly (AddExact.v) | **proved**: C17_exact, C17_once_when_wide, C17_twice_iff_thin, C17_at_most_twice, C17_added_once_refuted, C17_two_wide_blocks_twice — exact number of additions at every cell, for every block at least as wide as the ghost layer |
| C18 | Physical-boundary cells of flux/curl/divergence outputs are zero | Stencil.v | as C16, at the boundary | **proved**: C18_zero_exactly_on_boundary |
| C19 | Kernel results do not depend on stale ghost contents | Stencil.v | two runs from memories that differ in ghosts only | **proved**: C19_stale_ghosts_irrelevant |
| C20 | Advection and vorticity update at a physical boundary | Stencil.v | as C16 with the ghosts outside the domain as extra inputs; refutation for the stronger claim | **proved**: C20_only_outside_ghosts_matter, C20_away_from_boundary, C20_stale_ghosts_irrelevant_refuted, C17_exact — the dependence within the stencil radius is proved as a refutation and, exactly, by C17_exact |
| C21 | 3D curl tolerates in-flight x ghosts | Stencil.v (`curl_pyst_mpi_kernel_3d`) | the cells that read x ghosts in flight are recomputed after the exchange (CurlProofs.v) | **proved**: C21_curl_3d_serial |
| C22 | Boundary penalisation equals its serial counterpart | Penalise.v | each directional pass equals a coordinate clamp on the global grid; passes composed over the axes | **proved**: C22_penalise_2d_serial, C22_penalise_3d_serial, C22_penalise_vector_3d_serial, C22_unchanged_outside_sponge, C22_unchanged_outside_sponge_3d, C22_width_zero, C22_width_check, C22_wide_sponge_refuted — sponge not wider than the blocks; wider sponges refuted |
| C23 | Laplacian filter: parallel equals serial, and order semantics | Filter.v | induction over the filter order with the invariant of C16; refutation for order 0 | **proved**: C23_filter_serial, C23_order_zero, C23_filter_args, C23_order_zero_refuted — boundary width at most the block extents; every order, topology and scratch contents |
| C24 | 2D domain doubling is zero padding and inverts exactly | Doubling.v (`MPIDomainDoublingCommunicator2D`) | parent/child block arithmetic, matching lemma, exact cover of the doubled block | **proved**: C24_to_doubled, C24_from_doubled, C24_roundtrip, C24_distributed_axis, C24_periodic_odd_refuted — non-periodic for every rank count, periodic for even ones; the periodic odd case is refuted (finding) |
| C25 | 3D domain doubling is zero padding and inverts exactly | Doubling.v (`MPIDomainDoublingCommunicator3D`) | as C24; equivalence for the raising case | **proved**: C25_to_doubled, C25_from_doubled, C25_roundtrip, C25_raises_iff_odd, C25_distributed_axes — one or an even number of ranks along each axis; otherwise the code raises, proved as an equivalence (finding) |
| C26 | Poisson solve does not depend on earlier solves and leaves the right-hand side intact | Doubling.v (solve sequence) | frame conditions + induction over the sequence of solves | **proved**: C26_solves_2d, C26_solves_3d, C26_vector_solve_3d, C26_frame — FFT and Green's function abstracted as an arbitrary function of the whole doubled array |
| C27 | ghost_sum adds every ghost contribution to the owner once and clears ghosts | GhostSum.v on Blocking.v | per-axis hop law, composition over the axes; sum over all copies in a commutative monoid (GhostSumHops.v) | **proved**: C27_ghost_sum_2d, C27_ghost_sum_3d — any commutative monoid addition; non-periodic topologies |
| C28 | ghost_sum terminates | GhostSum.v on Blocking.v | stage runs (StageRun.v) terminate on a line of ranks; on a ring with synchronous sends no rank can move | **proved**: C27_ghost_sum_2d, C27_ghost_sum_3d, C28_periodic_deadlock_2d, C28_periodic_deadlock_3d — the runs_to part of the C27 theorems is termination under every schedule and buffering; the deadlock theorems are the periodic half |
| C29 | Interpolation support stays in the local array | EulLag.v | floor arithmetic on exact rationals | **proved**: C29_rejects_iff_ghost_too_small, C29_support_inside_local_array — exact coordinates; see C51 for double precision, where the guard is one cell too permissive |
| C30 | Interpolation and spreading are decomposition independent | EulLag.v, GhostSum.v, Lagrangian.v | support windows contain the kernel support; spreading followed by ghost_sum = serial sum over nodes | **proved**: C30_interpolation_serial_2d, C30_interpolation_serial_3d, C30_spreading_serial_2d, C30_spreading_serial_3d, C30_face_only_exchange_refuted — exchanged means full exchange (or at most one distributed axis); the face-only exchange of the 2D simulators with both axes distributed is refuted (finding); rational coordinates, arbitrary weights |
| C31 | Delta weights form a partition of unity | Delta.v (Coq reals) | trigonometric and square-root identities, case analysis on the fractional position | **proved**: C31_cosine_partition_of_unity, C31_peskin_partition_of_unity, C31_peskin_exact_on_coordinates — exact real arithmetic, any number of dimensions |
| C32 | Spreading is the adjoint of interpolation; total force is conserved | EulLag.v, Delta.v | exchange of finite sums; C31 for conservation | **proved**: C32_adjoint_2d, C32_adjoint_3d, C32_total_force_conserved_2d, C32_total_force_conserved_3d — any commutative semiring; conservation for the two concrete delta functions over the reals |
| C33 | Eulerian restart round trip across decompositions | IoEul.v (HDF5 file = map from dataset names to arrays) | names distinct, hyperslabs partition the dataset, round trip across different decompositions | **proved**: C33_save_names_distinct, C33_component_names, C33_every_element_written_once, C33_restart_round_trip, C33_missing_field_raises — HDF5 file as a map from dataset names to arrays; finding: a parameter mismatch raises only after fields have been overwritten |
| C34 | Lagrangian restart round trip | IoLag.v | association lists over the registered grids; refutation witnesses | **proved**: C34_save_accepts, C34_restart_round_trip, C34_shared_field_name_refuted, C34_square_vector_save_raises, C34_grid_without_fields_not_loaded, C34_default_names_distinct, C34_default_name_collision — the exceptions stated in the property are proved as refutations |
| C35 | Stable time step and diagnostics are global and identical on all ranks | Diagnostics.v (any ordered arithmetic; Coq reals for the divergence norm) | max/min reductions over any bracketing and order select the greatest/least element, and an antitone limit of the greatest is the least limit; sum reductions in exact arithmetic | **proved**: C35_stable_timestep_any_arithmetic, C35_stable_timestep, C35_stable_timestep_rounded, C35_timestep_decomposition_independent, C35_max_vorticity, C35_divergence_norm, C35_ghost_size_zero_raises — any arithmetic whose max and min select by a total order and whose limit formula is antitone, with the exact and the rounded formulas as instances, zero viscosity included; the divergence norm in exact real arithmetic; ghost size at least 1 |
| C36 | Logger echoes on the requested ranks only; handler removal | Logger.v (python `logging` objects shared by name) | invariant over histories of calls; refutation witnesses | **proved**: C36_emits_exactly_on_echo_ranks, C36_echo_ranks_print, C36_handlers_left, C36_remove_all_refuted, C36_old_logfile_still_written, C36_level_is_shared — findings in the statement are proved as refutations |
| C37 | Ghost-size guards | Construct.v, PyNum.v (python ints/floats reaching the guards) | direct; refutations | **proved**: C37_support_check, C37_guards, C37_positive_guard_refuted, C37_bad_sizes_accepted |
| C38 | Forcing is consumed once per step and simulator time accumulates | NavierStokes.v | C47's serial fold uses each deposit once; forcing arrays are zero after the step | **proved**: C38_forcing_consumed_2d, C38_forcing_consumed_3d, C38_time, C38_time_continues, C47_history_2d, C47_history_3d — that no forcing leaks into the next step: the serial fold of C47 uses each deposit once |
| C39 | Local node counts and buffers are consistent after remapping | Vbf.v | invariant over histories of remappings | **proved**: C39_counts_after_remaps |
| C40 | Body-flow interaction does not change the flow velocity on inner cells | Bodies.v, EulLag.v, Vbf.v | frame of the interaction on the velocity arrays; induction over the bodies | **proved**: C40_velocity_inner_cells_unchanged_2d, C40_velocity_inner_cells_unchanged_3d, C40_bodies_add_up_2d, C40_bodies_add_up_3d — any list of bodies, with and without reset |
| C41 | Grid deviation norm is decomposition independent | Deviation.v (Coq reals) | norm as reduction; case split on the variant | **proved**: C41_global_norm, C41_global_norm_exists, C41_local_variant_undefined_off_master — exact real arithmetic |
| C42 | Cell-centre coordinates agree across ranks | Coords.v (exact rationals) | linspace arithmetic | **proved**: C42_cell_centres, C42_covers_domain, C42_ranks_agree — exact rational arithmetic |
| C43 | Rod elements are segment midpoints | IoRod.v | direct, over histories of saves | **proved**: C43_saved_rod_is_current_midpoints, C43_one_file_per_save |
| C44 | Whole explicit transport step is decomposition independent over any history | TimeStep.v, Stencil.v | induction over histories of steps with `represents` | **proved**: C44_history_2d, C44_history_3d, C44_decomposition_independent_2d, C44_decomposition_independent_3d, C44_passive_scalar_calls_ok, C44_passive_vector_calls_ok, C44_passive_scalar_2d, C44_passive_scalar_3d, C44_passive_vector_3d, C44_wide_ghost_refuted — diffusion for any ghost size up to the block extents; advection with ghost size 2 and blocks of at least 4 cells (with wider ghost layers the claim is false: refuted) |
| C45 | Ghost layer wider than the block | Ghost2D.v, Ghost3D.v | necessity: every narrow axis yields a wrong cell for some memory; sufficiency as C03/C05 | **proved**: C45_exact_2d_full, C45_exact_2d_edges, C45_exact_3d_full, C45_exact_3d_faces, C45_unsplit_axes_may_be_narrow_2d, C45_unsplit_axes_may_be_narrow_2d_edges, C45_unsplit_axes_may_be_narrow_3d, C45_ghost_wider_than_block_refuted — necessary and sufficient condition, 2D and 3D, full and face-only exchange |
| C46 | Simulator construction errors are reported | Construct.v | case analysis over the flow types; refutation | **proved**: C46_constructor_2d, C46_time_step_2d, C46_step_done_2d, C46_failing_step_half_done, C46_errors_reported_2d_refuted, C46_constructor_3d, C46_kernels_2d, C46_kernels_3d |
| C47 | A whole Navier-Stokes simulation is decomposition independent over any history | NavierStokes.v (all kernels, exchanges and solves of a step) | each sub-step preserves `represents_ext`; composition, induction over histories | **proved**: C47_step_ends_2d, C47_history_2d, C47_decomposition_independent_2d, C47_step_ends_3d, C47_history_3d, C47_decomposition_independent_3d — the serial kernels, the damping and the Green's-function convolution are arbitrary functions with the stated reach |
| C48 | The unbounded Poisson solve is the free-space convolution | Greens.v, Doubling.v (Coq reals, Coquelicot complex numbers) | Green's function arrays computed from substart/linspace; convolution theorem for the DFT on a grid proved from orthogonality of roots of unity; reflection arithmetic modulo the doubled extent | **proved**: C48_greens_function_2d, C48_greens_function_3d, C48_regularised_value, C48_solves_2d, C48_solves_3d, C48_vector_solve_3d — exact real arithmetic; contract: the parallel FFT computes the DFT formulas (shown satisfiable) |
| C49 | Coupled flow-body simulations match the serial simulation | Coupled.v over NavierStokes.v, Vbf.v, Bodies.v, EulLag.v, Ghost*.v | a run is a sequence of segments (nonblocking phases or blocking programs); the memory shows the serial state (SpecTracks) as an invariant of every event, by induction over the history; frames (Writes.v) keep bodies and flow apart | **proved**: C49_coupled_every_history_2d, C49_coupled_2d, C49_decomposition_independent_2d, C49_coupled_every_history_3d, C49_coupled_3d, C49_decomposition_independent_3d — exact addition (commutative monoid) for the ghost sums; supports off the outermost layer of the domain; the body motion is an input |
| C50 | Pointwise kernels act on whole local arrays and keep ghosts valid | Pointwise.v over Stencil.v | one local kernel over all cells of the ghosted arrays; read-over-write of disjoint arrays, per component | **proved**: C50_brinkmann, C50_char_func, C50_ghosts_stay_valid — the serial formulas are arbitrary functions |
| C51 | In double precision a node's support stays inside its rank's array only with a margin | Rounding.v | Flocq rounding to nearest even in FLT(-1074, 53): relative error bounds on the three roundings keep a/dx within 1/32 cell of the block; exactness of python's floor division; the counterexample is evaluated by rounding lemmas | **proved**: C51_support_inside_with_margin, C51_support_inside_power_of_two, C51_support_inside_no_round_up, C51_support_outside_refuted — positions, dx and shift in binary64; finding: kernel width = ghost size is accepted but not always safe |
| C52 | Interactor options do not change the results | Coupled.v (`ghosting`, `lag_force`), Vbf.v (`interact_local`) | C49's invariant with the freshness of the velocity ghosts carried along the history; concrete run with stale ghosts for the converse | **proved**: C52_options_independent_2d, C52_options_independent_3d, C52_stale_ghosts_refuted — the refutation is the converse: the ghost exchange is needed |
| C53 | XDMF descriptions match the HDF5 file | Xdmf.v (`rank_files`, `eul_doc`, `lag_doc`, `replace_h5`) | every write to a name has the same content, so the last one in any interleaving does; string lemmas for the names; concrete interleaving for two masters | **proved**: C53_file_names, C53_eulerian_description, C53_lagrangian_description, C53_origin_count, C53_two_masters_refuted, C53_no_suffix_refuted, C53_grid_called_eulerian_refuted — the condition on the masters is needed: see the refutation |
| C54 | Two-way coupled simulations follow the serial loop | Loop.v (`loop_ends`, `placed_calls`), on Coupled.v | induction on the number of steps: the calls made so far are a history of C49; what the script sees and the masters' loads are then the serial ones, hence so is the next call | **proved**: C54_two_way_2d, C54_two_way_3d, C54_decomposition_independent_2d, C54_decomposition_independent_3d, C54_copies_off_master, C54_all_copies_move_alike_refuted — mappings that change must change some rank's node count, as in C49 (see C15) |
| C55 | Interactors are constructed alike on all ranks and simulations start at rest | Interactor.v (`interactor_init`, `vbf_init`, `bcast`, `init_memories`, `start_memory`) | case analysis of the constructor; the fresh arrays are disjoint by their numbers; the first state satisfies the invariant of C49, then C54 | **proved**: C55_construction_succeeds, C55_all_ranks_know_the_body, C55_value_error_iff, C55_mpi_error_iff, C55_waits_only_for_a_failed_master, C55_all_ranks_end_alike_refuted, C55_simulation_starts_at_rest, C55_arrays_start_at_zero, C55_from_scratch_2d, C55_from_scratch_same_2d, C55_from_scratch_3d, C55_from_scratch_same_3d — finding: a node far below the domain makes the master raise while the other ranks wait for its broadcast |
| C56 | Restarting a flow simulation from saved vorticity and velocity | Restart.v (the example's add calls) on top of IoEul.v and NavierStokes.v | what a serial step forgets: a sponge of width w only looks at cells at distance w-1 from the boundary, so influence of the cells around the domain, which travels 3 (2D) or 2 (3D) cells in a step, is erased (RestartSerial.v); then C33 and C47; refutations by running the serial step on an instance | **proved**: C56_restart_2d, C56_restart_3d, C56_restart_possible_2d, C56_restart_possible_3d, C56_restart_with_ghosts_2d, C56_restart_with_ghosts_3d, C56_what_is_restored, C56_narrow_zone_2d_refuted, C56_narrow_zone_3d_refuted — finding: with the default penalised zone of 2 cells a restart is not exact |
| C57 | Restarting a simulation of a flow with immersed bodies | Resume.v (the example's restart code: load, map, new buffers, two scatters) on top of Restart.v, IoLag.v and Coupled.v; VbfBook.v adds to the model of the interactions what the master has collected | the collected arrays hold the mismatches from before the last meeting (an invariant carried along C49, CoupledProofs.v); a serial meeting recomputes the velocity mismatch and leaves the position mismatch, so a settled body loses nothing (ResumeSerial.v); then C34, C56 and C49 on both sides; refutations by running the serial simulation on an instance whose parallel runs the theorems give | **proved**: C57_restart_2d, C57_restart_possible_2d, C57_what_is_saved_2d, C57_what_continues_2d, C57_restart_3d, C57_restart_possible_3d, C57_what_is_saved_3d, C57_what_continues_3d, C57_advance_first_refuted, C57_saved_after_advance_refuted, C57_saved_before_flow_refuted — the refutations show that each condition on the moment of the save is needed; interactors with assume_data_locality are excluded: they have no communicator, so the example's restart code fails on them |
| C58 | Pictures saved by the plotter | Plotter.v (MPIPlotter2D: three gathers, then drawing on every rank; what a figure shows), with SpecPlotter.v saying what the files should show from the list of calls alone | C08 for each gather, run one after the other; an invariant relating the master's figure to the list of what was drawn, induction over the calls; calls are deterministic (confluence of the blocking machine) | **proved**: C58_saved_pictures, C58_colour_bars, C58_title_lost_after_clearing, C58_clearing_first_fails, C58_one_bar_per_contour_refuted — matplotlib is reduced to what a figure shows |
| C59 | Adaptive time loops run in lockstep and are decomposition independent | Adaptive.v, Diagnostics.v, NavierStokes.v, TimeStep.v (per-rank times, timers and reduction results) | invariant over the iterations: the ranks show one serial configuration; the generic loop lemma is instantiated with the histories of C47 and C44; archimedean bound for the number of iterations | **proved**: C59_lockstep_2d, C59_ends_as_serial_2d, C59_decomposition_independent_2d, C59_lockstep_3d, C59_ends_as_serial_3d, C59_decomposition_independent_3d, C59_transport_lockstep_2d, C59_transport_lockstep_3d, C59_transport_vector_lockstep_3d, C59_bounded_speed_ends — what a due timer triggers keeps the flow arrays (shown for the plots and files in C58, C33); bodies enter as forcing that may depend on the flow |
| C60 | Coupled drivers with bodies and adaptive time steps run in lockstep and are decomposition independent | Driver.v on top of Adaptive.v and Loop.v (per-rank times, timers, mappings and body copies) | the invariant of C59 with the tracking relation of C54 as the state relation; legality is asked only of the calls of the serial run | **proved**: C60_lockstep_2d, C60_ends_as_serial_2d, C60_decomposition_independent_2d, C60_lockstep_3d, C60_ends_as_serial_3d, C60_decomposition_independent_3d — what a due timer triggers keeps the arrays of flow, forcing and interactors; the calls of every iteration of the serial run must be legal (bodies inside the grid, forcing not spread over ghosts) as in C49/C54 |
| C61 | In floating point, the process grid changes a spread force field only by the rounding of its additions | the spreading program of C32 over reals with rounded additions (SpecRoundoff.v, SpecReady.v) | simulation (Simulate.v) by the same program over triples (exact sum, sum of magnitudes, number of terms), a commutative monoid to which the exact theorem applies; Flocq for binary64; the finding by executing the program on integers standing for doubles (Exec.v) | **proved**: C61_spreading_2d, C61_spreading_3d, C61_grids_agree_2d, C61_grids_agree_3d, C61_binary64, C61_bitwise_refuted — no overflow; the products force*weight are rounded too but alike on every grid; C61_bitwise_refuted: 1 and 2 ranks differ in the last bit |
| C62 | In floating point, the diagnostics' norms depend on the process grid only through rounding | RoundedNorm.v: the norms of C35 and C41 with every operation rounded, additions in any order and grouping | agreement up to k roundings is symmetric, additive under composition and preserved by sums, products, quotients and roots; the same tree of additions in exact arithmetic is the exact theorem's reduction | **proved**: C62_divergence_norm, C62_decompositions_agree, C62_zero_iff_zero, C62_deviation_norm, C62_53_bits — no underflow or overflow |
| C63 | A restart after a crash at any point loads exactly the last completed checkpoint, or refuses | Checkpoint.v: the saving and restarting code of the example, files absent, broken or whole; SpecCheckpoint.v: histories with deaths after any number of the openings and closings of a save | invariant over histories: a dead program either refuses or its last checkpoint is whole and is the last completed save | **proved**: C63_restart_loads_last_save, C63_death_outside_saves_restores, C63_save_restores, C63_crash_while_saving_refuted, C63_crash_in_first_save_after_restart, C63_refusal_on_every_rank_refuted — a file open at the crash is unreadable; PyElastica's state is one file |
| C64 | The origin the examples write puts every element of the data sets at its cell centre | Origin.v: the slices, minima and reductions of the examples on the position field of C42 | membership of the slice as bounds on every axis; the minimum is attained by rank 0 at the first cell of the slice | **proved**: C64_origin_3d, C64_origin_2d, C64_origin_rod_3d_refuted — exact rational arithmetic |
| C65 | Verification cases: initial fields and reported errors are those of a serial computation | Verify.v: sampling at the position field, local error norms, allreduce; the loop of C59 around it; compute_velocity_from_vorticity called by itself (NavierStokes.v) | positions are cell centres (C42), the sum over ranks of sums over blocks is the sum over the grid, lockstep (C59) for the run | **proved**: C65_sampled, C65_errors, C65_greatest_is_one, C65_lamb_oseen, C65_decomposition_independent, C65_point_source, C65_point_source_decomposition_independent — exact real arithmetic for the errors, exact rational arithmetic for the positions |
| C66 | An adaptive loop in floating-point arithmetic ends, and its time is the sum of its steps up to rounding | the loop of Adaptive.v / SpecAdaptive.v (C59) with a rounded addition of times (SpecRoundoff.v) | each rounded addition moves the time by at least dmin (1 - eps) - eps t_end, error accumulation by induction; lockstep (C59) for the ranks; a literal binary64 run for the finding | **proved**: C66_ends, C66_time_error, C66_ranks_2d, C66_ranks_3d, C66_positive_steps_refuted — overflow excluded: the format is unbounded above |
| C67 | The log file shared by all ranks holds every message once, whole and in order | LogFile.v: formats, Write_shared at a shared pointer, one pointer per collective open, interleavings of the ranks; handlers and levels from Logger.v | the only handle on the file stays at its end, so each write appends; handlers do not depend on the rank (induction on the history); the format is decoded by its first bracket | **proved**: C67_one_handle, C67_log_file, C67_attribution, C67_same_name, C67_timestamp_refuted, C67_two_handles_refuted — MPI contract: File.Open with MODE_APPEND starts the shared pointer at the end of the file; Write_shared in atomic mode writes at the pointer and moves it, one at a time |
| C68 | The drag history written by drivers with immersed bodies | Drag.v: the row of the force array on the master at due timers, the file after the loop; the loop is Driver.v | by the lockstep of C60 every row is the serial one (induction on the iterations); the serial run that ends is unique; a fixed body's iteration leaves in its node state the force for the flow it started from | **proved**: C68_drag_file_2d, C68_drag_file_3d, C68_decomposition_independent_2d, C68_decomposition_independent_3d, C68_force_one_step_old, C68_force_of_its_time_refuted — the two lists are one list of pairs; scaling to output units and np.sum are arbitrary functions |
| C69 | Flow past a body that stays where it is | Loop.v, Driver.v, Drag.v with the calls of the fixed-body drivers (fixed_calls); constructors as in C55 (Interactor.v) | the pose never changes, so a body that fits at the start makes legal calls for ever (induction on the iterations); then C60 and C68; C55 gives the start | **proved**: C69_calls_legal_2d, C69_calls_legal_3d, C69_flow_past_body_2d, C69_flow_past_body_3d, C69_from_scratch_2d, C69_from_scratch_3d — one body; the from-scratch theorems take the nodes mapped by position (assume_data_locality off) |
| C70 | Bodies that move: what must hold of the serial run for the ranks to run as it does | Loop.v and Driver.v, poses mapped as in Lagrangian.v; SpecMoving.v says in terms of the serial run where bodies are when they act | induction on the iterations and the calls: the places kept by the interactors are those of the last call, positions inside the domain have exactly one block each; then C60; C55 gives the start | **proved**: C70_calls_legal_2d, C70_calls_legal_3d, C70_runs_as_serial_2d, C70_runs_as_serial_3d, C70_from_scratch_2d, C70_from_scratch_3d, C70_when_counts_tell, C70_counts_tell_refuted — interactors with auto_ghosting (the default) |
| C71 | Drivers with a rod: the flow's step in substeps of the rod | Substep.v (numbers of a rounding; binary64 of Flocq) and Rod.v (the calls as a script for Driver.v); SpecRod.v says what an iteration does serially and where the rod then is | floor and rounding bounds; the script is the serial composition by induction on the list of calls; then C70 and C60 | **proved**: C71_at_least_one_substep, C71_substeps_cover, C71_substeps_cover_rounded, C71_number_of_substeps, C71_substep_range, C71_substep_range_rounded, C71_short_step_undivided, C71_when_limit_respected, C71_limit_respected_refuted, C71_rod_runs_as_serial_2d, C71_rod_runs_as_serial_3d, C71_rod_decomposition_independent_2d, C71_rod_decomposition_independent_3d — do_step of PyElastica is any list of motions and load computations |
| C72 | Restarting a driver with a rod | the driver of C71 from two states, the second only with what is saved of the first (SpecRodRestart.v); one rod | an iteration from states that agree in what is saved gives states that agree in everything: the rod gets its loads in the first substep, and the flow step reads only what is saved (ResumeThms.v); so both serial runs go side by side, by induction; then C71 for the ranks | **proved**: C72_restarted_2d, C72_restarted_3d — the files give back what C57 and C63 say; PyElastica gives back the rod it saved (trusted) |
| C73 | The file names of checkpoints: a restart opens the last save | FileNames.v: names as lists of characters, formatting, substring search, split and int of python, the listing loop; the number of a time in binary64 of Flocq | digits by the standard library's decimal numbers; the listing by induction on the directory; times by monotonicity and error bounds of rounding | **proved**: C73_number_in_name, C73_names_differ, C73_restart_opens_last_save, C73_other_files_ignored, C73_listing_as_in_checkpoints, C73_times_as_in_checkpoints, C73_saves_apart, C73_hundredths_refuted, C73_stray_file_refuted — names are ASCII; names that python's int() reads but that are not plain digits are not modelled |

## 4. Trusted base

* Coq 8.16.1's kernel (including `vm_compute`, used in examples and refutations).
* The axioms listed per theorem in section 7.  They are all axioms of Coq's standard library:
  `functional_extensionality_dep`; for theorems about real numbers also `sig_forall_dec`, `sig_not_dec` (construction of the
  reals) and `classic` (square roots, logarithms and integrals).  No axiom is added; Coquelicot adds none.
* The reading of /repo into the model (the citations), the definitions in `Spec*.v`, and the external contracts below.

## 5. External contracts (libraries the code calls; not modelled from source)

* MPI: `Compute_dims` and `Create_cart` (row-major ranks, reorder=False), `Cart_shift`, non-overtaking matching, `Waitall`,
  derived datatypes (vector, subarray) as typemaps, reductions as folds in any order and bracketing, `bcast`.
* sopht/pystencils serial kernels: arbitrary functions of the values within radius ks around a cell (star shaped); called on a
  view they write exactly the cells of the view at distance at least ks from its sides.  Nothing is assumed about the formula,
  except where a property is about it (C31 delta functions, C43 midpoints, C35 diagnostics).
* mpi4py-fft: in C24-C26 and C47 an arbitrary function of the whole doubled array; in C48 the pair (forward, backward)
  computes the discrete Fourier transform formulas (shown satisfiable, with full or half spectra).  `DistArray` gives every rank
  of an axis the same number of cells when it divides the extent.
* h5py: collective writes/reads of hyperslabs are assignments to/reads of dataset elements; string conversion of numbers is
  injective decimal notation.
* python `logging`: one logger per name per process, handlers in insertion order; `{:<7}` fills up with spaces.
* MPI-IO shared files (C67): `File.Open` with `MODE_APPEND` starts the (one per open) shared pointer at the end of the file; `Write_shared` in atomic mode writes at the pointer and moves it, one call at a time.
* PyElastica rods and bodies: their position arrays are inputs; in C54 their motion is an arbitrary function of the loads.

## 6. What is modelled and what is not

Modelled: `utils/mpi_utils_2d.py`, `utils/mpi_utils_3d.py`, `utils/mpi_utils.py`, `utils/mpi_io.py` (data sets and
XDMF descriptions), `utils/mpi_logger.py`, `numeric/eulerian_grid_ops/stencil_ops_2d` and `stencil_ops_3d`,
`poisson_solver_2d/3d`, `numeric/immersed_boundary_ops` (both grid communicators, `VirtualBoundaryForcingMPI`), `simulator/flow`
(construction, time steps, time step size, diagnostics), `simulator/immersed_body` (construction, interaction, deviation norm), and
the restart code of the example with checkpoints (C56, C57).

Not modelled:

* floating point rounding and dtypes (`real_t`), except the mapping of nodes to ranks and cells in double precision (C51), the summation of spread forces (C61), the norms (C62) and the accumulated time (C66): exact arithmetic where arithmetic matters, arbitrary `T` elsewhere;
* what the transfer of the gathered forces to the body computes (`transfer_forcing_from_grid_to_body` is sopht code: an arbitrary
  function in C54);
* matplotlib (how `MPIPlotter2D`'s figures look, C58), `lab_cmap.py`; the layout, Precision and Time attributes of the XDMF text;
* the last-resort handler and root propagation of python's `logging`;
* performance, thread counts (`num_threads`), file-system failures.
* C63: a file that is open when the program dies is taken to be unreadable; PyElastica's state (several files) is one file; the working directory holds only this series of runs, and restart_dir is not changed in between; file numbers are a non-decreasing function of time ("%0.5d" % (time * 100), os.listdir and int are not modelled as text).

## 7. Assumptions per theorem

* **closed under the global context (no axioms)** (148 theorems): `C01_rejects_iff_not_divisible`, `C01_blocks_tile_grid`, `C02_axis_neighbours_inverse`, `C02_diagonal_neighbours_inverse`, `C02_no_neighbour_iff_physical_boundary`, `C02_diagonal_is_composition`, `C02_axis_is_unit_diagonal`, `C02_neighbours_in_range`, `C03_full_exchange_2d`, `C04_edge_exchange_2d`, `C05_full_exchange_3d`, `C05_face_exchange_3d`, `C06_all_messages_matched_2d`, `C06_all_messages_matched_3d`, `C06_vector_exchange_2d`, `C06_vector_exchange_3d`, `C07_timing_independent_2d`, `C07_timing_independent_3d`, `C07_inner_cells_stable_in_flight_2d`, `C07_inner_cells_stable_in_flight_3d`, `C10_gather_after_scatter`, `C10_scatter_after_gather`, `C45_exact_2d_full`, `C45_exact_2d_edges`, `C45_exact_3d_full`, `C45_exact_3d_faces`, `C45_unsplit_axes_may_be_narrow_2d`, `C45_unsplit_axes_may_be_narrow_2d_edges`, `C45_unsplit_axes_may_be_narrow_3d`, `C45_ghost_wider_than_block_refuted`, `C12_node_goes_to_owner_of_its_cell`, `C12_index_lists_partition_nodes`, `C13_exact`, `C13_aborts_iff_above`, `C13_upper_side_aborts`, `C13_below_lower_corner_refuted`, `C13_negative_index_refuted`, `C14_scatter_then_gather_is_identity`, `C14_gather_then_scatter_is_identity`, `C14_wrong_shape_aborts`, `C16_result_unique`, `C17_once_when_wide`, `C17_twice_iff_thin`, `C17_at_most_twice`, `C44_passive_scalar_calls_ok`, `C44_passive_vector_calls_ok`, `C22_width_check`, `C23_filter_args`, `C24_distributed_axis`, `C24_periodic_odd_refuted`, `C25_raises_iff_odd`, `C25_distributed_axes`, `C28_periodic_deadlock_2d`, `C28_periodic_deadlock_3d`, `C29_rejects_iff_ghost_too_small`, `C29_support_inside_local_array`, `C39_counts_after_remaps`, `C33_save_names_distinct`, `C33_component_names`, `C33_every_element_written_once`, `C33_restart_round_trip`, `C33_missing_field_raises`, `C34_save_accepts`, `C34_restart_round_trip`, `C34_shared_field_name_refuted`, `C34_square_vector_save_raises`, `C34_grid_without_fields_not_loaded`, `C34_default_names_distinct`, `C34_default_name_collision`, `C43_saved_rod_is_current_midpoints`, `C43_one_file_per_save`, `C36_emits_exactly_on_echo_ranks`, `C36_echo_ranks_print`, `C36_handlers_left`, `C36_remove_all_refuted`, `C36_old_logfile_still_written`, `C36_level_is_shared`, `C35_stable_timestep_any_arithmetic`, `C35_timestep_decomposition_independent`, `C35_max_vorticity`, `C35_ghost_size_zero_raises`, `C37_support_check`, `C37_guards`, `C37_positive_guard_refuted`, `C37_bad_sizes_accepted`, `C42_cell_centres`, `C42_covers_domain`, `C42_ranks_agree`, `C46_constructor_2d`, `C46_time_step_2d`, `C46_step_done_2d`, `C46_failing_step_half_done`, `C46_errors_reported_2d_refuted`, `C46_constructor_3d`, `C46_kernels_2d`, `C46_kernels_3d`, `C38_time`, `C38_time_continues`, `C53_file_names`, `C53_eulerian_description`, `C53_lagrangian_description`, `C53_origin_count`, `C53_two_masters_refuted`, `C53_no_suffix_refuted`, `C53_grid_called_eulerian_refuted`, `C54_copies_off_master`, `C55_construction_succeeds`, `C55_all_ranks_know_the_body`, `C55_value_error_iff`, `C55_mpi_error_iff`, `C55_waits_only_for_a_failed_master`, `C55_all_ranks_end_alike_refuted`, `C55_simulation_starts_at_rest`, `C55_arrays_start_at_zero`, `C56_what_is_restored`, `C63_restart_loads_last_save`, `C63_death_outside_saves_restores`, `C63_save_restores`, `C63_crash_while_saving_refuted`, `C63_crash_in_first_save_after_restart`, `C63_refusal_on_every_rank_refuted`, `C64_origin_3d`, `C64_origin_2d`, `C64_origin_rod_3d_refuted`, `C65_sampled`, `C67_one_handle`, `C67_log_file`, `C67_attribution`, `C67_same_name`, `C67_timestamp_refuted`, `C67_two_handles_refuted`, `C68_force_one_step_old`, `C68_force_of_its_time_refuted`, `C69_calls_legal_2d`, `C69_calls_legal_3d`, `C69_from_scratch_2d`, `C69_from_scratch_3d`, `C70_calls_legal_2d`, `C70_calls_legal_3d`, `C70_from_scratch_2d`, `C70_from_scratch_3d`, `C70_when_counts_tell`, `C70_counts_tell_refuted`, `C73_number_in_name`, `C73_names_differ`, `C73_other_files_ignored`, `C73_listing_as_in_checkpoints`, `C73_stray_file_refuted`
* **`FunctionalExtensionality.functional_extensionality_dep`** (143 theorems): `C08_gather_assembles_global_field`, `C09_scatter_writes_inner_cells`, `C11_call_sequences_terminate`, `C14_scatter_gives_each_rank_its_columns`, `C14_gather_puts_columns_back`, `C16_reset_kernels_serial`, `C16_adding_kernels_serial`, `C17_exact`, `C17_added_once_refuted`, `C17_two_wide_blocks_twice`, `C18_zero_exactly_on_boundary`, `C19_stale_ghosts_irrelevant`, `C20_only_outside_ghosts_matter`, `C20_away_from_boundary`, `C20_stale_ghosts_irrelevant_refuted`, `C21_curl_3d_serial`, `C44_history_2d`, `C44_history_3d`, `C44_decomposition_independent_2d`, `C44_decomposition_independent_3d`, `C44_passive_scalar_2d`, `C44_passive_scalar_3d`, `C44_passive_vector_3d`, `C44_wide_ghost_refuted`, `C22_penalise_2d_serial`, `C22_penalise_3d_serial`, `C22_penalise_vector_3d_serial`, `C22_unchanged_outside_sponge`, `C22_unchanged_outside_sponge_3d`, `C22_width_zero`, `C22_wide_sponge_refuted`, `C23_filter_serial`, `C23_order_zero`, `C23_order_zero_refuted`, `C24_to_doubled`, `C24_from_doubled`, `C24_roundtrip`, `C25_to_doubled`, `C25_from_doubled`, `C25_roundtrip`, `C26_solves_2d`, `C26_solves_3d`, `C26_vector_solve_3d`, `C26_frame`, `C27_ghost_sum_2d`, `C27_ghost_sum_3d`, `C30_interpolation_serial_2d`, `C30_interpolation_serial_3d`, `C30_spreading_serial_2d`, `C30_spreading_serial_3d`, `C30_face_only_exchange_refuted`, `C32_adjoint_2d`, `C32_adjoint_3d`, `C15_every_history`, `C15_mismatch_follows_node`, `C15_exchange_misattributes`, `C15_exchange_refuted`, `C40_velocity_inner_cells_unchanged_2d`, `C40_velocity_inner_cells_unchanged_3d`, `C40_bodies_add_up_2d`, `C40_bodies_add_up_3d`, `C38_forcing_consumed_2d`, `C38_forcing_consumed_3d`, `C47_history_2d`, `C47_history_3d`, `C47_step_ends_2d`, `C47_decomposition_independent_2d`, `C47_step_ends_3d`, `C47_decomposition_independent_3d`, `C49_coupled_every_history_2d`, `C49_coupled_2d`, `C49_decomposition_independent_2d`, `C49_coupled_every_history_3d`, `C49_coupled_3d`, `C49_decomposition_independent_3d`, `C50_brinkmann`, `C50_char_func`, `C50_ghosts_stay_valid`, `C52_options_independent_2d`, `C52_options_independent_3d`, `C52_stale_ghosts_refuted`, `C54_two_way_2d`, `C54_two_way_3d`, `C54_decomposition_independent_2d`, `C54_decomposition_independent_3d`, `C54_all_copies_move_alike_refuted`, `C55_from_scratch_2d`, `C55_from_scratch_same_2d`, `C55_from_scratch_3d`, `C55_from_scratch_same_3d`, `C56_restart_2d`, `C56_restart_3d`, `C56_restart_possible_2d`, `C56_restart_possible_3d`, `C56_restart_with_ghosts_2d`, `C56_restart_with_ghosts_3d`, `C56_narrow_zone_2d_refuted`, `C56_narrow_zone_3d_refuted`, `C57_restart_2d`, `C57_restart_possible_2d`, `C57_what_is_saved_2d`, `C57_what_continues_2d`, `C57_restart_3d`, `C57_restart_possible_3d`, `C57_what_is_saved_3d`, `C57_what_continues_3d`, `C57_advance_first_refuted`, `C57_saved_after_advance_refuted`, `C57_saved_before_flow_refuted`, `C58_saved_pictures`, `C58_colour_bars`, `C58_title_lost_after_clearing`, `C58_clearing_first_fails`, `C58_one_bar_per_contour_refuted`, `C59_lockstep_2d`, `C59_ends_as_serial_2d`, `C59_decomposition_independent_2d`, `C59_lockstep_3d`, `C59_ends_as_serial_3d`, `C59_decomposition_independent_3d`, `C59_transport_lockstep_2d`, `C59_transport_lockstep_3d`, `C59_transport_vector_lockstep_3d`, `C60_lockstep_2d`, `C60_ends_as_serial_2d`, `C60_decomposition_independent_2d`, `C60_lockstep_3d`, `C60_ends_as_serial_3d`, `C60_decomposition_independent_3d`, `C68_drag_file_2d`, `C68_drag_file_3d`, `C68_decomposition_independent_2d`, `C68_decomposition_independent_3d`, `C69_flow_past_body_2d`, `C69_flow_past_body_3d`, `C70_runs_as_serial_2d`, `C70_runs_as_serial_3d`, `C71_rod_runs_as_serial_2d`, `C71_rod_runs_as_serial_3d`, `C71_rod_decomposition_independent_2d`, `C71_rod_decomposition_independent_3d`, `C72_restarted_2d`, `C72_restarted_3d`
* **`ClassicalDedekindReals.sig_forall_dec`, `ClassicalDedekindReals.sig_not_dec`, `FunctionalExtensionality.functional_extensionality_dep`** (21 theorems): `C31_cosine_partition_of_unity`, `C31_peskin_partition_of_unity`, `C31_peskin_exact_on_coordinates`, `C32_total_force_conserved_2d`, `C32_total_force_conserved_3d`, `C41_global_norm`, `C41_global_norm_exists`, `C41_local_variant_undefined_off_master`, `C35_divergence_norm`, `C48_greens_function_3d`, `C48_solves_3d`, `C48_vector_solve_3d`, `C62_divergence_norm`, `C62_decompositions_agree`, `C62_zero_iff_zero`, `C62_deviation_norm`, `C65_errors`, `C65_lamb_oseen`, `C65_decomposition_independent`, `C65_point_source`, `C65_point_source_decomposition_independent`
* **`ClassicalDedekindReals.sig_forall_dec`, `FunctionalExtensionality.functional_extensionality_dep`** (15 theorems): `C35_stable_timestep`, `C35_stable_timestep_rounded`, `C59_bounded_speed_ends`, `C61_spreading_2d`, `C61_spreading_3d`, `C61_grids_agree_2d`, `C61_grids_agree_3d`, `C66_ends`, `C66_time_error`, `C66_ranks_2d`, `C66_ranks_3d`, `C71_substeps_cover`, `C71_number_of_substeps`, `C71_substep_range`, `C71_when_limit_respected`
* **`ClassicalDedekindReals.sig_forall_dec`, `ClassicalDedekindReals.sig_not_dec`, `Classical_Prop.classic`, `FunctionalExtensionality.functional_extensionality_dep`** (20 theorems): `C48_greens_function_2d`, `C48_regularised_value`, `C48_solves_2d`, `C51_support_inside_with_margin`, `C51_support_inside_power_of_two`, `C51_support_inside_no_round_up`, `C51_support_outside_refuted`, `C61_binary64`, `C61_bitwise_refuted`, `C62_53_bits`, `C66_positive_steps_refuted`, `C71_at_least_one_substep`, `C71_substeps_cover_rounded`, `C71_substep_range_rounded`, `C71_short_step_undivided`, `C71_limit_respected_refuted`, `C73_restart_opens_last_save`, `C73_times_as_in_checkpoints`, `C73_saves_apart`, `C73_hundredths_refuted`
* **`ClassicalDedekindReals.sig_forall_dec`** (1 theorems): `C65_greatest_is_one`
