{"id": "C01", "title": "Domain decomposition is accepted exactly when it tiles the grid", "statement": "Constructing MPIConstruct2D/3D raises RuntimeError exactly when some global grid extent is not a multiple of the number of ranks along that axis. When construction succeeds every cell of the global grid belongs to exactly one rank's local block, at exactly one local index, and every local block lies inside the global grid.", "quantifier": "every global grid shape, every Cartesian topology (any number of ranks per axis, 2D and 3D), every cell", "why_tests_cant": "tests run with a handful of rank counts; the tiling must hold for all topologies and grid sizes", "anchors": ["sopht_mpi/utils/mpi_utils_2d.py:MPIConstruct2D.__init__", "sopht_mpi/utils/mpi_utils_3d.py:MPIConstruct3D.__init__"]}
{"id": "C02", "title": "Neighbour tables are mutual inverses and missing exactly at a physical boundary", "statement": "For every rank and every axis/diagonal direction d: the neighbour in direction d is another rank s iff the neighbour of s in direction -d is the original rank; there is no neighbour (PROC_NULL) exactly when the axis is non-periodic and the rank sits on that side of the domain. Diagonal neighbours agree with composing axis shifts.", "quantifier": "every topology, periodicity flags, rank and direction, including 1- and 2-rank periodic axes where both neighbours coincide", "why_tests_cant": "degenerate wrap-around topologies are rarely run and errors only appear as wrong data", "anchors": ["sopht_mpi/utils/mpi_utils_2d.py:MPIConstruct2D.__init__", "sopht_mpi/utils/mpi_utils_2d.py:MPIGhostCommunicator2D._get_diagonally_shifted_coord_rank", "sopht_mpi/utils/mpi_utils_3d.py:MPIConstruct3D.__init__", "sopht_mpi/utils/mpi_utils_3d.py:MPIGhostCommunicator3D._get_diagonally_shifted_coord_rank"]}
{"id": "C03", "title": "2D full ghost exchange installs the owners' values and nothing else", "statement": "After exchange_*_field_full_init + exchange_finalise on every rank, each ghost cell (edges and corners) whose global position lies in the (periodically extended) domain holds exactly the value the owning rank had in the corresponding inner cell; all other cells (inner cells, and ghost cells outside a physical boundary) are unchanged.", "quantifier": "every topology, periodicity, local block size, ghost size g with 1<=g<=local extents, all field contents of any element type", "why_tests_cant": "the flat-offset arithmetic on ravel()ed arrays with negative offsets must be right for every (n,g,topology)", "anchors": ["sopht_mpi/utils/mpi_utils_2d.py:MPIGhostCommunicator2D"]}
{"id": "C04", "title": "2D edge-only exchange leaves corner ghosts alone", "statement": "With full_exchange=False the exchange fills exactly the four edge ghost strips with owners' values, leaving corner ghosts and every other cell unchanged.", "quantifier": "every topology, periodicity, block size, ghost size and field contents", "why_tests_cant": "must hold for all sizes; a corner overwritten by an edge message is invisible on symmetric test data", "anchors": ["sopht_mpi/utils/mpi_utils_2d.py:MPIGhostCommunicator2D.exchange_scalar_field_init", "sopht_mpi/utils/mpi_utils_2d.py:MPIGhostCommunicator2D.__init__"]}
{"id": "C05", "title": "3D ghost exchange (faces, edges, vertices) installs the owners' values and nothing else", "statement": "Same as C03/C04 in 3D: full exchange fills all 26 ghost regions with the owners' values; with full_exchange=False only the 6 face regions; every other cell is unchanged.", "quantifier": "every 3D topology, periodicity, block size, ghost size, field contents", "why_tests_cant": "52 hand-written subarray datatypes; a single swapped start index shows up only on particular neighbour directions", "anchors": ["sopht_mpi/utils/mpi_utils_3d.py:MPIGhostCommunicator3D"]}
{"id": "C06", "title": "Untagged messages are matched correctly for any number of fields and any degenerate topology", "statement": "Although all messages use one tag, every posted receive is matched with the send for the same field, same region and opposite direction, also when several fields are exchanged before one exchange_finalise and when several neighbours are the same rank (1 or 2 ranks on a periodic axis, self messages). Every send has a receive of the same size, so exchange_finalise neither hangs nor truncates.", "quantifier": "every topology/periodicity, any list of fields posted before the finalise, every rank pair", "why_tests_cant": "depends on MPI non-overtaking order; wrong only on 1-2 rank periodic topologies and multi-field exchanges", "anchors": ["sopht_mpi/utils/mpi_utils_2d.py:MPIGhostCommunicator2D.exchange_vector_field_full_init", "sopht_mpi/utils/mpi_utils_2d.py:MPIGhostCommunicator2D.exchange_finalise", "sopht_mpi/utils/mpi_utils_3d.py:MPIGhostCommunicator3D.exchange_finalise"]}
{"id": "C07", "title": "The exchange result does not depend on message timing and can overlap interior compute", "statement": "For every order in which individual elements of the pending messages arrive, the final field contents are the same; inner cells are never written, so interior kernels run between init and finalise compute the same result whatever part of the exchange has completed at each cell update.", "quantifier": "every interleaving (permutation) of element transfers, every time at which each interior cell is computed", "why_tests_cant": "all schedules cannot be enumerated by tests", "anchors": ["sopht_mpi/utils/mpi_utils_2d.py:MPIGhostCommunicator2D", "sopht_mpi/utils/mpi_utils_3d.py:MPIGhostCommunicator3D", "sopht_mpi/numeric/eulerian_grid_ops/stencil_ops_2d/diffusion_flux_mpi_2d.py"]}
{"id": "C08", "title": "gather_local_field assembles the global field", "statement": "After gather_local_field the master's global array holds at every global cell the value of the owning rank's inner cell, for any order in which the slaves' messages are received; every cell is written exactly once and local fields are unchanged. Vector fields: per component.", "quantifier": "every topology, block size, ghost size (including 0), order of receives, field contents, 2D and 3D", "why_tests_cant": "flat offsets from ravel_multi_index and strided datatypes must be right for all sizes/orders", "anchors": ["sopht_mpi/utils/mpi_utils_2d.py:MPIFieldCommunicator2D.gather_local_field", "sopht_mpi/utils/mpi_utils_3d.py:MPIFieldCommunicator3D.gather_local_field"]}
{"id": "C09", "title": "scatter_global_field writes exactly the inner cells", "statement": "After scatter_global_field each rank's inner cell holds the master's global value at its global position; ghost cells and the global field are unchanged.", "quantifier": "every topology, block size, ghost size, order of sends, field contents", "why_tests_cant": "as C08", "anchors": ["sopht_mpi/utils/mpi_utils_2d.py:MPIFieldCommunicator2D.scatter_global_field", "sopht_mpi/utils/mpi_utils_3d.py:MPIFieldCommunicator3D.scatter_global_field"]}
{"id": "C10", "title": "Gather/scatter round trips", "statement": "scatter followed by gather returns the original global field; gather followed by scatter leaves every local field unchanged.", "quantifier": "every topology, sizes, ghost size, contents", "why_tests_cant": "round trip must hold for every partition", "anchors": ["sopht_mpi/utils/mpi_utils_2d.py:MPIFieldCommunicator2D", "sopht_mpi/utils/mpi_utils_3d.py:MPIFieldCommunicator3D"]}
{"id": "C11", "title": "Gather/scatter never deadlock", "statement": "Even when every send is fully synchronous (rendezvous), gather_local_field and scatter_global_field terminate on every rank under every schedule and for every iteration order of the slave set.", "quantifier": "every number of ranks, every master rank, every slave-set order, every schedule", "why_tests_cant": "small messages are eagerly buffered in tests and hide deadlocks", "anchors": ["sopht_mpi/utils/mpi_utils_2d.py:MPIFieldCommunicator2D", "sopht_mpi/utils/mpi_utils_3d.py:MPIFieldCommunicator3D"]}
{"id": "C12", "title": "Each Lagrangian node inside the domain is assigned to exactly one rank, the owner of its cell", "statement": "map_lagrangian_nodes_based_on_position assigns a node whose position lies in the domain to the unique rank whose half-open box of cells contains it; nodes on a block interface go to the upper block; the per-rank index lists partition all nodes.", "quantifier": "every topology, block size, node position in the domain, any number of nodes, 2D and 3D", "why_tests_cant": "interface and ordering (xyz vs zyx) cases over all topologies", "anchors": ["sopht_mpi/utils/mpi_utils_2d.py:MPILagrangianFieldCommunicator2D.map_lagrangian_nodes_based_on_position", "sopht_mpi/utils/mpi_utils_3d.py:MPILagrangianFieldCommunicator3D.map_lagrangian_nodes_based_on_position"]}
{"id": "C13", "title": "Lagrangian nodes outside the domain", "statement": "Mapping Lagrangian nodes to ranks by position aborts the run exactly if some node is at or above the upper end of the domain on some axis. A node below the lower end is not rejected: less than one block below, it is given to the first block of that axis; k blocks below, to the k-th block from the upper end (negative indexing); further below than all blocks, an IndexError is raised. (Findings: a node outside the domain on the lower side silently gets a rank.)", "quantifier": "every position on every axis and side, every topology and block size", "why_tests_cant": "boundary of the check on all axes and sides", "anchors": ["sopht_mpi/utils/mpi_utils_2d.py:MPILagrangianFieldCommunicator2D.map_lagrangian_nodes_based_on_position", "sopht_mpi/utils/mpi_utils_3d.py:MPILagrangianFieldCommunicator3D.map_lagrangian_nodes_based_on_position"]}
{"id": "C14", "title": "Lagrangian scatter/gather round trip", "statement": "scatter_global_field gives every rank exactly the columns of the nodes it owns, in ascending node order; gather_local_field puts them back; scatter then gather is the identity on the global field and gather writes every column exactly once; a wrong leading dimension aborts.", "quantifier": "every node-to-rank map, number of nodes and components, field contents, order of slave messages", "why_tests_cant": "arbitrary maps including ranks with no nodes", "anchors": ["sopht_mpi/utils/mpi_utils_2d.py:MPILagrangianFieldCommunicator2D.scatter_global_field", "sopht_mpi/utils/mpi_utils_2d.py:MPILagrangianFieldCommunicator2D.gather_local_field", "sopht_mpi/utils/mpi_utils_3d.py:MPILagrangianFieldCommunicator3D"]}
{"id": "C15", "title": "The position-mismatch history follows its node across ranks", "statement": "In virtual boundary forcing the accumulated position mismatch follows its node across ranks in every step whose mapping changes some rank's node count (or changes nothing). In a step in which nodes exchange ranks while all node counts stay the same, each rank keeps its old mismatch array, so the mismatch accumulated by the node previously in a slot is attributed to the node now in it (finding). These two rules describe every history of motion.", "quantifier": "every motion history of the nodes, every number of steps and topology", "why_tests_cant": "needs all histories of node migration", "anchors": ["sopht_mpi/numeric/immersed_boundary_ops/VirtualBoundaryForcingMPI.py:update_buffers"]}
{"id": "C16", "title": "MPI stencil kernels compute what the serial kernel computes", "statement": "For each MPI stencil kernel of radius ks on local blocks with extents >= 2*ks and ghost size >= ks, every inner cell is updated exactly once, with the stencil applied to the globally assembled (periodically extended) field; cells whose stencil stays in the domain get exactly the serial result.", "quantifier": "every stencil of radius ks, topology, periodicity, block size, ghost size, field contents, 2D and 3D", "why_tests_cant": "the strip decomposition must cover each cell once for every size", "anchors": ["sopht_mpi/numeric/eulerian_grid_ops/stencil_ops_2d/diffusion_flux_mpi_2d.py", "sopht_mpi/numeric/eulerian_grid_ops/stencil_ops_2d/advection_flux_mpi_2d.py", "sopht_mpi/numeric/eulerian_grid_ops/stencil_ops_2d/outplane_field_curl_mpi_2d.py", "sopht_mpi/numeric/eulerian_grid_ops/stencil_ops_2d/update_vorticity_from_velocity_forcing_mpi_2d.py", "sopht_mpi/numeric/eulerian_grid_ops/stencil_ops_3d/diffusion_flux_mpi_3d.py", "sopht_mpi/numeric/eulerian_grid_ops/stencil_ops_3d/advection_flux_mpi_3d.py", "sopht_mpi/numeric/eulerian_grid_ops/stencil_ops_3d/divergence_mpi_3d.py", "sopht_mpi/numeric/eulerian_grid_ops/stencil_ops_3d/update_vorticity_from_velocity_forcing_mpi_3d.py"]}
{"id": "C17", "title": "How often accumulating kernels add a cell's contribution", "statement": "An accumulating kernel (advection flux, vorticity update from forcing) adds each cell's contribution once if every local extent is at least two stencil radii, and never more than twice. It adds it twice at some cell exactly if some axis is thinner than two radii and every later axis is wider than two radii (finding: no check rejects such decompositions); the number of additions at each cell is characterised exactly.", "quantifier": "every block size at least the ghost width, every cell, topology and contents", "why_tests_cant": "needs extreme decompositions", "anchors": ["sopht_mpi/numeric/eulerian_grid_ops/stencil_ops_2d/advection_flux_mpi_2d.py", "sopht_mpi/numeric/eulerian_grid_ops/stencil_ops_2d/update_vorticity_from_velocity_forcing_mpi_2d.py", "sopht_mpi/numeric/eulerian_grid_ops/stencil_ops_3d/update_vorticity_from_velocity_forcing_mpi_3d.py"]}
{"id": "C18", "title": "Physical-boundary cells of flux/curl/divergence outputs are zero", "statement": "After the diffusion flux, outplane curl, 3D curl and 3D divergence kernels, exactly the inner cells on a non-periodic physical boundary (outermost layer) are zero; block-internal interfaces are not zeroed.", "quantifier": "every topology, periodicity, block and ghost size", "why_tests_cant": "every rank position (corner, edge, interior, single-rank axis)", "anchors": ["sopht_mpi/numeric/eulerian_grid_ops/stencil_ops_2d/diffusion_flux_mpi_2d.py", "sopht_mpi/numeric/eulerian_grid_ops/stencil_ops_2d/outplane_field_curl_mpi_2d.py", "sopht_mpi/numeric/eulerian_grid_ops/stencil_ops_3d/diffusion_flux_mpi_3d.py", "sopht_mpi/numeric/eulerian_grid_ops/stencil_ops_3d/curl_mpi_3d.py", "sopht_mpi/numeric/eulerian_grid_ops/stencil_ops_3d/divergence_mpi_3d.py"]}
{"id": "C19", "title": "Kernel results do not depend on stale ghost contents", "statement": "For kernels that reset the physical boundary, the inner cells of the result depend only on inner cells of the inputs over all ranks, never on what the ghost layers (inside or outside the domain) or the output buffer contained before the call.", "quantifier": "any two global states that agree on inner cells", "why_tests_cant": "a hyperproperty over pairs of states", "anchors": ["sopht_mpi/numeric/eulerian_grid_ops/stencil_ops_2d/diffusion_flux_mpi_2d.py", "sopht_mpi/numeric/eulerian_grid_ops/stencil_ops_2d/outplane_field_curl_mpi_2d.py", "sopht_mpi/numeric/eulerian_grid_ops/stencil_ops_3d/diffusion_flux_mpi_3d.py", "sopht_mpi/numeric/eulerian_grid_ops/stencil_ops_3d/divergence_mpi_3d.py", "sopht_mpi/numeric/eulerian_grid_ops/stencil_ops_3d/curl_mpi_3d.py"]}
{"id": "C20", "title": "Advection and vorticity update at a physical boundary", "statement": "The result of the advection and vorticity-update kernels depends on the inner cells and on the ghost cells outside the domain only; it does not depend on the latter at cells at distance at least the stencil radius from every physical boundary nor in a periodic domain, but within the stencil radius of a physical boundary it does use whatever those ghost cells held (finding).", "quantifier": "any two states agreeing on inner cells; every cell", "why_tests_cant": "hyperproperty; tests initialise ghosts to zero", "anchors": ["sopht_mpi/numeric/eulerian_grid_ops/stencil_ops_2d/advection_flux_mpi_2d.py", "sopht_mpi/numeric/eulerian_grid_ops/stencil_ops_2d/update_vorticity_from_velocity_forcing_mpi_2d.py", "sopht_mpi/numeric/eulerian_grid_ops/stencil_ops_3d/advection_flux_mpi_3d.py"]}
{"id": "C21", "title": "3D curl tolerates in-flight x ghosts", "statement": "Although the 3D curl interior pass reads x-ghost cells while the exchange is in flight, the final curl on inner cells is the serial curl, whatever garbage those reads returned.", "quantifier": "every value read from in-flight ghost cells", "why_tests_cant": "race whose effect is later overwritten; timing dependent", "anchors": ["sopht_mpi/numeric/eulerian_grid_ops/stencil_ops_3d/curl_mpi_3d.py"]}
{"id": "C22", "title": "Boundary penalisation equals its serial counterpart", "statement": "penalise_field_boundary on all ranks equals the serial penalisation of the assembled field, provided the sponge width does not exceed the local extents of boundary blocks; width 0 changes nothing; negative or non-integer width raises ValueError; inner cells outside the sponge are unchanged. Wider sponges silently differ (finding).", "quantifier": "every topology, width, block/ghost size and contents", "why_tests_cant": "width versus block size relation over all decompositions", "anchors": ["sopht_mpi/numeric/eulerian_grid_ops/stencil_ops_2d/penalise_field_boundary_mpi_2d.py", "sopht_mpi/numeric/eulerian_grid_ops/stencil_ops_3d/penalise_field_boundary_mpi_3d.py"]}
{"id": "C23", "title": "Laplacian filter: parallel equals serial, and order semantics", "statement": "The 3D Laplacian filter of order n>=1 equals the serial filter for every topology, filter type and scratch contents. A filter of order 0 is accepted but does not leave the field unchanged: outside the boundary zone it subtracts the stale contents of the flux scratch array (three times for the convolution type) (finding). Exactly negative or non-integer orders and non-positive or non-integer boundary widths are refused.", "quantifier": "every order, filter type, topology, contents of the scratch buffers", "why_tests_cant": "depends on the history of shared scratch buffers", "anchors": ["sopht_mpi/numeric/eulerian_grid_ops/stencil_ops_3d/laplacian_filter_mpi_3d.py"]}
{"id": "C24", "title": "2D domain doubling is zero padding and inverts exactly", "statement": "copy_to_doubled_domain puts the field in the lower corner of the doubled domain (distributed over the same ranks) and leaves the rest as it was (zero after the solver's reset); copy_from_doubled_domain brings exactly that corner back; the composition is the identity on inner cells. Holds for every rank count, odd ones included, on the non-periodic topologies the solver is used with. On a periodic topology with an odd rank count a receive is never matched (finding).", "quantifier": "every slab decomposition in 2D, block size, ghost size, contents", "why_tests_cant": "rank remapping c -> c//2 with odd counts", "anchors": ["sopht_mpi/numeric/eulerian_grid_ops/poisson_solver_2d/UnboundedPoissonSolverMPI2D.py:MPIDomainDoublingCommunicator2D"]}
{"id": "C25", "title": "3D domain doubling is zero padding and inverts exactly", "statement": "copy_to_doubled_domain and copy_from_doubled_domain in 3D behave as in C24 for decompositions with one or an even number of ranks along each axis. For an odd number (>1) of ranks along a distributed axis, and only then, the code asks for the rank of an out-of-range coordinate and raises (finding).", "quantifier": "every slab/pencil decomposition in 3D", "why_tests_cant": "needs all topologies", "anchors": ["sopht_mpi/numeric/eulerian_grid_ops/poisson_solver_3d/UnboundedPoissonSolverMPI3D.py:MPIDomainDoublingCommunicator3D"]}
{"id": "C26", "title": "Poisson solve does not depend on earlier solves and leaves the right-hand side intact", "statement": "solve(solution, rhs) gives a result that depends only on inner cells of rhs, not on scratch buffers, earlier solves or the previous solution; rhs is unchanged.", "quantifier": "every history of solves, every buffer content", "why_tests_cant": "history-quantified", "anchors": ["sopht_mpi/numeric/eulerian_grid_ops/poisson_solver_2d/UnboundedPoissonSolverMPI2D.py:UnboundedPoissonSolverMPI2D.solve", "sopht_mpi/numeric/eulerian_grid_ops/poisson_solver_3d/UnboundedPoissonSolverMPI3D.py:UnboundedPoissonSolverMPI3D.solve"]}
{"id": "C27", "title": "ghost_sum adds every ghost contribution to the owner once and clears ghosts", "statement": "After ghost_sum each inner cell holds its own value plus the values of all ghost copies of that cell on neighbouring ranks (edge, and corner contributions through two hops), each exactly once, and all ghost cells are zero.", "quantifier": "every non-periodic topology (periodic ones: see C28), block size >= ghost size >= 1, contents, schedule and buffering, 2D and 3D", "why_tests_cant": "corner contributions travel through two steps; order of steps matters", "anchors": ["sopht_mpi/numeric/immersed_boundary_ops/EulerianLagrangianGridCommunicatorMPI2D.py:MPIGhostSumCommunicator2D", "sopht_mpi/numeric/immersed_boundary_ops/EulerianLagrangianGridCommunicatorMPI3D.py:MPIGhostSumCommunicator3D"]}
{"id": "C28", "title": "ghost_sum terminates", "statement": "On non-periodic topologies the blocking Send/Recv sequence of ghost_sum terminates on all ranks under every schedule even with rendezvous sends; on every periodic topology all ranks block in their first Send if MPI does not buffer it (a defect: the call can never return).", "quantifier": "every rank count, schedule and buffering behaviour", "why_tests_cant": "eager buffering hides it", "anchors": ["sopht_mpi/numeric/immersed_boundary_ops/EulerianLagrangianGridCommunicatorMPI2D.py", "sopht_mpi/numeric/immersed_boundary_ops/EulerianLagrangianGridCommunicatorMPI3D.py"]}
{"id": "C29", "title": "Interpolation support stays in the local array", "statement": "For every Lagrangian node owned by a rank, with ghost_size >= interpolation width, all support cells index inside the local ghosted array, and support cell k is the global cell nearest+k.", "quantifier": "every node position in the block, block size, ghost size, width", "why_tests_cant": "out-of-bounds python indices wrap silently", "anchors": ["sopht_mpi/numeric/immersed_boundary_ops/EulerianLagrangianGridCommunicatorMPI2D.py", "sopht_mpi/numeric/immersed_boundary_ops/EulerianLagrangianGridCommunicatorMPI3D.py"]}
{"id": "C30", "title": "Interpolation and spreading are decomposition independent", "statement": "Interpolating an exchanged velocity field to the nodes, and spreading nodal forces followed by ghost_sum, give the values of the serial algorithm on the global grid, for nodes whose support lies in the domain.", "quantifier": "every topology, node distribution, field contents, weights", "why_tests_cant": "all node placements across interfaces and corners", "anchors": ["sopht_mpi/numeric/immersed_boundary_ops/EulerianLagrangianGridCommunicatorMPI2D.py", "sopht_mpi/numeric/immersed_boundary_ops/EulerianLagrangianGridCommunicatorMPI3D.py"]}
{"id": "C31", "title": "Delta weights form a partition of unity", "statement": "For every node position, the cosine and Peskin weights over the support, times dx^dim, sum to one (exact real arithmetic).", "quantifier": "every real offset of the node inside its cell, every dx>0, 2D and 3D", "why_tests_cant": "identity over a continuum", "anchors": ["sopht_mpi/numeric/immersed_boundary_ops/EulerianLagrangianGridCommunicatorMPI2D.py", "sopht_mpi/numeric/immersed_boundary_ops/EulerianLagrangianGridCommunicatorMPI3D.py"]}
{"id": "C32", "title": "Spreading is the adjoint of interpolation; total force is conserved", "statement": "The Eulerian sum of (spread force x field) times dx^dim equals the Lagrangian sum of (force x interpolated field); with unit-sum weights the total spread force equals the total nodal force.", "quantifier": "every set of nodes, weights, fields", "why_tests_cant": "algebraic identity for all data", "anchors": ["sopht_mpi/numeric/immersed_boundary_ops/EulerianLagrangianGridCommunicatorMPI2D.py", "sopht_mpi/numeric/immersed_boundary_ops/EulerianLagrangianGridCommunicatorMPI3D.py"]}
{"id": "C33", "title": "Eulerian restart round trip across decompositions", "statement": "Saving Eulerian fields with one decomposition and loading them with any other decomposition of the same grid restores every inner cell; ghost cells are untouched by load; every dataset element is written exactly once; loading with different grid parameters fails.", "quantifier": "every pair of topologies, ghost sizes, contents", "why_tests_cant": "cross-decomposition pairs", "anchors": ["sopht_mpi/utils/mpi_io.py:MPIIO.save", "sopht_mpi/utils/mpi_io.py:MPIIO.load"]}
{"id": "C34", "title": "Lagrangian restart round trip", "statement": "Saving and loading Lagrangian grids and their fields restores every grid and field on its master rank and changes nothing else, if grid labels and field names are distinct, at least one grid has a field, and no vector field lives on a grid with as many nodes as dimensions. Otherwise it does not: two grids using the same field name share one array, saving a vector field on a grid with as many nodes as dimensions raises because it was classified as scalar, and if no grid has a field the grids are not loaded (findings).", "quantifier": "every set of grids, field names, node counts, contents", "why_tests_cant": "name/shape coincidences", "anchors": ["sopht_mpi/utils/mpi_io.py:MPIIO.add_as_lagrangian_fields_for_io", "sopht_mpi/utils/mpi_io.py:MPIIO.save", "sopht_mpi/utils/mpi_io.py:MPIIO.load"]}
{"id": "C35", "title": "Stable time step and diagnostics are global and identical on all ranks", "statement": "compute_stable_timestep returns on every rank the same value, the minimum over ranks of the local limits; get_max_vorticity the maximum over all inner cells of all ranks; independent of ghost contents and of the reduction order.", "quantifier": "every topology, contents, reduction order", "why_tests_cant": "reduction-order and ghost independence", "anchors": ["sopht_mpi/simulator/flow/flow_simulators_mpi_2d.py:compute_stable_timestep", "sopht_mpi/simulator/flow/flow_simulators_mpi_3d.py:compute_stable_timestep", "sopht_mpi/simulator/flow/flow_simulators_mpi_2d.py:get_max_vorticity"]}
{"id": "C36", "title": "Logger echoes on the requested ranks only; handler removal", "statement": "A log call produces output exactly on ranks in echo_rank (all ranks if empty). remove_and_close_all_handlers removes exactly every other handler, starting with the first, so not all handlers are removed when there is more than one (finding).", "quantifier": "every echo_rank list, rank, history of calls, any number of handlers", "why_tests_cant": "list-mutation during iteration; any handler count", "anchors": ["sopht_mpi/utils/mpi_logger.py"]}
{"id": "C37", "title": "Ghost-size guards", "statement": "check_valid_ghost_size_and_kernel_support raises exactly if ghost_size < kernel_support. The constructor guards reject a ghost size exactly if it is both non-positive and not an integer, because they use 'and': 0, -1 and 1.5 are accepted (finding).", "quantifier": "every ghost size value (int or not)", "why_tests_cant": "input-space quantifier", "anchors": ["sopht_mpi/utils/mpi_utils.py:check_valid_ghost_size_and_kernel_support", "sopht_mpi/utils/mpi_utils_2d.py:MPIGhostCommunicator2D.__init__", "sopht_mpi/utils/mpi_utils_3d.py:MPIGhostCommunicator3D.__init__"]}
{"id": "C38", "title": "Forcing is consumed once per step and simulator time accumulates", "statement": "After each time_step of the with-forcing simulators the Eulerian forcing field is zero everywhere, so forcing deposited for one step never leaks into the next; after any sequence of steps the simulator time is the initial time plus the sum of the dt's.", "quantifier": "every sequence of time steps and forcing deposits", "why_tests_cant": "history-quantified", "anchors": ["sopht_mpi/simulator/flow/flow_simulators_mpi_2d.py:navier_stokes_with_forcing_timestep", "sopht_mpi/simulator/flow/flow_simulators_mpi_3d.py"]}
{"id": "C39", "title": "Local node counts and buffers are consistent after remapping", "statement": "After every remap the ranks' local node counts sum to the global count and each rank's buffers have exactly its local count.", "quantifier": "every history of remaps", "why_tests_cant": "history-quantified", "anchors": ["sopht_mpi/numeric/immersed_boundary_ops/VirtualBoundaryForcingMPI.py"]}
{"id": "C40", "title": "Body-flow interaction does not change the flow velocity on inner cells", "statement": "With auto_ghosting, computing the interaction only refreshes velocity ghosts; inner velocity cells and (without reset) existing Eulerian forcing from other bodies are preserved up to the added contribution.", "quantifier": "every number of bodies and order of calls", "why_tests_cant": "interaction of several bodies in any order", "anchors": ["sopht_mpi/numeric/immersed_boundary_ops/VirtualBoundaryForcingMPI.py", "sopht_mpi/simulator/immersed_body/immersed_body_flow_interaction_mpi.py"]}
{"id": "C41", "title": "Grid deviation norm is decomposition independent", "statement": "The global grid-deviation error norm is the norm of all nodes' mismatches divided by sqrt(node count), same on each rank. The local variant divides by zero on non-master ranks (finding).", "quantifier": "every node distribution", "why_tests_cant": "all partitions", "anchors": ["sopht_mpi/simulator/immersed_body/immersed_body_flow_interaction_mpi.py"]}
{"id": "C42", "title": "Cell-centre coordinates agree across ranks", "statement": "The local coordinate of ghosted index i on a rank is (global index + 1/2)*dx, so overlapping ghost/inner cells of different ranks carry the same coordinate.", "quantifier": "every topology, block and ghost size", "why_tests_cant": "all decompositions", "anchors": ["sopht_mpi/simulator/flow/flow_simulators_mpi_2d.py:init_domain", "sopht_mpi/simulator/flow/flow_simulators_mpi_3d.py:init_domain"]}
{"id": "C43", "title": "Rod elements are segment midpoints", "statement": "CosseratRodMPIIO stores, at each save, the midpoints of consecutive current node positions (n-1 elements).", "quantifier": "every rod size and history of saves", "why_tests_cant": "history-quantified", "anchors": ["sopht_mpi/utils/mpi_io.py:CosseratRodMPIIO"]}
{"id": "C44", "title": "Whole explicit transport step is decomposition independent over any history", "statement": "Running any sequence of explicit diffusion time steps (field += flux), and of advection and diffusion time steps with ghost size 2, on all ranks gives the inner values of the same sequence of serial steps on the global grid; two decompositions of the same domain give the same values. This includes any number of passive-scalar and passive-vector simulator steps. With three or more ghost layers advection histories depend on the decomposition near the physical boundary (finding).", "quantifier": "all histories (lists of calls with any prefactors), all process grids, all block extents (>= ghost size; >= 4 for advection), all initial fields and schedules", "why_tests_cant": "arbitrary-length histories", "anchors": ["sopht_mpi/numeric/eulerian_grid_ops/stencil_ops_2d/diffusion_timestep_mpi_2d.py", "sopht_mpi/numeric/eulerian_grid_ops/stencil_ops_3d/diffusion_timestep_mpi_3d.py"]}
{"id": "C45", "title": "Ghost layer wider than the block", "statement": "A ghost exchange installs the owners' values in every ghost cell it covers, for every message order and contents, exactly if on every axis the block is at least as wide as the ghost layer or the axis has no neighbours (one rank, not periodic). The constructor accepts the other decompositions (finding).", "quantifier": "every ghost size, block size, topology, periodicity; 2D and 3D, full and face-only", "why_tests_cant": "extreme decompositions", "anchors": ["sopht_mpi/utils/mpi_utils_2d.py:MPIGhostCommunicator2D.__init__"]}
{"id": "C46", "title": "Simulator construction errors are reported", "statement": "The 3D flow simulator constructor raises exactly if a requirement of its kernels (ghost size, penalty zone, filter, process grid) is violated. The 2D constructor swallows such errors (finding): it returns for every supported flow type and divisible grid, and the first time step then fails with AttributeError exactly if a requirement is violated, possibly after advection and diffusion have already changed the field.", "quantifier": "every ghost size", "why_tests_cant": "error paths", "anchors": ["sopht_mpi/simulator/flow/flow_simulators_mpi_2d.py:compile_kernels", "sopht_mpi/simulator/flow/flow_simulators_mpi_3d.py:compile_kernels"]}
{"id": "C47", "title": "A whole Navier-Stokes simulation is decomposition independent over any history", "statement": "Every call of time_step of the Navier-Stokes simulators (2D: advection, diffusion, boundary penalisation, unbounded Poisson solve, velocity from stream function, free stream, optional forcing; 3D rotational form: cross product, vorticity update, diffusion, optional filter, penalisation, vector Poisson solve, curl, free stream, optional forcing) ends on all ranks in one memory whatever the schedule. After any number of steps, each preceded by a deposit of forcing that vanishes on the outermost cell layer, vorticity, stream function and velocity of the inner cells are those of the same sequence of steps of the serial algorithm on the global grid; hence two runs with different process grids agree at every global position.", "quantifier": "all histories of steps (any dt, free stream, forcing per step), all accepted process grids, block extents (at least 4 wide in 2D, 2 in 3D), ghost sizes >= 2 (2D) within the block, penalisation widths >= 1 within a block, all initial fields, all schedules", "why_tests_cant": "arbitrary-length histories of composed kernels, exchanges and solves over all decompositions and schedules", "anchors": ["sopht_mpi/simulator/flow/flow_simulators_mpi_2d.py:time_step", "sopht_mpi/simulator/flow/flow_simulators_mpi_2d.py:navier_stokes_with_forcing_timestep", "sopht_mpi/simulator/flow/flow_simulators_mpi_3d.py:time_step", "sopht_mpi/simulator/flow/flow_simulators_mpi_3d.py:rotational_form_navier_stokes_timestep"]}
{"id": "C48", "title": "The unbounded Poisson solve is the free-space convolution", "statement": "On every process grid the solvers accept, each rank's Green's function array is finite everywhere and holds the free-space Green's function at the offset to the nearest corner of the doubled grid (regularised at offset 0), and solve(solution, rhs) sets every inner cell P of the solution to dx^d times the sum over all cells Q of the domain of green(P - Q) rhs(Q), with no periodic images. The same holds for every solve of any sequence of solves and for every component of the vector solve.", "quantifier": "all grid sizes, aspect ratios, accepted decompositions, domain sizes, right-hand sides, sequences of solves, buffer and ghost contents, schedules", "why_tests_cant": "a test samples a few grids and right-hand sides; whether periodic images cancel exactly for every offset on every decomposition is a statement about all of them", "anchors": ["sopht_mpi/numeric/eulerian_grid_ops/poisson_solver_2d/UnboundedPoissonSolverMPI2D.py:UnboundedPoissonSolverMPI2D.construct_fourier_greens_function_field", "sopht_mpi/numeric/eulerian_grid_ops/poisson_solver_2d/UnboundedPoissonSolverMPI2D.py:UnboundedPoissonSolverMPI2D.solve", "sopht_mpi/numeric/eulerian_grid_ops/poisson_solver_3d/UnboundedPoissonSolverMPI3D.py:UnboundedPoissonSolverMPI3D.construct_fourier_greens_function_field"]}
{"id": "C49", "title": "Coupled flow-body simulations match the serial simulation", "statement": "For any number of bodies and any sequence of calls interactor(), compute_flow_forces_and_torques(), interactor.time_step(dt), flow_sim.time_step(dt), the parallel simulation ends under every schedule in one final memory, and that memory holds, in every cell and every inner ghost, the vorticity, stream function and velocity, the accumulated forcing field, every node's mismatch on the rank that owns the node, and the forces on the master, of the serial simulation that interpolates the global velocity, spreads the forces onto the global forcing field and feeds that field to the next flow step. Two runs of the same calls on different decompositions, masters or exchange options give the same flow, forcing and body forces. When a mapping change leaves every rank's node count unchanged, the mismatch a node continues with is exactly the one the code's skipped redistribution implies.", "quantifier": "all legal decompositions, grid sizes, ghost sizes, numbers of bodies and nodes, node motions across ranks, call sequences of any length, stencil formulas, delta functions, coefficients, schedules", "why_tests_cant": "the errors of a coupled loop (a missed exchange, a lost or doubled forcing, a mismatch left on the wrong rank) surface only for particular interleavings of calls, migrations and decompositions; a test runs a handful", "anchors": ["sopht_mpi/simulator/immersed_body/immersed_body_flow_interaction_mpi.py:ImmersedBodyFlowInteractionMPI.__call__", "sopht_mpi/simulator/immersed_body/immersed_body_flow_interaction_mpi.py:ImmersedBodyFlowInteractionMPI.compute_flow_forces_and_torques", "sopht_mpi/numeric/immersed_boundary_ops/VirtualBoundaryForcingMPI.py:VirtualBoundaryForcingMPI.compute_interaction_forcing", "sopht_mpi/simulator/flow/flow_simulators_mpi_2d.py:UnboundedFlowSimulator2D.time_step", "sopht_mpi/simulator/flow/flow_simulators_mpi_3d.py:UnboundedFlowSimulator3D.time_step"]}
{"id": "C50", "title": "Pointwise kernels act on whole local arrays and keep ghosts valid", "statement": "Brinkmann penalisation (scalar or vector, in place or not) and the characteristic function of a level set end under every schedule in one memory, in which every cell of every rank's array, ghost cells included, holds the serial formula of the values in the same cell, and no other array changed. So wherever the inputs hold the values of global fields, in the interior or in ghosts, the output holds the serial result, without an exchange.", "quantifier": "all array shapes (2D and 3D), ghost sizes, rank counts, penalisation formulas, fields, schedules", "why_tests_cant": "a kernel that skipped the ghost ring, or aliased its arrays wrongly, would only show on later steps of particular decompositions; a test compares interiors of one", "anchors": ["sopht_mpi/numeric/eulerian_grid_ops/stencil_ops_2d/brinkmann_penalise_mpi_2d.py:gen_brinkmann_penalise_pyst_mpi_kernel_2d", "sopht_mpi/numeric/eulerian_grid_ops/stencil_ops_3d/brinkmann_penalise_mpi_3d.py:gen_brinkmann_penalise_pyst_mpi_kernel_3d", "sopht_mpi/numeric/eulerian_grid_ops/stencil_ops_2d/char_func_from_level_set_mpi_2d.py", "sopht_mpi/numeric/eulerian_grid_ops/stencil_ops_3d/char_func_from_level_set_mpi_3d.py"]}
{"id": "C51", "title": "In double precision a node's support stays inside its rank's array only with a margin", "statement": "In IEEE double precision, the rank a Lagrangian node is sent to is the truncation of a quotient by the rounded block length, while its nearest grid index comes from a floor division by the spacing. For every spacing, block size, coordinate shift and node in the domain, the interpolation support lies inside the ghosted array of the receiving rank if the ghost zone is at least one cell wider than the kernel. With a ghost zone exactly as wide as the kernel (which the constructor accepts, and the default), it lies inside when the spacing is a power of two (or, with exact floor division, when the block length does not round up), and there is a unit domain of 420 cells on 30 ranks with a node whose support leaves the array.", "quantifier": "all double spacings from 2^-900, shifts, node positions at or above the shift, block sizes with indices up to 2^45, ghost sizes, kernel widths, both floor division algorithms", "why_tests_cant": "the failing coordinates are isolated doubles next to block boundaries; sampling does not meet them, and absence for a given spacing is a statement about every double", "anchors": ["sopht_mpi/utils/mpi_utils_2d.py:MPILagrangianFieldCommunicator2D", "sopht_mpi/utils/mpi_utils_3d.py:MPILagrangianFieldCommunicator3D", "sopht_mpi/numeric/immersed_boundary_ops/EulerianLagrangianGridCommunicatorMPI2D.py:EulerianLagrangianGridCommunicatorMPI2D", "sopht_mpi/numeric/immersed_boundary_ops/EulerianLagrangianGridCommunicatorMPI3D.py:EulerianLagrangianGridCommunicatorMPI3D"]}
{"id": "C52", "title": "Interactor options do not change the results", "statement": "The options auto_ghosting and assume_data_locality of an interactor, the master rank and the places where the user exchanges the velocity ghosts do not influence a coupled simulation: two runs of the same calls that differ in them (and possibly in the decomposition) have the same flow and forcing in every cell and the same forces on every body, provided that with assume_data_locality every node of the body is in its master's block and that without auto_ghosting the velocity ghosts are exchanged between each flow step and the next interaction (one exchange, or one body with auto_ghosting, serves all the bodies that follow). Without that exchange the result can differ.", "quantifier": "all legal decompositions, numbers of bodies and nodes, mixtures of options, positions of the exchanges in call sequences of any length, stencil formulas, delta functions, schedules", "why_tests_cant": "options multiply with decompositions and call sequences; stale ghosts only show when a support crosses a block boundary just after a flow step", "anchors": ["sopht_mpi/simulator/immersed_body/immersed_body_flow_interaction_mpi.py:ImmersedBodyFlowInteractionMPI._ghost_velocity_field_for_interaction", "sopht_mpi/numeric/immersed_boundary_ops/VirtualBoundaryForcingMPI.py:VirtualBoundaryForcingMPI.compute_interaction_force_on_lag_grid", "sopht_mpi/simulator/immersed_body/immersed_body_flow_interaction_mpi.py:ImmersedBodyFlowInteractionMPI.__init__"]}
{"id": "C53", "title": "XDMF descriptions match the HDF5 file", "statement": "After save(stem.h5), whatever the order in which the ranks write their description files: stem_eulerian.xmf references every Eulerian data set of the HDF5 file exactly once, in order, with its global shape, and does not depend on the decomposition; stem_<grid>.xmf references exactly the data sets of that Lagrangian grid (positions, fields, connection) with their shapes and node count, provided every grid's master holds full-size arrays of all the grids (for instance one master for all grids). No description overwrites the HDF5 file, and different grids have different descriptions. Findings: with two masters the description of a grid can end up with 0 nodes; for a file name without '.h5' the descriptions overwrite the HDF5 file; a grid called 'eulerian' shares its file with the Eulerian description; in 2D the origin and the spacing declare two values and list three.", "quantifier": "all file names, numbers of fields and grids, shapes, masters, decompositions and orders of the ranks' file writes", "why_tests_cant": "several ranks write the same text file without ordering: which content survives depends on the schedule, and a test sees one outcome", "anchors": ["sopht_mpi/utils/mpi_io.py:MPIIO.generate_xdmf_eulerian", "sopht_mpi/utils/mpi_io.py:MPIIO.generate_xdmf_lagrangian", "sopht_mpi/utils/mpi_io.py:MPIIO._save"]}
{"id": "C54", "title": "Two-way coupled simulations follow the serial loop", "statement": "A simulation coupled both ways - each body moves under the loads that compute_flow_forces_and_torques transfers to it, and the script's next call (which body, which time step) depends on anything seen of the flow so far - runs to the end whatever the schedules, and after any number of steps the flow, the forcing, the interactors and the master's copy of every body are those of the serial loop; so they do not depend on the decomposition, the master ranks and the interactor options. The other ranks' copies of a body never receive loads: they move as without flow, so only the master's copy is the body's state (finding: in a legal run the copies differ).", "quantifier": "all scripts (any function of what has been seen), bodies (any loads and motion functions), numbers of steps, legal decompositions, stencil formulas, delta functions, schedules", "why_tests_cant": "feedback makes the sequence of calls and the node migrations depend on the results: no finite set of prescribed histories covers it", "anchors": ["sopht_mpi/simulator/immersed_body/immersed_body_flow_interaction_mpi.py:ImmersedBodyFlowInteractionMPI.compute_flow_forces_and_torques", "sopht_mpi/simulator/immersed_body/cosserat_rod/cosserat_rod_flow_interaction_mpi.py:CosseratRodFlowInteraction", "sopht_mpi/simulator/immersed_body/immersed_body_forcing_grid.py:EmptyForcingGrid", "examples/2d_examples/FlowPastRodCase/flow_past_rod.py:flow_past_rod_case"]}
{"id": "C55", "title": "Interactors are constructed alike on all ranks and simulations start at rest", "statement": "Constructing an interactor with a legal request succeeds on every rank; every rank, not only the master that knows the body, then has the penalty coefficients scaled by the body's largest grid spacing to the power dim - 1, the kernel width (default 2), the options and the same advice about resolution, and holds the nodes of its block (all on the master with assume_data_locality). It raises ValueError on all ranks exactly when the dimension is neither 2 nor 3 or the kernel is wider than the ghost layer. After construction the simulation is at rest: no forcing, no mismatch, whatever was in memory before; so a whole two-way coupled run from the constructors on equals the serial run and does not depend on decomposition, masters and options. Finding: with a node far below the domain the master raises IndexError and the other ranks wait for ever.", "quantifier": "all requests, decompositions, initial flows, prior memory contents, numbers of interactors, scripts, steps, schedules", "why_tests_cant": "agreement across ranks and the equality with the serial run must hold for every decomposition, body and history", "anchors": ["sopht_mpi/simulator/immersed_body/immersed_body_flow_interaction_mpi.py:ImmersedBodyFlowInteractionMPI.__init__", "sopht_mpi/numeric/immersed_boundary_ops/VirtualBoundaryForcingMPI.py:VirtualBoundaryForcingMPI.__init__", "sopht_mpi/simulator/immersed_body/cosserat_rod/cosserat_rod_flow_interaction_mpi.py:CosseratRodFlowInteraction.__init__", "sopht_mpi/simulator/immersed_body/rigid_body/rigid_body_flow_interaction_mpi.py:RigidBodyFlowInteractionMPI.__init__", "sopht_mpi/simulator/immersed_body/immersed_body_forcing_grid.py:EmptyForcingGrid"]}
{"id": "C56", "title": "Restarting a flow simulation from saved vorticity and velocity", "statement": "If the vorticity and velocity of a flow simulator are saved with MPIIO at any moment and loaded into another simulator of the same domain - any decomposition, anything in its memory - both continue alike: running the same steps gives the same vorticity, velocity and (after a step) stream function in every cell. Loading succeeds when the grid parameters match. Holds when the penalised zone is at least 4 cells wide in 2D, 3 cells in 3D (with a filter that is off or spares 3 boundary cells). Exactly the saved fields inside the domain are restored: the cells around the domain are not. Finding: with the default penalty_zone_width=2 (also 3 in 2D; in 3D also with the default filter boundary width 1) a restart is not exact, because the penalisation writes the ghost cells around the domain, the next step reads them, and the file does not contain them. Restoring those cells too would make it exact for any width; the stream function never needs saving.", "quantifier": "all saved states, contents of the loading simulator's memory, decompositions of both runs, orders of the ranks' file writes, numbers of steps, forcing and free streams, schedules", "why_tests_cant": "exactness of the continuation must hold for every state and every later history; a round-trip test only compares the fields just after loading", "anchors": ["sopht_mpi/utils/mpi_io.py:MPIIO.save", "sopht_mpi/utils/mpi_io.py:MPIIO.load", "sopht_mpi/simulator/flow/flow_simulators_mpi_2d.py", "sopht_mpi/simulator/flow/flow_simulators_mpi_3d.py", "examples/3d_examples/FlowPastFreelyRotatingRodCase/flow_past_freely_rotating_rod_case.py"]}
{"id": "C57", "title": "Restarting a simulation of a flow with immersed bodies", "statement": "A coupled simulation saved as in the repository's example with checkpoints (vorticity and velocity; of each body the positions and mismatches held by its interactor) and loaded into a freshly built simulator of the same domain - any decomposition, masters and interactor options - continues exactly: with the same calls it ends with the same vorticity, velocity, forcing field and forces on the bodies as the run that was not interrupted, provided the save happens when nothing is in flight: every body has met the flow and its interactor has not been advanced since, each meets it again before its interactor is advanced, the flow has been advanced since a body acted on it, the bodies were where the file says, and the penalised zone is wide enough (C56). Saving, loading, mapping the nodes and scattering the mismatches succeed. In general a restart continues the simulation in which the mismatches are those from before each body last met the flow and the forcing not yet used is gone. Findings: for each of the three moments a restart that violates only that one diverges; in particular the loop order of the rigid-body examples (interactor advanced, then interaction) cannot be restarted exactly.", "quantifier": "all histories before and after the save, numbers of bodies and nodes, decompositions and masters of both runs, orders of file writes and of the slaves, contents of the restarted simulator's memory outside its buffers, schedules", "why_tests_cant": "exactness of the continuation must hold for every history and moment of saving; the mismatch collected on the master is one meeting old, which a save/load round trip does not show", "anchors": ["examples/3d_examples/FlowPastFreelyRotatingRodCase/flow_past_freely_rotating_rod_case.py", "sopht_mpi/numeric/immersed_boundary_ops/VirtualBoundaryForcingMPI.py:VirtualBoundaryForcingMPI.update_buffers", "sopht_mpi/numeric/immersed_boundary_ops/VirtualBoundaryForcingMPI.py:VirtualBoundaryForcingMPI._init_local_buffers", "sopht_mpi/utils/mpi_io.py:MPIIO.load", "sopht_mpi/utils/mpi_utils_2d.py:MPILagrangianFieldCommunicator2D"]}
{"id": "C58", "title": "Pictures saved by the plotter", "statement": "For every sequence of contourf, scatter, plot, savefig and clearfig calls made by all ranks of a simulation, no call blocks, and each saved file is written by the master rank alone and shows exactly what was drawn since the figure was last cleared: for a contour, in every cell of the domain, the value and the coordinates which the owner of the cell held in it when contourf was called, whatever the decomposition and the master. Each picture has one colour bar per contour if at most one contour is drawn between clearings. Findings: clearing the figure before any contour was drawn always raises AttributeError (cbar is not set by the constructor); with two contours between clearings one colour bar stays in all later pictures; the title given at construction is in no picture saved after a clearing.", "quantifier": "all sequences of calls, contents of the arrays (changing between the calls), decompositions, ghost sizes, masters, orders of the slaves, schedules", "why_tests_cant": "the pictures depend on the whole history of calls; the gathers interleave on all ranks and must not block for any schedule", "anchors": ["sopht_mpi/utils/mpi_utils_2d.py:MPIPlotter2D", "sopht_mpi/utils/mpi_utils_2d.py:MPIPlotter2D.contourf", "sopht_mpi/utils/mpi_utils_2d.py:MPIPlotter2D.clearfig"]}
{"id": "C59", "title": "Adaptive time loops run in lockstep and are decomposition independent", "statement": "In the loop of the drivers (while the time is before the end: plot or log when a timer is due, dt = compute_stable_timestep(), time_step(dt), add dt to the timers) every rank makes the same decisions in every iteration: no rank leaves the loop, plots or chooses a time step differently from the others, and as long as the loop is not over all ranks can go on. The run is the serial adaptive run: same time steps, same frames showing the same flow, same final time and flow, for every decomposition and every rounding of the arithmetic; it ends exactly if the serial loop ends, after as many iterations; in exact arithmetic it ends if the speed stays bounded.", "quantifier": "every topology and grid, initial flow, forcing and kernels (also depending on the flow), ordered arithmetic, reduction order on each rank, number of iterations", "why_tests_cant": "a divergence of two ranks shows only for some flows and reduction orders, and as a hang; histories are unbounded", "anchors": ["examples/2d_examples/LambOseenVortexCase/lamb_oseen_vortex.py:lamb_oseen_vortex_flow_case", "examples/2d_examples/FlowPastCylinderCase/flow_past_cylinder.py:flow_past_cylinder_boundary_forcing_case", "sopht_mpi/simulator/flow/flow_simulators_mpi_2d.py:compute_stable_timestep", "sopht_mpi/simulator/flow/flow_simulators_mpi_3d.py:compute_stable_timestep", "sopht_mpi/simulator/flow/flow_simulators_mpi_2d.py:time_step"]}
{"id": "C60", "title": "Coupled drivers with bodies and adaptive time steps run in lockstep and are decomposition independent", "statement": "In the loop of the drivers that couple bodies with the flow (while the time is before the end: plot, save or log when a timer is due, dt = compute_stable_timestep(), substeps of the bodies and interactors with this dt, interaction, flow step with a time-dependent free stream, add dt to the timers), every rank makes the same decisions in every iteration; no rank is ever ahead, stuck or out of the loop alone. Flow, forcing, interactor state and, on the rank that holds it, every body agree in each iteration with the serial coupled adaptive run, whatever the decomposition, the reduction orders and the rounding of the time steps; the run ends exactly if the serial run ends, after as many iterations.", "quantifier": "every topology and grid, any number of bodies and nodes, body rules, substep counts and call scripts that depend on iteration, time, time step and what was seen of the flow, free-stream history, number of iterations, rank schedules", "why_tests_cant": "a divergence of two ranks shows only for some flows, positions and reduction orders, and as a hang; histories are unbounded and the time step feeds back into the bodies", "anchors": ["examples/2d_examples/FlowPastRodCase/flow_past_rod.py:flow_past_rod_case", "examples/2d_examples/FlowPastCylinderCase/flow_past_cylinder.py:flow_past_cylinder_boundary_forcing_case", "sopht_mpi/simulator/flow/flow_simulators_mpi_2d.py:compute_stable_timestep", "sopht_mpi/simulator/immersed_body/immersed_body_flow_interaction_mpi.py:__call__", "sopht_mpi/simulator/immersed_body/immersed_body_flow_interaction_mpi.py:compute_flow_forces_and_torques"]}
{"id": "C61", "title": "In floating point, the process grid changes a spread force field only by the rounding of its additions", "statement": "Spreading Lagrangian forces to the grid in rounded arithmetic (each sum of two numbers rounded with relative error at most eps; binary64: 2^-53) leaves in every inner cell, on every process grid and under every schedule, the old value plus the contributions of the nodes in reach, up to the rounding of as many additions as nodes reach the cell: the error is at most ((1+eps)^n - 1) times the sum of the magnitudes. Hence the values that two process grids give at one position differ by at most twice that, n being the number of nodes in reach, not the number of ranks, nodes or cells. Ghosts and buffers are exactly zero again. The values are not bitwise independent of the process grid.", "quantifier": "every process grid, block, ghost size and kernel width, any number of nodes and components, all forces, weights and fields, all rank schedules, every arithmetic whose sums have bounded relative error", "why_tests_cant": "a test compares a few grids with a tolerance; that the error does not grow with the number of ranks or of ghost layers crossed is a statement about all grids, node sets and orders of addition", "anchors": ["sopht_mpi/numeric/immersed_boundary_ops/EulerianLagrangianGridCommunicatorMPI2D.py:EulerianLagrangianGridCommunicatorMPI2D", "sopht_mpi/numeric/immersed_boundary_ops/EulerianLagrangianGridCommunicatorMPI3D.py:EulerianLagrangianGridCommunicatorMPI3D", "sopht_mpi/numeric/immersed_boundary_ops/EulerianLagrangianGridCommunicatorMPI2D.py:MPIGhostSumCommunicator2D", "sopht_mpi/numeric/immersed_boundary_ops/EulerianLagrangianGridCommunicatorMPI3D.py:MPIGhostSumCommunicator3D"]}
{"id": "C62", "title": "In floating point, the diagnostics' norms depend on the process grid only through rounding", "statement": "get_vorticity_divergence_l2_norm and the global get_grid_deviation_error_l2_norm, with every product, sum, root, square and quotient rounded (relative error at most eps), and with the additions of numpy and of the reduction in any order and grouping, return the exact norm over the whole grid (all nodes) up to a number of roundings that is at most the cells of one rank (entries of all nodes) plus the ranks plus a constant. The values of two decompositions therefore agree up to those roundings, and a norm is zero exactly if the field is zero everywhere.", "quantifier": "every process grid, block and ghost size, every field, number of nodes and mapping of nodes to ranks, every order and grouping of additions with or without fused multiply-add, every rounding with bounded relative error", "why_tests_cant": "the order of additions depends on numpy, BLAS, MPI and the rank count; a test sees a few of them and compares with a tolerance", "anchors": ["sopht_mpi/simulator/flow/flow_simulators_mpi_3d.py:get_vorticity_divergence_l2_norm", "sopht_mpi/simulator/immersed_body/immersed_body_flow_interaction_mpi.py:get_grid_deviation_error_l2_norm"]}
{"id": "C63", "title": "A restart after a crash at any point loads exactly the last completed checkpoint, or refuses", "statement": "In the example that can be restarted, whatever the history of advancing, saving, dying (also in the middle of a save) and restarting: a restart that goes on has loaded one save, whole, all four parts of the same moment, and it is the last save that was completed; a program that dies outside a save can always be restarted from its last save. Dying during the save of a new state makes every later restart refuse although older complete checkpoints are on the disk, dying in the first save after a restart loses the checkpoint exactly while a file is open, and a refusal because of PyElastica's state is raised on the master only while the other ranks go on with the unfinished checkpoint (three findings).", "quantifier": "every history of advances, saves, deaths at any of the points between opening and closing the files, and restarts; every increasing sequence of times, also times with the same file number; every content", "why_tests_cant": "a test does not kill the program between two system calls, and the histories are unbounded", "anchors": ["examples/3d_examples/FlowPastFreelyRotatingRodCase/flow_past_freely_rotating_rod_case.py:flow_past_freely_rotating_rod_case"]}
{"id": "C64", "title": "The origin the examples write puts every element of the data sets at its cell centre", "statement": "The examples compute the origin of the Eulerian grid as the minimum over all ranks of the minima of the position field's slices. In the 2D example and the 3D examples that slice all three axes, the resulting description (origin plus index times spacing) puts element P of every data set exactly where the simulator has the centre of that cell, on every rank and for every decomposition and ghost size. In the two 3D rod examples two axes only are sliced for x: the description is right along y and z, and ghost_size cells too low along x for every element (finding).", "quantifier": "every process grid, block size, ghost size of at least one, cell size; every cell and rank; every order of the reduction", "why_tests_cant": "a test checks one decomposition and one ghost size; a shift of two cells is not visible in a picture", "anchors": ["examples/3d_examples/FlowPastSphereCase/flow_past_sphere_case.py:flow_past_sphere_case", "examples/3d_examples/PointSourceAdvectAndDiffuseCase/point_source_advection_diffusion.py", "examples/3d_examples/FlowPastRodCase/flow_past_rod_case.py", "examples/3d_examples/FlowPastFreelyRotatingRodCase/flow_past_freely_rotating_rod_case.py", "examples/2d_examples/FlowPastRodCase/flow_past_rod.py"]}
{"id": "C65", "title": "Verification cases: initial fields and reported errors are those of a serial computation", "statement": "The verification examples sample initial fields from a formula at the ranks' position field, run the simulator, and report L2 and Linf errors against a formula at the final time (locally, then allreduce). The sampled arrays are the formula at the cell centres of the global grid, ghost cells included. The reported errors exist and equal the norms of the error over the global grid, whatever order the reductions take; after a whole run (2D Navier-Stokes with the velocity recomputed from the vorticity, 3D advected and diffused vector) they are those of the serial run with the same number of steps, hence the same for every decomposition.", "quantifier": "every formula of the coordinates, every decomposition, block and ghost size, every run of the adaptive loop, every order of the reductions", "why_tests_cant": "a test runs one formula on one decomposition; a wrong reduction or a shifted position changes the error slightly and passes as discretisation error", "anchors": ["examples/2d_examples/LambOseenVortexCase/lamb_oseen_vortex.py:lamb_oseen_vortex_flow_case", "examples/3d_examples/PointSourceAdvectAndDiffuseCase/point_source_advection_diffusion.py", "sopht_mpi/simulator/flow/flow_simulators_mpi_2d.py:UnboundedFlowSimulator2D.compute_velocity_from_vorticity"]}
{"id": "C66", "title": "An adaptive loop in floating-point arithmetic ends, and its time is the sum of its steps up to rounding", "statement": "When `time` is accumulated in floating-point arithmetic (relative error eps per addition), an adaptive loop whose time steps are all at least dmin, with dmin (1 - eps) > eps * t_end, ends, after fewer than (t_end - t_start) / (dmin (1 - eps) - eps t_end) + 1 iterations, and the time on every rank at any moment is the start time plus the sum of the steps taken, up to the rounding of one addition per step. Positive steps and a bounded speed alone do not suffice: there is a binary64 run whose time never moves.", "quantifier": "every rounding with relative error eps for sums (binary64: 2^-53), every flow, every time step rule, every decomposition, every run of the loop", "why_tests_cant": "a test runs a few hundred steps that are large against the rounding of the time; a step lost against the time, or a drift of the time, shows only in long runs with small steps", "anchors": ["sopht_mpi/simulator/flow/flow_simulators_mpi_2d.py:UnboundedFlowSimulator2D.time_step", "sopht_mpi/simulator/flow/flow_simulators_mpi_2d.py:UnboundedFlowSimulator2D.compute_stable_timestep", "examples/2d_examples/LambOseenVortexCase/lamb_oseen_vortex.py:lamb_oseen_vortex_flow_case"]}
{"id": "C67", "title": "The log file shared by all ranks holds every message once, whole and in order", "statement": "After any history of logger calls made alike by all ranks, enable_write_to_logfile installs the same handler on every rank. If no other installed handler has the same file, then however the ranks' writes interleave, the file ends up as its old contents followed by the formatted lines of exactly the calls made on echo ranks at a sufficient level, each once, unbroken, and in its rank's order; with rank ids (and messages without newlines) the file determines who said what. Findings: with timestamp=True two ranks can form different names; a second handler on the same file (which survives the buggy handler removal) overwrites lines.", "quantifier": "every number of ranks, history of logger calls, echo lists, levels, messages and interleaving of the ranks' writes", "why_tests_cant": "the interleaving is chosen by the MPI-IO implementation at run time, and a test log has a few lines", "anchors": ["sopht_mpi/utils/mpi_logger.py:MPIFileHandler", "sopht_mpi/utils/mpi_logger.py:MPILogger.enable_write_to_logfile"]}
{"id": "C68", "title": "The drag history written by drivers with immersed bodies", "statement": "When the ranks of a driver with immersed bodies leave the time loop, the serial driver does too, after as many iterations, and the CSV file written by the body's master has exactly the rows of the serial history: for each iteration in which the data timer was due, the time and the coefficient of the sum of the serial forces on the body's nodes; no other rank writes. Two decompositions, whatever their masters, write the same file. Finding: a row's force is that of the flow and the mismatch one step EARLIER than the time in the row (the first row: the initial force), since the forces are recorded before the iteration's interactor call.", "quantifier": "every decomposition of a legal grid in 2D and 3D, initial state, body, calls per iteration, timers, end time and number of iterations", "why_tests_cant": "it is a claim about every run and every decomposition; tests run no driver and no driver test compares a drag file", "anchors": ["examples/2d_examples/FlowPastCylinderCase/flow_past_cylinder.py", "examples/3d_examples/FlowPastSphereCase/flow_past_sphere_case.py"]}
{"id": "C69", "title": "Flow past a body that stays where it is", "statement": "In a fixed-body driver (per iteration: record the drag if due, choose the time step, interactor.time_step, interactor(), flow.time_step) every call is legal in every iteration of every run, whatever the flow does, when the body's nodes and the cells their kernels reach lie inside the domain off its outermost layer, the interactor refreshes ghosts itself, and, with assume_data_locality, the nodes are in the master's block. Then the ranks leave the time loop exactly if the serial driver does, after as many iterations, every memory they pass through shows the serial state, and the drag file has the rows of the serial history. What the constructors leave, from arbitrary memory, is such a start at rest, for every decomposition whose ghost zone holds the kernel, so nothing else is needed from the user.", "quantifier": "every legal 2D and 3D grid and decomposition, arbitrary memory before construction, body, flow, timers, end time and number of iterations", "why_tests_cant": "legality has to hold at each iteration of runs of any length on every decomposition, for whatever velocity field the flow produces; tests make a handful of isolated calls", "anchors": ["examples/2d_examples/FlowPastCylinderCase/flow_past_cylinder.py", "examples/3d_examples/FlowPastSphereCase/flow_past_sphere_case.py", "sopht_mpi/simulator/immersed_body/immersed_body_flow_interaction_mpi.py"]}
{"id": "C70", "title": "Bodies that move: what must hold of the serial run for the ranks to run as it does", "statement": "A driver whose bodies move (with the flow's forces or by themselves), called any number of times in an iteration by a script that depends on what it sees, makes only legal calls on a decomposition, and therefore ends exactly if the serial driver does and shows the serial states throughout, when in the SERIAL run each body, whenever it acts or is acted upon, has all its nodes and the cells their kernels reach inside the domain off its outermost layer (in the master's block, with assume_data_locality), and between two such calls a node only changes its block when some block's number of nodes changes. The latter holds on one rank, and when all nodes that change their block go from one block to one other; it can fail (finding): two nodes that swap blocks leave all numbers as they were, and the interactor keeps the old mapping. What the constructors of any number of interactors leave, from arbitrary memory, is a legal start.", "quantifier": "every legal 2D and 3D grid and decomposition, bodies, motions, scripts, arbitrary memory before construction, end time and number of iterations", "why_tests_cant": "legality must hold at each call of runs of any length on every decomposition although it depends on where the flow drives the bodies; tests make isolated calls with fixed bodies", "anchors": ["examples/2d_examples/FlowPastRodCase/flow_past_rod.py", "examples/3d_examples/FlowPastRodCase/flow_past_rod_case.py", "examples/3d_examples/FlowPastFreelyRotatingRodCase/flow_past_freely_rotating_rod_case.py", "sopht_mpi/numeric/immersed_boundary_ops/VirtualBoundaryForcingMPI.py"]}
{"id": "C71", "title": "Drivers with a rod: the flow's step in substeps of the rod", "statement": "A rod driver divides each time step f of the flow into int(f / min(f, rod_dt)) substeps of equal length. There is always at least one, also in double precision (so the division by their number is legal); together they cover f exactly (in double precision up to a relative 2^-52); a step not above rod_dt stays undivided. Finding: the substeps are never shorter than rod_dt and can be almost twice as long (the number is rounded down): rod_dt is exceeded unless f is below it or a multiple of it. An iteration (in each substep the rod's own step, with the loads of the flow, and interactor.time_step; then interactor(); then flow.time_step with the free stream of the time at its start) runs on every decomposition as serially: the ranks leave the time loop exactly if the serial driver does, every memory they pass through shows the serial state, and two decompositions agree, as long as in the serial run the rod, whenever it gets loads or acts on the flow, stays inside the domain and its numbers of nodes per block tell (C70).", "quantifier": "every pair of positive time steps (doubles from 2^-900 on with a ratio up to 2^50 for the rounding bounds); every legal 2D and 3D grid and decomposition, rod, stages of its stepper, number of substeps and iterations", "why_tests_cant": "the number and length of substeps must be right for every pair of doubles, and the lockstep of ranks must hold in every iteration of every run", "anchors": ["examples/2d_examples/FlowPastRodCase/flow_past_rod.py", "examples/3d_examples/FlowPastRodCase/flow_past_rod_case.py", "examples/3d_examples/FlowPastFreelyRotatingRodCase/flow_past_freely_rotating_rod_case.py"]}
{"id": "C72", "title": "Restarting a driver with a rod", "statement": "A rod driver saves at the start of an iteration in which its save timer is due: vorticity and velocity, the mismatches its interactor holds, the time, and (with PyElastica) the rod. Restarted from there - the same driver, any decomposition, fresh memory, timers set to 0 - it goes on as the run that was not interrupted: one ends exactly if the other does; in every iteration the same timers are due and the same time step is taken (so the same substeps); after as many iterations, or at the end, both are at the same time with the same vorticity, velocity, forcing and rod, and after the first iteration everything agrees: the timers, the stream function and the forces too. Resetting the timer is harmless because it was due when the file was written. The start of an iteration is a right moment to save: the forcing has been used up, and the rod meets the flow again in the first substep before its forces are used. Needs a penalised zone of at least 4 cells in 2D, 3 in 3D (with a filter that is off or spares 3 boundary cells), as in C56.", "quantifier": "all saved states, memories and timers of the restarted run, decompositions of both, step rules, numbers of substeps and iterations, stages of the rod, kernels of the kind the repository has, schedules of both runs", "why_tests_cant": "A test restarts one rod once on one decomposition, and compares floats after a few iterations; that the restarted run takes the same time steps and substeps for ever, whatever was in memory and wherever the rod moves, is a statement about all runs.", "anchors": ["examples/3d_examples/FlowPastFreelyRotatingRodCase/flow_past_freely_rotating_rod_case.py", "sopht_mpi/simulator/immersed_body/immersed_body_flow_interaction_mpi.py", "sopht_mpi/simulator/flow/flow_simulators_mpi_3d.py", "sopht_mpi/utils/mpi_io.py"]}
{"id": "C73", "title": "The file names of checkpoints: a restart opens the last save", "statement": "The example that can be restarted writes the hundredths of the time into its file names and finds the latest save by listing the directory. Whatever the saves, their times (not negative, in double precision) and the order in which the directory is listed: the restart opens the flow, rod and forcing grid files of the last save, provided no other file's name contains both \"flow\" and \"h5\"; the other files a save writes do not. The number has at least five digits, also after the time 1000 (then more), and is read back from the name; different numbers have different names; numbers do not decrease with time, as C63 assumes, and saves more than 1/100 (and a rounding) apart have different files. Findings: saves at the times 0.28 and 0.29 share their files (the second overwrites the first), because 100 times 0.29 is rounded below 29 and the number is truncated; and one file whose name contains \"flow\" and \"h5\" but no number makes every restart raise.", "quantifier": "all lists of save times, all contents and orders of the directory listing, all numbers (any number of digits), all names of the restart directory", "why_tests_cant": "The names depend on formatting, truncating and rounding every possible time, and on every possible directory and listing order; a test sees a few.", "anchors": ["examples/3d_examples/FlowPastFreelyRotatingRodCase/flow_past_freely_rotating_rod_case.py", "sopht_mpi/utils/mpi_io.py"]}
