## 4. Trusted base

* Coq 8.16.1's kernel (including `vm_compute`, used in examples and refutations).
* The axioms listed per theorem in section 7.  They are all axioms of Coq's standard library:
  `functional_extensionality_dep`; for theorems about real numbers also `sig_forall_dec`, `sig_not_dec` (construction of the
  reals) and `classic` (square roots, logarithms and integrals).  No axiom is added; Coquelicot adds none.
* The reading of /repo into the model (the citations), the definitions in `Spec*.v`, and the external contracts below.

## 5. External contracts (libraries the code calls; not modelled from source)

* MPI: `Compute_dims` and `Create_cart` (row-major ranks, reorder=False), `Cart_shift`, non-overtaking matching, `Waitall`,
  derived datatypes (vector, subarray) as typemaps, reductions as folds in any order and bracketing, `bcast`.
* sopht/pystencils serial kernels: arbitrary functions of the values within radius ks around a cell (star shaped); called on a
  view they write exactly the cells of the view at distance at least ks from its sides.  Nothing is assumed about the formula,
  except where a property is about it (C31 delta functions, C43 midpoints, C35 diagnostics).
* mpi4py-fft: in C24-C26 and C47 an arbitrary function of the whole doubled array; in C48 the pair (forward, backward)
  computes the discrete Fourier transform formulas (shown satisfiable, with full or half spectra).  `DistArray` gives every rank
  of an axis the same number of cells when it divides the extent.
* h5py: collective writes/reads of hyperslabs are assignments to/reads of dataset elements; string conversion of numbers is
  injective decimal notation.
* python `logging`: one logger per name per process, handlers in insertion order; `{:<7}` fills up with spaces.
* MPI-IO shared files (C67): `File.Open` with `MODE_APPEND` starts the (one per open) shared pointer at the end of the file; `Write_shared` in atomic mode writes at the pointer and moves it, one call at a time.
* PyElastica rods and bodies: their position arrays are inputs; in C54 their motion is an arbitrary function of the loads.

## 6. What is modelled and what is not

Modelled: `utils/mpi_utils_2d.py`, `utils/mpi_utils_3d.py`, `utils/mpi_utils.py`, `utils/mpi_io.py` (data sets and
XDMF descriptions), `utils/mpi_logger.py`, `numeric/eulerian_grid_ops/stencil_ops_2d` and `stencil_ops_3d`,
`poisson_solver_2d/3d`, `numeric/immersed_boundary_ops` (both grid communicators, `VirtualBoundaryForcingMPI`), `simulator/flow`
(construction, time steps, time step size, diagnostics), `simulator/immersed_body` (construction, interaction, deviation norm), and
the restart code of the example with checkpoints (C56, C57).

Not modelled:

* floating point rounding and dtypes (`real_t`), except the mapping of nodes to ranks and cells in double precision (C51), the summation of spread forces (C61), the norms (C62) and the accumulated time (C66): exact arithmetic where arithmetic matters, arbitrary `T` elsewhere;
* what the transfer of the gathered forces to the body computes (`transfer_forcing_from_grid_to_body` is sopht code: an arbitrary
  function in C54);
* matplotlib (how `MPIPlotter2D`'s figures look, C58), `lab_cmap.py`; the layout, Precision and Time attributes of the XDMF text;
* the last-resort handler and root propagation of python's `logging`;
* performance, thread counts (`num_threads`), file-system failures.
* C63: a file that is open when the program dies is taken to be unreadable; PyElastica's state (several files) is one file; the working directory holds only this series of runs, and restart_dir is not changed in between; file numbers are a non-decreasing function of time ("%0.5d" % (time * 100), os.listdir and int are not modelled as text).
