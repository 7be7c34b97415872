# Formal model of fankiat/sopht-mpi in Rocq (Coq 8.16.1)

This file is assembled by `tools/design.py` from `tools/design_head.md`, `tools/design_tail.md`, `MANIFEST.json`,
`properties.jsonl` and `tools/assumptions.md` (the output of `tools/assumptions.py`, which asks Coq).

## 1. Approach

sopht-mpi is an SPMD layer: every rank runs the same Python code, keeps a ghosted block of each field, and communicates by
MPI.  What a user relies on is that the ranks together compute what the serial code would compute on the whole grid, for
every decomposition, message timing and history.  The model is a shallow embedding in Gallina, file by file.

* **Element values** are of an arbitrary type `T` (closed `Section` variables) wherever the code only moves data or applies an
  opaque kernel, so those theorems also hold bit for bit for floats.  `ghost_sum` and spreading use a commutative monoid or
  semiring; delta weights, diagnostics, deviation norm and Green's functions use Coq's `R`; node positions and coordinates use
  exact rationals `Q`.
* **Ranks** are integers, the topology is MPI's row-major Cartesian numbering (`Cart.v`), `PROC_NULL` is `None`.
* **Memory** maps (rank, array, flat index) to `T`; arrays have explicit shapes; python slices and negative indices are
  normalised explicitly.
* **Non-blocking communication** (`Comm.v`): each rank posts a list of `ISend`/`IRecv`.  MPI's matching rule is the model's:
  the k-th send A->B (program order of A) goes with the k-th receive at B from A.  The single elements of all matched messages
  are then transferred in an arbitrary order.
* **SPMD programs** (`Spmd.v`): lists of phases, each a local computation or an exchange overlapped with a local computation.
  Ranks advance asynchronously.  `spmd_ends n ps m m'` says that every execution, whatever the schedule, terminates in `m'`
  (no execution gets stuck, diverges, or ends elsewhere).
* **Blocking communication** (`Blocking.v`): small-step semantics of `Send`/`Recv` where each send may be buffered or
  synchronous, decided by the adversary.  `runs_to` says that every execution terminates, in the given memory.
* **Errors** (`RuntimeError`, `ValueError`, `Abort`) are values of result types.

Every definition of the model cites the file and lines of /repo it models and says where it simplifies.

## 2. Organisation

* `Spec*.v`: specifications, on the global grid and without ranks where the property is about serial equivalence.
* `Cart.v Comm.v Spmd.v Blocking.v Ghost2D.v Ghost3D.v FieldComm.v Lagrangian.v Stencil.v KernelList.v TimeStep.v Penalise.v
  Filter.v Doubling.v GhostSum.v EulLag.v Delta.v Vbf.v Bodies.v Deviation.v IoEul.v IoLag.v IoRod.v Logger.v Diagnostics.v
  Construct.v Coords.v NavierStokes.v Greens.v PyNum.v` and the later model files named in section 3: the model.
* `*Proofs.v *Thms.v *Facts.v NS*.v ...`: proofs.  `Refute*.v`: counterexamples.
* `Props*.v`: one theorem per claim with its hypotheses spelled out, `Example`s showing that concrete non-trivial cases meet the
  hypotheses, and `Print Assumptions` for each theorem.
* `/verif/seeded/LOG.jsonl`: wrong programs tried against the theorems (`tools/mutate.py`, `tools/seedlog.py`).
