"""Writes DESIGN.md from this file, MANIFEST.json, properties.jsonl and tools/assumptions.md.
tools/assumptions.md is the output of tools/assumptions.py (needs a build)."""
import json

# property -> (model files, how it is proved)
P = {
"C01": ("Cart.v (`MPIConstruct2D/3D.__init__`)", "div/mod arithmetic, list induction over the axes; blocks tile the grid is a bijection (rank, local index) <-> global position"),
"C02": ("Cart.v (`Create_cart`, `Shift`, `Get_cart_rank`, diagonal ranks)", "row-major rank numbering is a bijection; induction over the axes"),
"C03": ("Ghost2D.v on Comm.v", "typemaps of the derived datatypes are boxes; matching lemma pairs every send with its receive; the values delivered are the owner's (GhostGeo.v, any number of axes)"),
"C04": ("Ghost2D.v", "as C03, with the set of covered ghost cells computed exactly"),
"C05": ("Ghost3D.v (tables transcribed mechanically from the source)", "as C03; the 18 face/edge/vertex groups are shown to coincide with the generic exchange of GhostGeo.v"),
"C06": ("Comm.v (k-th send A->B meets k-th receive at B from A), Ghost2D.v, Ghost3D.v", "induction over the posting order: filtered sends = filtered receives for every pair of ranks, including self-messages and coinciding neighbours"),
"C07": ("Comm.v (elements delivered in any order, interleaved with computation)", "permutation induction: copies with disjoint sources/targets commute"),
"C08": ("FieldComm.v on Blocking.v", "induction over the list of slaves; subarray datatypes tile the global array"),
"C09": ("FieldComm.v", "as C08"),
"C10": ("FieldComm.v", "composition of C08 and C09"),
"C11": ("Blocking.v (synchronous or buffered sends, any schedule)", "every reachable state can step or is final; confluence by diamond, measure = remaining operations"),
"C12": ("Lagrangian.v (exact rational coordinates)", "floor/div arithmetic; the index lists partition the nodes"),
"C13": ("Lagrangian.v", "outcome of the mapping as a function of the position, for every position, including numpy's negative index wrap-around; refutation witnesses"),
"C14": ("Lagrangian.v on Blocking.v", "master/slave exchange lemmas of MasterSlave.v"),
"C15": ("Vbf.v (`VirtualBoundaryForcingMPI`, assume_data_locality=False)", "invariant over arbitrary histories of remappings; exact misattribution law and its refuting witness"),
"C16": ("Stencil.v, KernelList.v (every stencil kernel) on Spmd.v", "interval case analysis of the strip decomposition for any number of axes (HaloProofs.v); locality of a star-shaped kernel"),
"C17": ("Stencil.v (adding kernels)", "number of strips that contain a cell, computed exactly (AddExact.v)"),
"C18": ("Stencil.v", "as C16, at the boundary"),
"C19": ("Stencil.v", "two runs from memories that differ in ghosts only"),
"C20": ("Stencil.v", "as C16 with the ghosts outside the domain as extra inputs; refutation for the stronger claim"),
"C21": ("Stencil.v (`curl_pyst_mpi_kernel_3d`)", "the cells that read x ghosts in flight are recomputed after the exchange (CurlProofs.v)"),
"C22": ("Penalise.v", "each directional pass equals a coordinate clamp on the global grid; passes composed over the axes"),
"C23": ("Filter.v", "induction over the filter order with the invariant of C16; refutation for order 0"),
"C24": ("Doubling.v (`MPIDomainDoublingCommunicator2D`)", "parent/child block arithmetic, matching lemma, exact cover of the doubled block"),
"C25": ("Doubling.v (`MPIDomainDoublingCommunicator3D`)", "as C24; equivalence for the raising case"),
"C26": ("Doubling.v (solve sequence)", "frame conditions + induction over the sequence of solves"),
"C27": ("GhostSum.v on Blocking.v", "per-axis hop law, composition over the axes; sum over all copies in a commutative monoid (GhostSumHops.v)"),
"C28": ("GhostSum.v on Blocking.v", "stage runs (StageRun.v) terminate on a line of ranks; on a ring with synchronous sends no rank can move"),
"C29": ("EulLag.v", "floor arithmetic on exact rationals"),
"C30": ("EulLag.v, GhostSum.v, Lagrangian.v", "support windows contain the kernel support; spreading followed by ghost_sum = serial sum over nodes"),
"C31": ("Delta.v (Coq reals)", "trigonometric and square-root identities, case analysis on the fractional position"),
"C32": ("EulLag.v, Delta.v", "exchange of finite sums; C31 for conservation"),
"C33": ("IoEul.v (HDF5 file = map from dataset names to arrays)", "names distinct, hyperslabs partition the dataset, round trip across different decompositions"),
"C34": ("IoLag.v", "association lists over the registered grids; refutation witnesses"),
"C35": ("Diagnostics.v (any ordered arithmetic; Coq reals for the divergence norm)", "max/min reductions over any bracketing and order select the greatest/least element, and an antitone limit of the greatest is the least limit; sum reductions in exact arithmetic"),
"C36": ("Logger.v (python `logging` objects shared by name)", "invariant over histories of calls; refutation witnesses"),
"C37": ("Construct.v, PyNum.v (python ints/floats reaching the guards)", "direct; refutations"),
"C38": ("NavierStokes.v", "C47's serial fold uses each deposit once; forcing arrays are zero after the step"),
"C39": ("Vbf.v", "invariant over histories of remappings"),
"C40": ("Bodies.v, EulLag.v, Vbf.v", "frame of the interaction on the velocity arrays; induction over the bodies"),
"C41": ("Deviation.v (Coq reals)", "norm as reduction; case split on the variant"),
"C42": ("Coords.v (exact rationals)", "linspace arithmetic"),
"C43": ("IoRod.v", "direct, over histories of saves"),
"C44": ("TimeStep.v, Stencil.v", "induction over histories of steps with `represents`"),
"C45": ("Ghost2D.v, Ghost3D.v", "necessity: every narrow axis yields a wrong cell for some memory; sufficiency as C03/C05"),
"C46": ("Construct.v", "case analysis over the flow types; refutation"),
"C47": ("NavierStokes.v (all kernels, exchanges and solves of a step)", "each sub-step preserves `represents_ext`; composition, induction over histories"),
"C48": ("Greens.v, Doubling.v (Coq reals, Coquelicot complex numbers)", "Green's function arrays computed from substart/linspace; convolution theorem for the DFT on a grid proved from orthogonality of roots of unity; reflection arithmetic modulo the doubled extent"),
"C49": ("Coupled.v over NavierStokes.v, Vbf.v, Bodies.v, EulLag.v, Ghost*.v", "a run is a sequence of segments (nonblocking phases or blocking programs); the memory shows the serial state (SpecTracks) as an invariant of every event, by induction over the history; frames (Writes.v) keep bodies and flow apart"),
"C50": ("Pointwise.v over Stencil.v", "one local kernel over all cells of the ghosted arrays; read-over-write of disjoint arrays, per component"),
"C51": ("Rounding.v", "Flocq rounding to nearest even in FLT(-1074, 53): relative error bounds on the three roundings keep a/dx within 1/32 cell of the block; exactness of python's floor division; the counterexample is evaluated by rounding lemmas"),
"C52": ("Coupled.v (`ghosting`, `lag_force`), Vbf.v (`interact_local`)", "C49's invariant with the freshness of the velocity ghosts carried along the history; concrete run with stale ghosts for the converse"),
"C53": ("Xdmf.v (`rank_files`, `eul_doc`, `lag_doc`, `replace_h5`)", "every write to a name has the same content, so the last one in any interleaving does; string lemmas for the names; concrete interleaving for two masters"),
"C54": ("Loop.v (`loop_ends`, `placed_calls`), on Coupled.v", "induction on the number of steps: the calls made so far are a history of C49; what the script sees and the masters' loads are then the serial ones, hence so is the next call"),
"C55": ("Interactor.v (`interactor_init`, `vbf_init`, `bcast`, `init_memories`, `start_memory`)", "case analysis of the constructor; the fresh arrays are disjoint by their numbers; the first state satisfies the invariant of C49, then C54"),
"C56": ("Restart.v (the example's add calls) on top of IoEul.v and NavierStokes.v", "what a serial step forgets: a sponge of width w only looks at cells at distance w-1 from the boundary, so influence of the cells around the domain, which travels 3 (2D) or 2 (3D) cells in a step, is erased (RestartSerial.v); then C33 and C47; refutations by running the serial step on an instance"),
"C57": ("Resume.v (the example's restart code: load, map, new buffers, two scatters) on top of Restart.v, IoLag.v and Coupled.v; VbfBook.v adds to the model of the interactions what the master has collected", "the collected arrays hold the mismatches from before the last meeting (an invariant carried along C49, CoupledProofs.v); a serial meeting recomputes the velocity mismatch and leaves the position mismatch, so a settled body loses nothing (ResumeSerial.v); then C34, C56 and C49 on both sides; refutations by running the serial simulation on an instance whose parallel runs the theorems give"),
"C58": ("Plotter.v (MPIPlotter2D: three gathers, then drawing on every rank; what a figure shows), with SpecPlotter.v saying what the files should show from the list of calls alone", "C08 for each gather, run one after the other; an invariant relating the master's figure to the list of what was drawn, induction over the calls; calls are deterministic (confluence of the blocking machine)"),
"C59": ("Adaptive.v, Diagnostics.v, NavierStokes.v, TimeStep.v (per-rank times, timers and reduction results)", "invariant over the iterations: the ranks show one serial configuration; the generic loop lemma is instantiated with the histories of C47 and C44; archimedean bound for the number of iterations"),
"C60": ("Driver.v on top of Adaptive.v and Loop.v (per-rank times, timers, mappings and body copies)", "the invariant of C59 with the tracking relation of C54 as the state relation; legality is asked only of the calls of the serial run"),
"C61": ("the spreading program of C32 over reals with rounded additions (SpecRoundoff.v, SpecReady.v)", "simulation (Simulate.v) by the same program over triples (exact sum, sum of magnitudes, number of terms), a commutative monoid to which the exact theorem applies; Flocq for binary64; the finding by executing the program on integers standing for doubles (Exec.v)"),
"C62": ("RoundedNorm.v: the norms of C35 and C41 with every operation rounded, additions in any order and grouping", "agreement up to k roundings is symmetric, additive under composition and preserved by sums, products, quotients and roots; the same tree of additions in exact arithmetic is the exact theorem's reduction"),
"C63": ("Checkpoint.v: the saving and restarting code of the example, files absent, broken or whole; SpecCheckpoint.v: histories with deaths after any number of the openings and closings of a save", "invariant over histories: a dead program either refuses or its last checkpoint is whole and is the last completed save"),
"C64": ("Origin.v: the slices, minima and reductions of the examples on the position field of C42", "membership of the slice as bounds on every axis; the minimum is attained by rank 0 at the first cell of the slice"),
"C65": ("Verify.v: sampling at the position field, local error norms, allreduce; the loop of C59 around it; compute_velocity_from_vorticity called by itself (NavierStokes.v)", "positions are cell centres (C42), the sum over ranks of sums over blocks is the sum over the grid, lockstep (C59) for the run"),
"C66": ("the loop of Adaptive.v / SpecAdaptive.v (C59) with a rounded addition of times (SpecRoundoff.v)", "each rounded addition moves the time by at least dmin (1 - eps) - eps t_end, error accumulation by induction; lockstep (C59) for the ranks; a literal binary64 run for the finding"),
"C67": ("LogFile.v: formats, Write_shared at a shared pointer, one pointer per collective open, interleavings of the ranks; handlers and levels from Logger.v", "the only handle on the file stays at its end, so each write appends; handlers do not depend on the rank (induction on the history); the format is decoded by its first bracket"),
"C68": ("Drag.v: the row of the force array on the master at due timers, the file after the loop; the loop is Driver.v", "by the lockstep of C60 every row is the serial one (induction on the iterations); the serial run that ends is unique; a fixed body's iteration leaves in its node state the force for the flow it started from"),
"C69": ("Loop.v, Driver.v, Drag.v with the calls of the fixed-body drivers (fixed_calls); constructors as in C55 (Interactor.v)", "the pose never changes, so a body that fits at the start makes legal calls for ever (induction on the iterations); then C60 and C68; C55 gives the start"),
"C70": ("Loop.v and Driver.v, poses mapped as in Lagrangian.v; SpecMoving.v says in terms of the serial run where bodies are when they act", "induction on the iterations and the calls: the places kept by the interactors are those of the last call, positions inside the domain have exactly one block each; then C60; C55 gives the start"),
"C71": ("Substep.v (numbers of a rounding; binary64 of Flocq) and Rod.v (the calls as a script for Driver.v); SpecRod.v says what an iteration does serially and where the rod then is", "floor and rounding bounds; the script is the serial composition by induction on the list of calls; then C70 and C60"),
"C72": ("the driver of C71 from two states, the second only with what is saved of the first (SpecRodRestart.v); one rod", "an iteration from states that agree in what is saved gives states that agree in everything: the rod gets its loads in the first substep, and the flow step reads only what is saved (ResumeThms.v); so both serial runs go side by side, by induction; then C71 for the ranks"),
"C73": ("FileNames.v: names as lists of characters, formatting, substring search, split and int of python, the listing loop; the number of a time in binary64 of Flocq", "digits by the standard library's decimal numbers; the listing by induction on the directory; times by monotonicity and error bounds of rounding"),
}

HEAD = open('tools/design_head.md').read()
TAIL = open('tools/design_tail.md').read()

claims = {c['property']: c for c in json.load(open('MANIFEST.json'))['claims']}
props = [json.loads(l) for l in open('properties.jsonl')]
out = [HEAD.rstrip(), "", "## 3. Properties", "",
       "Status and theorem names are those of MANIFEST.json. `_refuted` theorems are findings: the negation of a claim the",
       "documentation or the API suggests, proved with an explicit witness.", "",
       "| id | property | model | how it is proved | status and theorems |", "|----|----|----|----|----|"]
for p in props:
    m, h = P[p['id']]
    c = claims[p['id']]
    note = (" — " + c['note']) if c.get('note') else ""
    out.append(f"| {p['id']} | {p['title']} | {m} | {h} | **{c['status']}**: {', '.join(c['theorems'])}{note} |")
out += ["", TAIL.rstrip(), "", "## 7. Assumptions per theorem", "", open('tools/assumptions.md').read().rstrip(), ""]
open('DESIGN.md', 'w').write("\n".join(out))
