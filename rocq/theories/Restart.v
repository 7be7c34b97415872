(** Saving a flow simulator and loading the file into another one (C56). *)
From Coq Require Import String.
From Verif Require Import Base SpecGrid SpecGhost IoEul.
Open Scope Z_scope.
Open Scope list_scope.

(** io.add_as_eulerian_fields_for_io(vorticity=flow_sim.vorticity_field, velocity=flow_sim.velocity_field)
    examples/3d_examples/FlowPastFreelyRotatingRodCase/flow_past_freely_rotating_rod_case.py:189-191, with the shapes of
    sopht_mpi/simulator/flow/flow_simulators_mpi_2d.py, flow_simulators_mpi_3d.py (scalar vorticity in 2D, vector vorticity in 3D).  The order of the keyword arguments is
    the order of the calls. *)
Definition flow_fields_2d (loc : list Z) (g : Z) (w vx vy : nat) : list (string * list Z * list nat) :=
  [("vorticity"%string, ghosted g loc, [w]); ("velocity"%string, 2 :: ghosted g loc, [vx; vy])].
Definition flow_fields_3d (loc : list Z) (g : Z) (w0 w1 w2 vx vy vz : nat) : list (string * list Z * list nat) :=
  [("vorticity"%string, 3 :: ghosted g loc, [w0; w1; w2]); ("velocity"%string, 3 :: ghosted g loc, [vx; vy; vz])].
