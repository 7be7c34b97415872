(** Model of how the examples compute the origin that they pass to MPIIO.define_eulerian_grid.
    Exact rational arithmetic. *)
From Coq Require Import QArith Qminmax.
From Verif Require Import Base SpecGrid SpecReduce Cart Ghost2D Stencil Coords.
Open Scope Z_scope.

(** np.min *)
Definition minimum (l : list Q) (x : Q) : Prop := In x l /\ forall y, In y l -> (x <= y)%Q.
(** A view with g:-g along the first t axes; axes that are not named are whole. *)
Definition trimmed (d t : nat) (g : Z) : list pslice := map (fun k => if (k <? t)%nat then SBetween g (- g) else SAll) (seq 0 d).
(** grid.allreduce(position_field[c, g:-g, ... (t slices)].min(), op=MPI.MIN).
    examples/3d_examples/FlowPastSphereCase/flow_past_sphere_case.py:88-114,
    examples/3d_examples/PointSourceAdvectAndDiffuseCase/point_source_advection_diffusion.py:70-96,
    examples/3d_examples/FlowPastRodCase/flow_past_rod_case.py:150-174,
    examples/3d_examples/FlowPastFreelyRotatingRodCase/flow_past_freely_rotating_rod_case.py:154-178,
    examples/2d_examples/FlowPastRodCase/flow_past_rod.py:147-162 *)
Definition lowest (dims loc : list Z) (dx : Q) (g : Z) (t c : nat) (x : Q) : Prop :=
  exists v, (forall r, 0 <= r < zprod dims -> minimum (map (position_field dims loc dx g r c) (view_cells (ghosted g loc) (trimmed (length loc) t g))) (v r)) /\
    reduces Qmin (zprod dims) v x.
(** io_origin = np.array([origin_z, origin_y, origin_x]) (flow_past_sphere_case.py:115, point_source_advection_diffusion.py:97):
    three slices for every component. *)
Definition origin_3d (dims loc : list Z) (dx : Q) (g : Z) (o : list Q) : Prop :=
  exists z y x, lowest dims loc dx g 3 2 z /\ lowest dims loc dx g 3 1 y /\ lowest dims loc dx g 3 0 x /\ o = [z; y; x].
(** io_origin = np.array([origin_y, origin_x]) (flow_past_rod.py:163). *)
Definition origin_2d (dims loc : list Z) (dx : Q) (g : Z) (o : list Q) : Prop :=
  exists y x, lowest dims loc dx g 2 1 y /\ lowest dims loc dx g 2 0 x /\ o = [y; x].
(** flow_past_rod_case.py:150-175, flow_past_freely_rotating_rod_case.py:154-179: three slices for z, two for y and x. *)
Definition origin_3d_rod (dims loc : list Z) (dx : Q) (g : Z) (o : list Q) : Prop :=
  exists z y x, lowest dims loc dx g 3 2 z /\ lowest dims loc dx g 2 1 y /\ lowest dims loc dx g 2 0 x /\ o = [z; y; x].
