(** Model of the calls of the rod drivers: examples/2d_examples/FlowPastRodCase/flow_past_rod.py:275-297,
    3d_examples/FlowPastRodCase/flow_past_rod_case.py:260-278,
    3d_examples/FlowPastFreelyRotatingRodCase/flow_past_freely_rotating_rod_case.py:297-315, as a script for Driver.v.

    Simplifications: do_step (PyElastica) is some list of calls that move the rod and let it compute the loads of the flow; it
    depends on the step length only (the rod's forcings other than the flow do not depend on the time in these drivers). *)
From Verif Require Import Base SpecGrid SpecLoop.
Open Scope Z_scope.

Section S.
Context {T F V W : Type}.
Variables (steps : W -> nat) (part : W -> T) (stages : T -> list (action T F)) (flow : W -> W -> F).
(** The loop body: do_step(..., local_rod_dt); interactor.time_step(dt=local_rod_dt) *)
Definition substep_calls (h : T) : list (action T F) := stages h ++ [OAdvance 0 h].
(** for i in range(rod_time_steps): ...; interactor(); flow_sim.time_step(dt, free_stream_velocity(time)) *)
Definition rod_calls (t d : W) : list (action T F) := concat (repeat (substep_calls (part d)) (steps d)) ++ [OFull 0; OFlow (flow t d)].
Definition rod_num (k : nat) (t d : W) : nat := length (rod_calls t d).
Definition rod_script (k : nat) (t d : W) (seen : list V) : action T F := nth (length seen) (rod_calls t d) OGhost.
End S.
