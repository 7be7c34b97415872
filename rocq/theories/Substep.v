(** Model of the substeps of the rod drivers: examples/2d_examples/FlowPastRodCase/flow_past_rod.py:276-277,
    3d_examples/FlowPastRodCase/flow_past_rod_case.py:261-262,
    3d_examples/FlowPastFreelyRotatingRodCase/flow_past_freely_rotating_rod_case.py:298-299.  f is the flow's time step, r the limit
    on the rod's time step (rod_dt), both positive; python's min, true division and int() of a positive number; rd rounds. *)
From Coq Require Import ZArith Reals.
From Flocq Require Import Core.
From Verif Require Import SpecRounding.
Open Scope R_scope.

Section S.
Variable rd : R -> R.
(** min(flow_dt, rod_dt): the first unless the second is smaller *)
Definition smaller (f r : R) : R := if Rlt_bool r f then r else f.
(** rod_time_steps = int(flow_dt / min(flow_dt, rod_dt)) *)
Definition rod_time_steps (f r : R) : Z := Ztrunc (rd (f / smaller f r)).
(** local_rod_dt = flow_dt / rod_time_steps; the integer is converted to a floating-point number *)
Definition local_rod_dt (f r : R) : R := rd (f / rd (IZR (rod_time_steps f r))).
End S.
(** In double precision, and in exact arithmetic. *)
Definition steps64 := rod_time_steps b64.
Definition local64 := local_rod_dt b64.
Definition steps_exact := rod_time_steps (fun x => x).
Definition local_exact := local_rod_dt (fun x => x).
