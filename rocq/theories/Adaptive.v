(** Model of the adaptive time loop of the drivers: examples/2d_examples/LambOseenVortexCase/lamb_oseen_vortex.py:68-111,
    examples/2d_examples/FlowPastCylinderCase/flow_past_cylinder.py:82-155 and the 3D cases:
    [while flow_sim.time < final_time: if timer >= limit or timer == 0: timer = 0, plot and log; dt = compute_stable_timestep();
    time_step(dt); timer += dt].  Every rank has its own time (FlowSimulator2D.time, flow_simulators_mpi_2d.py: time += dt) and
    timers, takes its own decisions, and gets its own result of the reduction in compute_stable_timestep.

    Simplifications: what a due timer triggers (plots, files, logged diagnostics) keeps the flow arrays (C58, C33, C35) and is
    otherwise arbitrary; the rest of an iteration (bodies, time_step) is the relation [body], which may use the iteration's
    number, the time (flow_past_rod.py:289: the free stream is ramped up) and the time step, and may change further state E
    (the bodies and their mappings to ranks). *)
From Verif Require Import Base SpecGrid SpecReduce Comm Diagnostics.
Open Scope Z_scope.

Section A.
Context {T W E : Type}.
Variables (dims loc : list Z) (g : Z).
Variables (before : W -> W -> bool) (plus : W -> W -> W) (zero : W) (due : W -> W -> bool) (limits : list W) (final : W).
Variables (mag : list T -> T) (mx : T -> T -> T) (lim : T -> W) (mn : W -> W -> W) (pre : W -> W) (vel : list nat) (buf : nat).
(* plots and logs; the rest of iteration k, at time t with time step d *)
Variables (show : mem T -> mem T -> Prop) (body : nat -> W -> W -> mem T -> E -> mem T -> E -> Prop).

(** Iterations made; per rank: the time, the timers; the memory; bodies. *)
Record config := { c_count : nat; c_time : Z -> W; c_timers : Z -> list W; c_mem : mem T; c_rest : E }.
Record seen := { e_due : list bool; e_mem : mem T; e_rest : E; e_dt : W }.

(** [if timer >= limit or timer == 0] for each timer.  lamb_oseen_vortex.py:83, flow_past_cylinder.py:102 and 134 *)
Fixpoint are_due (ls ts : list W) : list bool := match ls, ts with l :: ls, t :: ts => due l t :: are_due ls ts | _, _ => [] end.
(** [timer = 0.0] if due, later [timer += dt].  lamb_oseen_vortex.py:84 and 109, flow_past_cylinder.py:103, 135, 154-155 *)
Fixpoint count_on (d : W) (ls ts : list W) : list W :=
  match ls, ts with l :: ls, t :: ts => plus (if due l t then zero else t) d :: count_on d ls ts | _, _ => [] end.
Definition rank (r : Z) : Prop := 0 <= r < zprod dims.
(** while flow_sim.time < final_time, on rank r.  lamb_oseen_vortex.py:80 *)
Definition goes_on (c : config) (r : Z) : bool := before (c_time c r) final.
(** A due timer: plots, logs.  None: nothing happens. *)
Definition shown (fl : list bool) (m m1 : mem T) : Prop := if existsb (fun b => b) fl then show m m1 else m1 = m.
(** Rank r's result of compute_stable_timestep. *)
Definition gets (m : mem T) (x : W) : Prop := stable_dt loc g mag mx lim mn pre (zprod dims) vel buf m x.

(** One iteration in which all ranks act alike. *)
Inductive iteration (c : config) : seen -> config -> Prop :=
| it fl m1 t (x : Z -> W) d m2 e2 :
    (forall r, rank r -> goes_on c r = true) -> (forall r, rank r -> c_time c r = t) ->
    (forall r, rank r -> are_due limits (c_timers c r) = fl) -> shown fl (c_mem c) m1 ->
    (forall r, rank r -> gets m1 (x r)) -> (forall r, rank r -> x r = d) ->
    body (c_count c) t d (store_magnitude loc g mag vel buf m1) (c_rest c) m2 e2 ->
    iteration c {| e_due := fl; e_mem := c_mem c; e_rest := c_rest c; e_dt := d |}
      {| c_count := S (c_count c); c_time := fun r => plus (c_time c r) (x r); c_timers := fun r => count_on (x r) limits (c_timers c r); c_mem := m2; c_rest := e2 |}.
(** The ranks go apart: some leave the loop and others do not, their times differ, different timers are due, or they get different time steps.
    (The next collective operation then never completes or combines different calls.) *)
Inductive apart (c : config) : Prop :=
| ap_loop r r' : rank r -> rank r' -> goes_on c r = true -> goes_on c r' = false -> apart c
| ap_time r r' : rank r -> rank r' -> goes_on c r = true -> c_time c r <> c_time c r' -> apart c
| ap_due r r' : rank r -> rank r' -> goes_on c r = true -> are_due limits (c_timers c r) <> are_due limits (c_timers c r') -> apart c
| ap_dt r r' fl m1 x x' : rank r -> rank r' -> goes_on c r = true -> are_due limits (c_timers c r) = fl -> shown fl (c_mem c) m1 ->
    gets m1 x -> gets m1 x' -> x <> x' -> apart c.
Inductive iterations : config -> list seen -> config -> Prop :=
| its_nil c : iterations c [] c
| its_snoc c tr c1 e c2 : iterations c tr c1 -> iteration c1 e c2 -> iterations c (tr ++ [e]) c2.
(** The loop has been left, on every rank. *)
Definition over (c : config) : Prop := forall r, rank r -> goes_on c r = false.
End A.
Arguments config : clear implicits. Arguments seen : clear implicits.
