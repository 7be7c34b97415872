(** Model of the drivers that couple bodies and flow: examples/2d_examples/FlowPastRodCase/flow_past_rod.py:210-301,
    3d_examples/FlowPastRodCase, FlowPastFreelyRotatingRodCase, FlowPastSphereCase, 2d_examples/FlowPastCylinderCase: the loop
    of Adaptive.v, in each iteration of which the calls to bodies, interactors and flow (Loop.v) are made with the time step
    just computed ([rod_time_steps = int(flow_dt / min(flow_dt, rod_dt))] substeps of the body, the interaction, time_step of
    the flow with a free stream that depends on the time).

    Simplifications: as in Adaptive.v and Loop.v; what a script sees of the flow within an iteration is the same on all ranks,
    but the time step is every rank's own result of compute_stable_timestep. *)
From Coq Require Import QArith.
From Verif Require Import Base SpecGrid SpecReduce SpecVbf SpecCoupled SpecLoop SpecDiag SpecAdaptive SpecDriver Comm Blocking Spmd Lagrangian Vbf Coupled SpecTracks Loop Diagnostics Adaptive.
Open Scope Z_scope.

Section D.
Context {T F F' B L V W : Type}.
Variables (add sub mul : T -> T -> T) (z : T) (scale : T -> T) (sum : list T -> T) (dx shift : Q).
Variables (dims loc : list Z) (g : Z) (vels Fs fs : list nat) (nb : nat) (actors : nat -> actor T).
Variable exch : list (place * place).
Variable spread : actor T -> pose T -> Z -> list (@bop T).
Variable flow : F' -> list (@phase T).
Variable rules : nat -> body_rules T B L.
Variables (num : nat -> W -> W -> nat) (script : nat -> W -> W -> list V -> action T F) (look : list (list T) -> V) (none : L).
Variables (ord : nat -> list Z -> list Z) (lifts : (list V -> F -> F') -> Prop).   (* lifts: what steps may read from ghosts in flight (3D curl) *)

(** The rest of an iteration after compute_stable_timestep: flow_past_rod.py:275-297.  The further state: mappings, and every rank's
    copies of the bodies. *)
Definition drive (k : nat) (t d : W) (m : mem T) (e : (nat -> vb) * (Z -> nat -> B)) (m' : mem T) (e' : (nat -> vb) * (Z -> nat -> B)) : Prop :=
  exists lift q', lifts lift /\
    loop_ends add sub mul z scale sum dx shift dims loc g vels Fs fs actors exch spread flow rules (script k t d) look none ord lift (num k t d)
      {| q_mem := m; q_maps := fst e; q_body := snd e; q_seen := [] |} q' /\
    m' = q_mem q' /\ e' = (q_maps q', q_body q').

(** The arrays of flow, forcing and interactors; plots, files and logs (flow_past_rod.py:212-272) keep them. *)
Definition driver_arrays : list nat := Fs ++ fs ++ flat_map (fun b => actor_ids (actors b)) (seq 0 nb).
Definition keeps (m m' : mem T) : Prop := forall r f i, In f driver_arrays -> m' (r, (f, i)) = m (r, (f, i)).

(** The calls of the iteration that starts in the serial configuration s and has time step d, placed on this decomposition. *)
Variable flow_step : (Z -> list Z -> T) -> (nat -> list Z -> T) -> F -> nat -> list Z -> T.
Definition driver_calls (lift : list V -> F -> F') (s : sconfig W (cstate T * (nat -> B))) (d : W) : list (event T F') :=
  placed_calls add sub mul z scale sum dx shift dims loc vels Fs fs actors rules (script (s_count s) (s_time s) d) look ord lift flow_step (num (s_count s) (s_time s) d) (entering (s_state s)).
(** Serial runs, with the places of the bodies' nodes on this decomposition. *)
Inductive placed_run (step : sconfig W (cstate T * (nat -> B)) -> happening W (cstate T * (nat -> B)) -> sconfig W (cstate T * (nat -> B)) -> Prop)
  (s0 : sconfig W (cstate T * (nat -> B))) (a0 : nat -> list Z) : list (happening W (cstate T * (nat -> B))) -> sconfig W (cstate T * (nat -> B)) -> (nat -> list Z) -> Prop :=
| pr_nil : placed_run step s0 a0 [] s0 a0
| pr_snoc hs s a h s' lift : placed_run step s0 a0 hs s a -> step s h s' -> lifts lift -> placed_run step s0 a0 (hs ++ [h]) s' (places_after a (driver_calls lift s (h_dt h))).
End D.
