(** A simulation with an adaptive time step, serially: while the time is before the end, look which timers are due (and plot
    or print), take the stable time step for the current flow, advance, add the step to the time and the timers. *)
From Verif Require Import Base SpecGrid SpecDiag.
Open Scope Z_scope.

Section S.
Context {T W X : Type}.
(** before: < on times; due: a timer against its limit; zero and plus on times; le, mag, lim, pre: as in SpecDiag (order and
    speed, limit for a top speed, safety factor); N, vel: grid and velocity arrays; flow: the arrays of a state;
    advance: the k-th step, from time t with time step d. *)
Variables (before : W -> W -> bool) (plus : W -> W -> W) (zero : W) (due : W -> W -> bool) (limits : list W) (final : W).
Variables (le : T -> T -> Prop) (mag : list T -> T) (lim : T -> W) (pre : W -> W) (N : list Z) (vel : list nat).
Variables (flow : X -> nat -> list Z -> T) (advance : nat -> W -> W -> X -> X).

(** Steps made, time, timers, state. *)
Record sconfig := { s_count : nat; s_time : W; s_timers : list W; s_state : X }.
(** What is seen of an iteration: which timers were due, the state then, the time step. *)
Record happening := { h_due : list bool; h_state : X; h_dt : W }.
Definition timers_due (ts : list W) : list bool := map (fun lt => due (fst lt) (snd lt)) (combine limits ts).
Definition timers_next (d : W) (ts : list W) : list W := map (fun bt => plus (if fst bt : bool then zero else snd bt) d) (combine (timers_due ts) ts).
Inductive serial_iteration (c : sconfig) : happening -> sconfig -> Prop :=
| si (U : T) : before (s_time c) final = true ->
    is_max le (inb N) (speed mag (flow (s_state c)) vel) U ->
    let d := pre (lim U) in
    serial_iteration c {| h_due := timers_due (s_timers c); h_state := s_state c; h_dt := d |}
      {| s_count := S (s_count c); s_time := plus (s_time c) d; s_timers := timers_next d (s_timers c); s_state := advance (s_count c) (s_time c) d (s_state c) |}.
Inductive serial_iterations : sconfig -> list happening -> sconfig -> Prop :=
| sis_nil c : serial_iterations c [] c
| sis_snoc c tr c1 e c2 : serial_iterations c tr c1 -> serial_iteration c1 e c2 -> serial_iterations c (tr ++ [e]) c2.
(** The loop has been left. *)
Definition serial_over (c : sconfig) : Prop := before (s_time c) final = false.
End S.
Arguments sconfig : clear implicits. Arguments happening : clear implicits.
