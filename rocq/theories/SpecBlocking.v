(** What it means for a blocking SPMD program to terminate with a result. *)
From Verif Require Import Base Comm Blocking.

Section S.
Context {T : Type}.
(** Starting configuration: ranks 0..n-1 run [prog], no message in flight. *)
Definition start (n : Z) (prog : Z -> list bop) (m : Z -> lmem) : @config T :=
  {| pr := fun r => if (0 <=? r) && (r <? n) then prog r else []; mm := m; ch := fun _ _ => [] |}.
(** All programs finished, no message left over, memory m. *)
Definition stop (m : Z -> lmem) : @config T :=
  {| pr := fun _ => []; mm := m; ch := fun _ _ => [] |}.
(** [runs_to n prog m m']: whatever the schedule and whether or not MPI
    buffers the sends, the program never blocks forever, always stops, and
    always stops with memory m' and no unreceived message. *)
Definition runs_to (n : Z) (prog : Z -> list bop) (m m' : Z -> lmem) : Prop :=
  always_ends (start n prog m) (stop m').
End S.
