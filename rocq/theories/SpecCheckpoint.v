(** Histories of a program that saves, dies and is restarted. *)
From Verif Require Import Base Checkpoint.
Open Scope Z_scope.
Section H.
Context {Time F R G E : Type}.
Variables (teq : Time -> Time -> bool) (lt : Time -> Time -> Prop) (num : Time -> Z) (master : Z).
(** Times are ordered, == decides equality, the file number does not decrease with time. *)
Record clock : Prop := {
  cl_irrefl : forall t, ~ lt t t;
  cl_trans : forall a b c, lt a b -> lt b c -> lt a c;
  cl_eq : forall a b, teq a b = true <-> a = b;
  cl_num : forall a b, lt a b -> num a <= num b }.
Definition empty_disk : disk Time F R G E := {| names := []; d_flow := fun _ => Absent; d_rod := fun _ => Absent; d_grid := fun _ => Absent; d_ela := Absent |}.
(** [history d cur done]: after some history the disk is d, the program is running with state cur (None: it died), and the saves that were
    completed are [done], the last one first. *)
Inductive history : disk Time F R G E -> option (sim Time F R G E) -> list (sim Time F R G E) -> Prop :=
| hist_start s : history empty_disk (Some s) []
(** the simulation advances *)
| hist_advance d s s' done : history d (Some s) done -> lt (now s) (now s') -> history d (Some s') done
(** a save *)
| hist_save d s done : history d (Some s) done -> history (save num s d) (Some s) (s :: done)
(** the program dies: during a save, after j of its 8 openings and closings of files, or (j = 0) at any other moment *)
| hist_die d s done j : history d (Some s) done -> (j < 8)%nat -> history (run_steps (firstn j (save_steps num s)) d) None done
(** it is started again *)
| hist_restart d s done : history d None done -> restores teq master d s -> history d (Some s) done.
End H.
