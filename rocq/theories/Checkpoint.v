(** Model of the checkpoints of the example that can be restarted:
    examples/3d_examples/FlowPastFreelyRotatingRodCase/flow_past_freely_rotating_rod_case.py:212-249 (restart), 254-293 (saving).
    A checkpoint consists of three HDF5 files, whose names contain the number of the checkpoint, and PyElastica's state, which has one name.
    A file that was being written when the program died is Broken: reading it raises. *)
From Verif Require Import Base.
Open Scope Z_scope.

Inductive file (X : Type) := Absent | Broken | Whole (x : X).
Arguments Absent {X}. Arguments Broken {X}. Arguments Whole {X} x.

Section C.
(** Times (flow_sim.time), and what the four files hold: flow (vorticity, velocity), rod, forcing grid (mismatches), PyElastica's simulator. *)
Context {Time F R G E : Type}.
Variables (teq : Time -> Time -> bool) (num : Time -> Z).

Record sim := { now : Time; flow : F; rod : R; grid : G; ela : E }.
(** [names]: the numbers of the files "flow_*.h5" (os.listdir). *)
Record disk := { names : list Z; d_flow : Z -> file (Time * F); d_rod : Z -> file (Time * R); d_grid : Z -> file (Time * G); d_ela : file (Time * E) }.
Definition put {X} (f : Z -> X) (k : Z) (x : X) (j : Z) : X := if j =? k then x else f j.

(** 266-292: every file is opened (truncated) and closed before the next; the number is "%0.5d" % (time * 100). *)
Definition open_flow s d := {| names := num (now s) :: names d; d_flow := put (d_flow d) (num (now s)) Broken; d_rod := d_rod d; d_grid := d_grid d; d_ela := d_ela d |}.
Definition close_flow s d := {| names := names d; d_flow := put (d_flow d) (num (now s)) (Whole (now s, flow s)); d_rod := d_rod d; d_grid := d_grid d; d_ela := d_ela d |}.
Definition open_rod s d := {| names := names d; d_flow := d_flow d; d_rod := put (d_rod d) (num (now s)) Broken; d_grid := d_grid d; d_ela := d_ela d |}.
Definition close_rod s d := {| names := names d; d_flow := d_flow d; d_rod := put (d_rod d) (num (now s)) (Whole (now s, rod s)); d_grid := d_grid d; d_ela := d_ela d |}.
Definition open_grid s d := {| names := names d; d_flow := d_flow d; d_rod := d_rod d; d_grid := put (d_grid d) (num (now s)) Broken; d_ela := d_ela d |}.
Definition close_grid s d := {| names := names d; d_flow := d_flow d; d_rod := d_rod d; d_grid := put (d_grid d) (num (now s)) (Whole (now s, grid s)); d_ela := d_ela d |}.
(** 288-292: on the master rank. *)
Definition open_ela (s : sim) d := {| names := names d; d_flow := d_flow d; d_rod := d_rod d; d_grid := d_grid d; d_ela := Broken |}.
Definition close_ela s d := {| names := names d; d_flow := d_flow d; d_rod := d_rod d; d_grid := d_grid d; d_ela := Whole (now s, ela s) |}.
Definition save_steps (s : sim) : list (disk -> disk) := [open_flow s; close_flow s; open_rod s; close_rod s; open_grid s; close_grid s; open_ela s; close_ela s].
Definition run_steps (l : list (disk -> disk)) (d : disk) : disk := fold_left (fun d f => f d) l d.
Definition save (s : sim) (d : disk) : disk := run_steps (save_steps s) d.

(** 214-228.  What a rank does: it raises, or it goes on with the loaded state (only the master loads PyElastica's). *)
Inductive restarted := Raises | Goes_on (t : Time) (f : F) (r : R) (g : G) (e : option E).
Definition latest (l : list Z) : option Z := match l with [] => None | k :: l' => Some (fold_left Z.max l' k) end.
Definition restart (master r : Z) (d : disk) : restarted :=
  match latest (names d) with
  | None => Raises
  | Some k =>
      match d_flow d k, d_rod d k, d_grid d k with
      | Whole (t, f), Whole (_, b), Whole (_, g) =>
          if r =? master then match d_ela d with Whole (te, e) => if teq t te then Goes_on t f b g (Some e) else Raises | _ => Raises end
          else Goes_on t f b g None
      | _, _, _ => Raises
      end
  end.
(** The program goes on if the master does; it then has the state s. *)
Definition restores (master : Z) (d : disk) (s : sim) : Prop := restart master master d = Goes_on (now s) (flow s) (rod s) (grid s) (Some (ela s)).
Definition refuses (master : Z) (d : disk) : Prop := restart master master d = Raises.
End C.
Arguments sim : clear implicits. Arguments disk : clear implicits. Arguments restarted : clear implicits.
