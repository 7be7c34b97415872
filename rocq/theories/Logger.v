(** Model of sopht_mpi/utils/mpi_logger.py (MPILogger) on one rank.

    Python's logging module keeps one logger object per name; all MPILogger
    objects of a rank share the logger "rank[i]" (83), hence its level and its
    list of handlers.  Handlers are identified by numbers; formatting,
    files and time stamps are in LogFile.v. *)
From Verif Require Import Base.
Open Scope Z_scope.

(** A handler: its identity and level. *)
Definition handler := (nat * Z)%type.
(** The shared logger. *)
Record registry := { rlevel : Z; handlers : list handler; next_id : nat }.
Definition registry_init : registry := {| rlevel := 0; handlers := []; next_id := 0 |}.
(** An MPILogger object, 64-83. *)
Record mpilogger := { echo : list Z; level : Z; verbose : bool }.

Definition handler_eqb (a b : handler) : bool := (fst a =? fst b)%nat.
(** Logger.removeHandler: removes the handler object from the list. *)
Fixpoint remove_handler (h : handler) (l : list handler) : list handler :=
  match l with [] => [] | h' :: l' => if handler_eqb h h' then l' else h' :: remove_handler h l' end.
(** `for handler in self.logger.handlers: self.logger.removeHandler(handler)`,
    116-118: the list is iterated by position while elements are removed from it.
    [fuel] bounds the number of iterations (the length of the list suffices). *)
Fixpoint remove_loop (fuel i : nat) (l : list handler) : list handler :=
  match fuel with
  | O => l
  | S fuel' => match nth_error l i with Some h => remove_loop fuel' (S i) (remove_handler h l) | None => l end
  end.
Definition remove_and_close_all_handlers (R : registry) : registry :=
  {| rlevel := rlevel R; handlers := remove_loop (length (handlers R)) 0 (handlers R); next_id := next_id R |}.
Definition add_handler (lev : Z) (R : registry) : registry :=
  {| rlevel := rlevel R; handlers := handlers R ++ [(next_id R, lev)]; next_id := S (next_id R) |}.

(** MPILogger(level, echo_rank), 64-106 *)
Definition new_logger (rank : Z) (lev : Z) (ech : list Z) (R : registry) : mpilogger * registry :=
  ({| echo := ech; level := lev; verbose := match ech with [] => true | _ => existsb (Z.eqb rank) ech end |},
   add_handler lev (remove_and_close_all_handlers {| rlevel := lev; handlers := handlers R; next_id := next_id R |})).
(** enable_write_to_logfile, 120-134 *)
Definition enable_logfile (L : mpilogger) (R : registry) : registry := add_handler (level L) R.
(** debug/info/warning/error/critical (severity 10..50), 136-154: the handlers that emit the message. *)
Definition log (L : mpilogger) (R : registry) (severity : Z) : list nat :=
  if verbose L then
    if rlevel R <=? severity then map fst (filter (fun h => snd h <=? severity) (handlers R)) else []
  else [].

(** Histories of one rank's program; logger objects are numbered in order of creation. *)
Inductive event := ENew (lev : Z) (ech : list Z) | EFile (k : nat) | ELog (k : nat) (severity : Z) | ERemove.
Record world := { objs : list mpilogger; reg : registry; emitted : list (nat * list nat) }.
Definition world_init : world := {| objs := []; reg := registry_init; emitted := [] |}.
Definition step (rank : Z) (w : world) (e : event) : world :=
  match e with
  | ENew lev ech => let (L, R) := new_logger rank lev ech (reg w) in {| objs := objs w ++ [L]; reg := R; emitted := emitted w |}
  | EFile k => match nth_error (objs w) k with Some L => {| objs := objs w; reg := enable_logfile L (reg w); emitted := emitted w |} | None => w end
  | ELog k s => match nth_error (objs w) k with Some L => {| objs := objs w; reg := reg w; emitted := emitted w ++ [(k, log L (reg w) s)] |} | None => w end
  | ERemove => {| objs := objs w; reg := remove_and_close_all_handlers (reg w); emitted := emitted w |}
  end.
Definition history (rank : Z) (es : list event) : world := fold_left (step rank) es world_init.
