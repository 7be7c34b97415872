(** What a reader of a log file that all ranks write to expects. *)
From Coq Require Import Ascii String.
From Verif Require Import Base SpecLogger Logger.
Open Scope Z_scope.

Definition text := list ascii.
Definition lit (s : string) : text := list_ascii_of_string s.
Definition newline : ascii := "010"%char.

(** The five calls of the API. *)
Inductive severity := Debug | Info | Warning | Error | Critical.
Definition number (s : severity) : Z := match s with Debug => 10 | Info => 20 | Warning => 30 | Error => 40 | Critical => 50 end.
Definition level_name (s : severity) : text :=
  lit (match s with Debug => "DEBUG" | Info => "INFO" | Warning => "WARNING" | Error => "ERROR" | Critical => "CRITICAL" end).
(** A call: which logger object, severity, message. *)
Record call := { c_logger : nat; c_severity : severity; c_message : text }.

(** Does rank r write the call to a log file of level lev?  The logger called echoes on r, and the level is high enough. *)
Definition speaks (es : list event) (lev r : Z) (c : call) : bool :=
  match nth_error (created es) (c_logger c) with
  | Some (_, ech) => (match ech with [] => true | _ => existsb (Z.eqb r) ech end) && (latest_level es <=? number (c_severity c)) && (lev <=? number (c_severity c))
  | None => false
  end.

(** The ranks' lists in one list that keeps the order of each of them. *)
Definition shuffled {A} (n : Z) (ls : Z -> list A) (all : list (Z * A)) : Prop :=
  Forall (fun x => 0 <= fst x < n) all /\ forall r, 0 <= r < n -> map snd (filter (fun x => fst x =? r) all) = ls r.

(** Text filled up with spaces to 7 characters. *)
Definition padded (t : text) : text := t ++ repeat " "%char (7 - length t).
(** The line for a message of rank r, given the text of its name. *)
Definition log_line (with_rank_id with_level_name : bool) (name : text) (s : severity) (msg : text) : text :=
  (if with_level_name then lit "[ " ++ padded (level_name s) ++ lit " ] " else []) ++
  (if with_rank_id then lit "(" ++ padded name ++ lit ") :: " else if with_level_name then lit " " else []) ++ msg ++ [newline].
