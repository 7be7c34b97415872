(** Model of MPIFileHandler and the log file of sopht_mpi/utils/mpi_logger.py on all ranks. *)
From Coq Require Import Ascii String.
From Verif Require Import Base Logger SpecLogFile IoLag.
Open Scope Z_scope.

(** "rank[%i]" % self.rank, 83 *)
Definition rank_name (r : Z) : text := lit "rank[" ++ lit (decimal (Z.to_nat r)) ++ lit "]".
(** The format strings, 90-100; {levelname:<7} and {name:<7} are filled up with spaces. *)
Inductive piece := Lit (s : string) | LevelName7 | Name7 | Message.
Definition format_of (with_rank_id with_level_name : bool) : list piece :=
  if with_rank_id then
    if with_level_name then [Lit "[ "; LevelName7; Lit " ] ("; Name7; Lit ") :: "; Message] else [Lit "("; Name7; Lit ") :: "; Message]
  else if with_level_name then [Lit "[ "; LevelName7; Lit " ]  "; Message] else [Message].
Definition render (r : Z) (s : severity) (msg : text) (p : piece) : text :=
  match p with
  | Lit t => lit t
  | LevelName7 => level_name s ++ repeat " "%char (7 - length (level_name s))
  | Name7 => rank_name r ++ repeat " "%char (7 - length (rank_name r))
  | Message => msg
  end.
(** msg + self.terminator, encoded, 51-52 (characters are bytes). *)
Definition emit_bytes (o : bool * bool) (r : Z) (s : severity) (msg : text) : text := flat_map (render r s msg) (format_of (fst o) (snd o)) ++ [newline].

(** Files and shared file pointers: a collective MPI.File.Open makes one pointer for all ranks; handles are numbered as in Logger.v
    (the numbers are the same on all ranks: PropsLogFile). *)
Record files := { bytes : nat -> text; pointer : nat -> nat }.
(** Bytes b written at position p; a gap is filled with zero bytes. *)
Definition put (p : nat) (b f : text) : text := firstn p (f ++ repeat zero (p - length f)) ++ b ++ skipn (p + length b) f.
(** MPI.File.Open with MODE_APPEND, 17 and 28-31: the pointer starts at the end of the file. *)
Definition open_append (path : nat -> nat) (h : nat) (F : files) : files :=
  {| bytes := bytes F; pointer := fun k => if (k =? h)%nat then length (bytes F (path h)) else pointer F k |}.
(** Write_shared in atomic mode, 30 and 52: written at the pointer, which moves behind it; one at a time. *)
Definition write_shared (path : nat -> nat) (h : nat) (b : text) (F : files) : files :=
  {| bytes := fun k => if (k =? path h)%nat then put (pointer F h) b (bytes F k) else bytes F k;
     pointer := fun k => if (k =? h)%nat then (pointer F h + length b)%nat else pointer F k |}.

(** The handles opened by enable_write_to_logfile (121-134), with the logger object whose formatter they have (133). *)
Definition opened (rank : Z) (es : list event) : list (nat * nat) :=
  snd (fold_left (fun (wo : world * list (nat * nat)) e =>
    (step rank (fst wo) e,
     match e with
     | EFile k => match nth_error (objs (fst wo)) k with Some _ => snd wo ++ [(next_id (reg (fst wo)), k)] | None => snd wo end
     | _ => snd wo
     end)) es (world_init, [])).
(** The writes of one rank for some log calls made after es (136-154): every installed handler emits in turn; those with a file write. *)
Definition call_writes (opts : nat -> bool * bool) (rank : Z) (es : list event) (c : call) : list (nat * text) :=
  match nth_error (objs (history rank es)) (c_logger c) with
  | Some L => flat_map (fun h => match find (fun x => (fst x =? h)%nat) (opened rank es) with
                                 | Some (_, k) => [(h, emit_bytes (opts k) rank (c_severity c) (c_message c))]
                                 | None => []
                                 end) (log L (reg (history rank es)) (number (c_severity c)))
  | None => []
  end.
Definition rank_writes opts rank es (cs : list call) : list (nat * text) := flat_map (call_writes opts rank es) cs.

(** The ranks write, in any order among them. *)
Inductive writes (n : Z) (path : nat -> nat) : files -> (Z -> list (nat * text)) -> files -> (Z -> list (nat * text)) -> Prop :=
| w_stop F t : writes n path F t F t
| w_next F t r h b rest F' t' : 0 <= r < n -> t r = (h, b) :: rest ->
    writes n path (write_shared path h b F) (fun q => if q =? r then rest else t q) F' t' -> writes n path F t F' t'.

(** The name of the log file, 126-129: time.strftime("%Y%m%d-%H%M%S") of the rank's own clock. *)
Record clock := { year : nat; month : nat; day : nat; hour : nat; minute : nat; second : nat }.
Definition digit (k : nat) : ascii := ascii_of_nat (48 + k).
Definition two (k : nat) : text := [digit (k / 10); digit (k mod 10)].
Definition four (k : nat) : text := two (k / 100) ++ two (k mod 100).
Definition strftime (t : clock) : text := four (year t) ++ two (month t) ++ two (day t) ++ lit "-" ++ two (hour t) ++ two (minute t) ++ two (second t).
Definition log_filename (filename : text) (timestamp : bool) (t : clock) : text :=
  if timestamp then filename ++ lit "-" ++ strftime t ++ lit ".log" else filename ++ lit ".log".
