(** Model of the file names of checkpoints: examples/3d_examples/FlowPastFreelyRotatingRodCase/flow_past_freely_rotating_rod_case.py:214-225
    (restart) and 270-286 (saving); sopht_mpi/utils/mpi_io.py:649 (names of the xdmf files).

    Simplifications: names are ASCII. python's int(text) also accepts white space around the digits, a sign, and single underscores between the digits (these
    cannot occur here, the name has been split at them): such names are not modelled (int_of gives None). *)
From Coq Require Import Ascii String Reals.
From Flocq Require Import Core.
From Verif Require Import Base SpecRounding SpecFileNames IoLag.
Open Scope list_scope.

(** "%0.5d" % k and f"{k:05d}", the same for k >= 0; 272, 277, 283 and 220-223 *)
Definition five (n : nat) : text := let d := lit (decimal n) in repeat "0"%char (5 - length d) ++ d.
Definition flow_name (n : nat) : text := lit "flow_" ++ five n ++ lit ".h5".
Definition rod_name (n : nat) : text := lit "rod_" ++ five n ++ lit ".h5".
Definition grid_name (dir : text) (n : nat) : text := dir ++ lit "/forcing_grid_" ++ five n ++ lit ".h5".
(** h5_file_name.replace(".h5", "_eulerian.xmf"), mpi_io.py:649 *)
Definition flow_xmf_name (n : nat) : text := lit "flow_" ++ five n ++ lit "_eulerian.xmf".
(** The number of a time: "%d" of a float truncates; 272.  Rounded to double precision. *)
Definition number_of_time (t : R) : Z := Ztrunc (b64 (t * 100)).

(** "..." in filename, 216 *)
Fixpoint starts (p f : text) : bool := match p, f with [], _ => true | c :: p, x :: f => Ascii.eqb c x && starts p f | _ :: _, [] => false end.
Fixpoint has (p f : text) : bool := starts p f || match f with [] => false | _ :: f' => has p f' end.
Definition wanted (f : text) : bool := has (lit "flow") f && has (lit "h5") f.
(** filename.split(c) *)
Fixpoint split (c : ascii) (f : text) : list text :=
  match f with
  | [] => [[]]
  | x :: f' => if Ascii.eqb x c then [] :: split c f' else match split c f' with w :: l => (x :: w) :: l | [] => [[x]] end
  end.
(** int(...); None: it raises *)
Definition digitb (c : ascii) : bool := (48 <=? nat_of_ascii c)%nat && (nat_of_ascii c <=? 57)%nat.
Definition int_of (t : text) : option nat := match t with [] => None | _ => if forallb digitb t then Some (value t) else None end.
(** int(filename.split("_")[-1].split(".")[0]), 217 *)
Definition number_of (f : text) : option nat := int_of (hd [] (split "."%char (last (split "_"%char f) []))).
(** for filename in os.listdir(): ...; latest = max(iter_num), 214-218.  None: it raises (max of an empty list, too). *)
Fixpoint numbers (files : list text) : option (list nat) :=
  match files with
  | [] => Some []
  | f :: l => if wanted f then match number_of f, numbers l with Some n, Some ns => Some (n :: ns) | _, _ => None end else numbers l
  end.
Definition latest (files : list text) : option nat := match numbers files with Some (n :: ns) => Some (fold_left Nat.max ns n) | _ => None end.
(** The files the restart opens, 220-224. *)
Definition opens (dir : text) (files : list text) : option (text * text * text) :=
  match latest files with Some n => Some (flow_name n, rod_name n, grid_name dir n) | None => None end.
