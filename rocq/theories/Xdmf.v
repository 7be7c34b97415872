(** Model of the XDMF description files that MPIIO writes next to the HDF5 file: generate_xdmf_eulerian
    (sopht_mpi/utils/mpi_io.py:556-650), generate_xdmf_lagrangian (652-749) and their calls in _save (346-348, 426-428).

    Simplifications: a description is the data in its text (shapes, references to data sets, origin, spacing), not the text;
    Precision and Time attributes are left out; writing a file is one step; the fields' types are looked up in the
    dictionaries, where a name is always present (add_as_lagrangian_fields_for_io). *)
From Coq Require Import String Ascii.
From Verif Require Import Base SpecGrid SpecIO Comm IoEul IoLag.
Open Scope Z_scope.
Open Scope list_scope.

(** A reference "file:/group/.../name" with its Dimensions attribute. *)
Inductive xkey := XEul (k : dkey) | XLag (k : lkey) | XConn (g : string).
Record xitem := { x_file : string; x_key : xkey; x_dims : list Z }.
(** Topology extents; polyline connection; origin and spacing with their declared number of values; data item of the node
    positions; fields. *)
Record xdoc (V : Type) := { x_topology : list Z; x_connect : option xitem; x_origin : Z * list V; x_spacing : Z * list V; x_points : option xitem; x_fields : list xitem }.
Arguments x_topology {V}. Arguments x_connect {V}. Arguments x_origin {V}. Arguments x_spacing {V}. Arguments x_points {V}. Arguments x_fields {V}.

(** Python's h5_file_name.replace(".h5", new): every occurrence, from the left. *)
Definition is_h5 (a b c : ascii) : bool := (a =? ".")%char && (b =? "h")%char && (c =? "5")%char.
Fixpoint replace_h5 (new s : string) : string :=
  match s with
  | EmptyString => EmptyString
  | String a s1 =>
      match s1 with
      | String b (String c s3) => if is_h5 a b c then (new ++ replace_h5 new s3)%string else String a (replace_h5 new s1)
      | _ => String a (replace_h5 new s1)
      end
  end.
Definition eul_xmf (h5 : string) : string := replace_h5 "_eulerian.xmf" h5.                          (* 649 *)
Definition lag_xmf (h5 label : string) : string := replace_h5 ("_" ++ label ++ ".xmf") h5.           (* 692 *)

Section X.
Context {V : Type}.
Variables (zero : V) (h5 : string) (dim : Z).

(** 575-586: in 2D a first axis of one cell, origin 0 and spacing 0 is inserted *)
Definition pad {A} (x : A) (l : list A) : list A := if dim =? 3 then l else x :: l.
(** generate_field_entry, 598-620 *)
Definition eul_items (N : list Z) (f : efield) : list xitem :=
  match f with
  | EScalar n _ => [{| x_file := h5; x_key := XEul (DScalar n); x_dims := pad 1 N |}]
  | EVector n _ => map (fun i => {| x_file := h5; x_key := XEul (DVector (component_name n i)); x_dims := pad 1 N |}) (seq 0 (Z.to_nat dim))
  end.
(** generate_xdmf_eulerian, 556-650 *)
Definition eul_doc (N : list Z) (origin dx : list V) (fs : list efield) : xdoc V :=
  {| x_topology := pad 1 N; x_connect := None; x_origin := (dim, pad zero origin); x_spacing := (dim, pad zero dx); x_points := None; x_fields := flat_map (eul_items N) fs |}.

(** generate_xdmf_lagrangian, 652-749, for one grid on rank r: [cols r a] is the number of columns of array a on rank r. *)
Variable cols : Z -> nat -> Z.
Definition lag_item (st : lio) (label : string) (n : Z) (f : string) : xitem :=
  match dget f (ltypes st) with
  | Some TVector => {| x_file := h5; x_key := XLag (KVector label f); x_dims := [n; dim] |}
  | _ => {| x_file := h5; x_key := XLag (KScalar label f); x_dims := [n] |}
  end.
Definition lag_doc (st : lio) (r : Z) (label : string) (g : lgrid) : xdoc V :=
  let n := cols r (garr g) in
  {| x_topology := [n];
     x_connect := match dget label (conns st) with Some _ => Some {| x_file := h5; x_key := XConn label; x_dims := [1; n] |} | None => None end;
     x_origin := (0, []); x_spacing := (0, []);
     x_points := Some {| x_file := h5; x_key := XLag (KGrid label); x_dims := [n; dim] |};
     x_fields := map (lag_item st label n) (gfields g) |}.
(** all the grids, whoever their master is, 690-691 *)
Definition lag_docs (st : lio) (r : Z) : list (string * xdoc V) := map (fun lg => (lag_xmf h5 (fst lg), lag_doc st r (fst lg) (snd lg))) (grids st).

(** Files written by rank r during a save: 346-348 (rank 0, if there are Eulerian fields), 426-428 (each grid's master, once per grid) *)
Definition rank_files (N : list Z) (origin dx : list V) (fs : list efield) (st : lio) (r : Z) : list (string * xdoc V) :=
  (if r =? 0 then match fs with [] => [] | _ => [(eul_xmf h5, eul_doc N origin dx fs)] end else []) ++
  flat_map (fun lg => if r =? gmaster (snd lg) then lag_docs st r else []) (grids st).
End X.
