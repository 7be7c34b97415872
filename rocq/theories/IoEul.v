(** Model of Eulerian save and load, sopht_mpi/utils/mpi_io.py (MPIIO).

    Simplifications: the dataset's leading axis of extent 1 is dropped (reshape
    to (1, ...) keeps the row-major order); dtype checks are not modelled; the
    XDMF text files are in Xdmf.v; h5py/HDF5 is a map from dataset name and position to
    value, and the writes of the ranks may be performed in any order; a
    selection that leaves the dataset reads [fill]. *)
From Coq Require Import String Ascii.
From Verif Require Import Base SpecGrid SpecIO Comm.
Open Scope Z_scope.
Open Scope list_scope.

(** An entry of eulerian_fields / eulerian_fields_type: a name, and the array
    (id) of the scalar field or of each component of the vector field. *)
Inductive efield := EScalar (name : string) (arr : nat) | EVector (name : string) (arrs : list nat).
Definition ename (f : efield) : string := match f with EScalar n _ => n | EVector n _ => n end.

(** The dictionary assignment self.eulerian_fields[name] = ...: a name already
    present keeps its place and gets the new value.  line 143 *)
Fixpoint dict_set (f : efield) (d : list efield) : list efield :=
  match d with
  | [] => [f]
  | f' :: d' => if (ename f' =? ename f)%string then f :: d' else f' :: dict_set f d'
  end.

(** add_as_eulerian_fields_for_io, one keyword argument, 135-154: the shape
    decides the type; an unknown shape raises (None).  [arrs] are the arrays of
    the components (one for a scalar). *)
Definition add_eulerian (loc : list Z) (g : Z) (d : list efield) (name : string) (shape : list Z) (arrs : list nat) : option (list efield) :=
  if list_eq_dec Z.eq_dec shape (ghosted g loc) then Some (dict_set (EScalar name (hd 0%nat arrs)) d)
  else if list_eq_dec Z.eq_dec shape (Z.of_nat (length loc) :: ghosted g loc) then Some (dict_set (EVector name arrs) d)
  else None.

(** A sequence of keyword arguments / calls of add_as_eulerian_fields_for_io, 135-154. *)
Fixpoint add_eulerian_all (loc : list Z) (g : Z) (d : list efield) (adds : list (string * list Z * list nat)) : option (list efield) :=
  match adds with
  | [] => Some d
  | (name, shape, arrs) :: adds' => match add_eulerian loc g d name shape arrs with Some d' => add_eulerian_all loc g d' adds' | None => None end
  end.
(** Each call passes as many component arrays as its shape says (true of every numpy array). *)
Definition add_consistent (loc : list Z) (a : string * list Z * list nat) : Prop :=
  let '(_, shape, arrs) := a in length shape = S (length loc) -> Z.of_nat (length arrs) = hd 0 shape.
(** The arrays of an entry; two entries with the same name, type and number of components. *)
Definition arrays_of (f : efield) : list nat := match f with EScalar _ a => [a] | EVector _ l => l end.
Definition same_field (f f' : efield) : Prop :=
  match f, f' with EScalar n _, EScalar n' _ => n = n' | EVector n l, EVector n' l' => n = n' /\ length l = length l' | _, _ => False end.

(** Dataset names: group Scalar or Vector, and "name" or "name_i".  308-337 *)
Inductive dkey := DScalar (name : string) | DVector (name : string).
(** f"{i}" for i < 10 (grid_dim is 2 or 3) *)
Definition digit (i : nat) : string := String (ascii_of_nat (48 + i)) EmptyString.
Definition component_name (name : string) (i : nat) : string := (name ++ "_" ++ digit i)%string.
Fixpoint components (name : string) (i : nat) (arrs : list nat) : list (dkey * nat) :=
  match arrs with [] => [] | a :: arrs' => (DVector (component_name name i), a) :: components name (S i) arrs' end.
Definition datasets (f : efield) : list (dkey * nat) :=
  match f with EScalar n a => [(DScalar n, a)] | EVector n arrs => components n 0 arrs end.
Definition all_datasets (fs : list efield) : list (dkey * nat) := flat_map datasets fs.

Definition dkey_eqb (a b : dkey) : bool :=
  match a, b with DScalar x, DScalar y => (x =? y)%string | DVector x, DVector y => (x =? y)%string | _, _ => false end.
Definition cell_eqb (a b : list Z) : bool := if list_eq_dec Z.eq_dec a b then true else false.
Definition slot_eqb (a b : dkey * list Z) : bool := dkey_eqb (fst a) (fst b) && cell_eqb (snd a) (snd b).
Definition place_eqb (a b : nat * Z) : bool := (fst a =? fst b)%nat && (snd a =? snd b).

(** self.local_eulerian_index, 89-105: the slices [coords * n, (coords + 1) * n). *)
Definition substart (dims loc : list Z) (r : Z) : list Z := vmul (unravel dims r) loc.
Definition subend (dims loc : list Z) (r : Z) : list Z := vmul (map (fun c => c + 1) (unravel dims r)) loc.
Definition chunk_cells (dims loc : list Z) (r : Z) : list (list Z) :=
  box (substart dims loc r) (vsub (subend dims loc r) (substart dims loc r)).
(** eulerian_field_inner_index, 113-119: everything for ghost size 0, else
    [g, -g) on every axis of the ghosted array. *)
Definition inner_cells_io (loc : list Z) (g : Z) : list (list Z) :=
  if g =? 0 then box (map (fun _ => 0) loc) (ghosted g loc)
  else box (map (fun _ => g) loc) (map (fun e => (e - g) - g) (ghosted g loc)).

Section E.
Context {T P : Type}.

(** A file: which datasets exist, their (possibly never written) elements, and
    the saved parameters (origin, dx, grid_size). *)
Record efile := { f_keys : list dkey; f_data : dkey * list Z -> option T; f_params : P }.

(** dset[self.local_eulerian_index] = field[inner] on rank r, for every dataset in turn.  306-337 *)
Definition rank_writes (dims loc : list Z) (g : Z) (fs : list efield) (m : mem T) (r : Z) : list ((dkey * list Z) * option T) :=
  flat_map (fun ka => map (fun pq => ((fst ka, fst pq), Some (m (r, (snd ka, ravel (ghosted g loc) (snd pq))))))
     (combine (chunk_cells dims loc r) (inner_cells_io loc g))) (all_datasets fs).
Definition all_writes (dims loc : list Z) (g : Z) (fs : list efield) (m : mem T) : list ((dkey * list Z) * option T) :=
  flat_map (rank_writes dims loc g fs m) (zrange 0 (zprod dims)).

(** create_dataset raises if the name exists already.  310, 328 *)
Definition creates_fresh (fs : list efield) : Prop := NoDup (map fst (all_datasets fs)).

(** The file after save when the writes happened in the order [ws]. *)
Definition saved (fs : list efield) (params : P) (ws : list ((dkey * list Z) * option T)) : efile :=
  {| f_keys := map fst (all_datasets fs); f_data := assign slot_eqb ws (fun _ => None); f_params := params |}.

(** load on one rank, 452-489: field after field, each dataset must exist (else
    raise); the parameters are compared last ([close] is assert_allclose). *)
Inductive outcome := Loaded (m : nat * Z -> T) | Raised (m : nat * Z -> T).
Definition dataset_reads (fill : T) (dims loc : list Z) (g : Z) (F : efile) (r : Z) (ka : dkey * nat) : list ((nat * Z) * T) :=
  map (fun pq => ((snd ka, ravel (ghosted g loc) (snd pq)), match f_data F (fst ka, fst pq) with Some v => v | None => fill end))
    (combine (chunk_cells dims loc r) (inner_cells_io loc g)).
Fixpoint load_datasets (fill : T) (dims loc : list Z) (g : Z) (F : efile) (r : Z) (l : list (dkey * nat)) (m : nat * Z -> T) : outcome :=
  match l with
  | [] => Loaded m
  | ka :: l' => if existsb (dkey_eqb (fst ka)) (f_keys F)
      then load_datasets fill dims loc g F r l' (assign place_eqb (dataset_reads fill dims loc g F r ka) m)
      else Raised m
  end.
Definition load_rank (fill : T) (close : P -> P -> bool) (dims loc : list Z) (g : Z) (fs : list efield) (params : P) (F : efile) (r : Z) (m : nat * Z -> T) : outcome :=
  match load_datasets fill dims loc g F r (all_datasets fs) m with
  | Loaded m' => if close params (f_params F) then Loaded m' else Raised m'
  | Raised m' => Raised m'
  end.
End E.
Arguments efile : clear implicits.
Arguments outcome : clear implicits.
