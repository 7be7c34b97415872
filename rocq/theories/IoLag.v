(** Model of Lagrangian save and load, sopht_mpi/utils/mpi_io.py (MPIIO), and of
    CosseratRodMPIIO.

    Simplifications: as in IoEul.v; the "Connection" dataset (node numbers
    0..N-1, used by ParaView only) is represented by its length; an assignment
    between an array and a dataset of different shapes raises (numpy
    broadcasting of smaller shapes is not modelled), for load already before
    anything is read; every rank's copy of the dictionaries is the same (the
    node count and the type are broadcast by the master, 218-222 and 262-265),
    so one copy is modelled. *)
From Coq Require Import String DecimalString.
From Verif Require Import Base SpecGrid SpecIO Comm.
Open Scope Z_scope.
Open Scope list_scope.

(** Python dictionaries with string keys: insertion order, one entry per key. *)
Section D.
Context {V : Type}.
Fixpoint dset (k : string) (v : V) (d : list (string * V)) : list (string * V) :=
  match d with [] => [(k, v)] | (k', v') :: d' => if (k' =? k)%string then (k, v) :: d' else (k', v') :: dset k v d' end.
Fixpoint dget (k : string) (d : list (string * V)) : option V :=
  match d with [] => None | (k', v') :: d' => if (k' =? k)%string then Some v' else dget k d' end.
End D.

Inductive ltype := TScalar | TVector.
(** Per grid: lagrangian_grid_master_rank, lagrangian_grids, lagrangian_grid_num_node,
    lagrangian_fields_with_grid_name (all keyed by the grid name). *)
Record lgrid := { gmaster : Z; garr : nat; gn : Z; gfields : list string }.
(** lagrangian_fields (array and shape), lagrangian_fields_type: keyed by the
    field name alone.  45-57 *)
Record lio := { grids : list (string * lgrid); lfields : list (string * (nat * list Z)); ltypes : list (string * ltype);
  conns : list (string * Z); gcount : nat }.
Definition lio_init : lio := {| grids := []; lfields := []; ltypes := []; conns := []; gcount := 0 |}.

(** One call of add_as_lagrangian_fields_for_io; the grid array has shape
    (dim, la_n); each field is a keyword name, array and shape. *)
Record ladd := { la_name : option string; la_master : Z; la_grid : nat; la_n : Z; la_connect : bool; la_fields : list (string * (nat * list Z)) }.

(** f"Lagrangian_grid_{count}", 206-208 *)
Definition decimal (n : nat) : string := NilEmpty.string_of_uint (Nat.to_uint n).
Definition grid_label (count : nat) (name : option string) : string :=
  match name with Some s => s | None => ("Lagrangian_grid_" ++ decimal count)%string end.

(** 250-261: the first extent is compared first. *)
Definition classify (dim n : Z) (shape : list Z) : option ltype :=
  match shape with
  | [] => None
  | s :: _ => if s =? n then Some TScalar else if list_eq_dec Z.eq_dec shape [dim; n] then Some TVector else None
  end.

Fixpoint add_fields (dim n : Z) (label : string) (fl : list (string * (nat * list Z))) (st : lio) : option lio :=
  match fl with
  | [] => Some st
  | (name, (arr, shape)) :: fl' =>
      match classify dim n shape with
      | None => None
      | Some ty => add_fields dim n label fl'
          {| grids := match dget label (grids st) with
                      | Some g => dset label {| gmaster := gmaster g; garr := garr g; gn := gn g; gfields := gfields g ++ [name] |} (grids st)
                      | None => grids st end;
             lfields := dset name (arr, shape) (lfields st); ltypes := dset name ty (ltypes st); conns := conns st; gcount := gcount st |}
      end
  end.
(** add_as_lagrangian_fields_for_io, 195-266 (None: raised) *)
Definition add_lagrangian (dim : Z) (st : lio) (a : ladd) : option lio :=
  let label := grid_label (gcount st) (la_name a) in
  add_fields dim (la_n a) label (la_fields a)
    {| grids := dset label {| gmaster := la_master a; garr := la_grid a; gn := la_n a; gfields := [] |} (grids st);
       lfields := lfields st; ltypes := ltypes st;
       conns := if la_connect a then dset label (la_n a) (conns st) else conns st;
       gcount := match la_name a with None => S (gcount st) | Some _ => gcount st end |}.
Fixpoint add_all (dim : Z) (adds : list ladd) (st : lio) : option lio :=
  match adds with [] => Some st | a :: adds' => match add_lagrangian dim st a with Some st' => add_all dim adds' st' | None => None end end.

(** Datasets: "Lagrangian/<grid>/Grid", ".../Scalar/<field>", ".../Vector/<field>". *)
Inductive lkey := KGrid (g : string) | KScalar (g f : string) | KVector (g f : string).
Definition lkey_eqb (a b : lkey) : bool :=
  match a, b with
  | KGrid x, KGrid y => (x =? y)%string
  | KScalar x f, KScalar y f' => (x =? y)%string && (f =? f')%string
  | KVector x f, KVector y f' => (x =? y)%string && (f =? f')%string
  | _, _ => false
  end.
Definition cell_eqb' (a b : list Z) : bool := if list_eq_dec Z.eq_dec a b then true else false.
Definition lslot_eqb (a b : lkey * list Z) : bool := lkey_eqb (fst a) (fst b) && cell_eqb' (snd a) (snd b).
Definition lplace_eqb (a b : nat * Z) : bool := (fst a =? fst b)%nat && (snd a =? snd b).

(** A dataset being written or read: on which rank, its name, the array, vector
    or scalar, number of nodes. *)
Record lentry := { le_rank : Z; le_key : lkey; le_arr : nat; le_vec : bool; le_n : Z }.

(** The fields of one grid, 389-424: looked up by name; a shape mismatch raises. *)
Fixpoint field_entries (dim : Z) (st : lio) (label : string) (g : lgrid) (names : list string) : option (list lentry) :=
  match names with
  | [] => Some []
  | f :: names' =>
      match dget f (lfields st), dget f (ltypes st), field_entries dim st label g names' with
      | Some (arr, shape), Some TScalar, Some l =>
          if list_eq_dec Z.eq_dec shape [gn g] then Some ({| le_rank := gmaster g; le_key := KScalar label f; le_arr := arr; le_vec := false; le_n := gn g |} :: l) else None
      | Some (arr, shape), Some TVector, Some l =>
          if list_eq_dec Z.eq_dec shape [dim; gn g] then Some ({| le_rank := gmaster g; le_key := KVector label f; le_arr := arr; le_vec := true; le_n := gn g |} :: l) else None
      | _, _, _ => None
      end
  end.
Fixpoint grid_entries (dim : Z) (st : lio) (gs : list (string * lgrid)) : option (list lentry) :=
  match gs with
  | [] => Some []
  | (label, g) :: gs' =>
      match field_entries dim st label g (gfields g), grid_entries dim st gs' with
      | Some l, Some l' => Some ({| le_rank := gmaster g; le_key := KGrid label; le_arr := garr g; le_vec := true; le_n := gn g |} :: l ++ l')
      | _, _ => None
      end
  end.
Definition entries (dim : Z) (st : lio) : option (list lentry) := grid_entries dim st (grids st).

(** Elements of the dataset with the offset of the element in the array: an
    array of shape (dim, N) is transposed to (N, dim).  376, 418 (save); 502, 540 (load) *)
Definition elements (dim : Z) (e : lentry) : list (list Z * Z) :=
  if le_vec e then map (fun ic => (ic, ravel [dim; le_n e] (rev ic))) (box [0; 0] [le_n e; dim])
  else map (fun i => ([i], i)) (zrange 0 (le_n e)).

Section L.
Context {T : Type}.
Record lfile := { l_keys : list (lkey * (bool * Z)); l_data : lkey * list Z -> option T; l_conns : list (string * Z); l_time : T }.

(** 371-424: only the rank owning the grid writes. *)
Definition lag_writes (dim : Z) (es : list lentry) (m : mem T) : list ((lkey * list Z) * option T) :=
  flat_map (fun e => map (fun po => ((le_key e, fst po), Some (m (le_rank e, (le_arr e, snd po))))) (elements dim e)) es.
(** create_dataset raises for an existing name. *)
Definition lag_fresh (es : list lentry) : Prop := NoDup (map le_key es).
Definition lag_saved (st : lio) (es : list lentry) (time : T) (ws : list ((lkey * list Z) * option T)) : lfile :=
  {| l_keys := map (fun e => (le_key e, (le_vec e, le_n e))) es; l_data := assign lslot_eqb ws (fun _ => None); l_conns := conns st; l_time := time |}.

(** load, 491-554, on rank r: None = raised *)
Definition entry_reads (fill : T) (dim : Z) (F : lfile) (e : lentry) : list ((nat * Z) * T) :=
  map (fun po => ((le_arr e, snd po), match l_data F (le_key e, fst po) with Some v => v | None => fill end)) (elements dim e).
Fixpoint load_entries (fill : T) (dim : Z) (F : lfile) (r : Z) (es : list lentry) (m : nat * Z -> T) : option (nat * Z -> T) :=
  match es with
  | [] => Some m
  | e :: es' =>
      if le_rank e =? r then
        if existsb (fun k => lkey_eqb (le_key e) (fst k) && eqb (le_vec e) (fst (snd k)) && (le_n e =? snd (snd k))) (l_keys F)
        then load_entries fill dim F r es' (assign lplace_eqb (entry_reads fill dim F e) m) else None
      else load_entries fill dim F r es' m
  end.
(** `if self.lagrangian_fields:` guards the whole Lagrangian part, 492 *)
Definition lag_load (fill : T) (dim : Z) (st : lio) (F : lfile) (r : Z) (m : nat * Z -> T) : option (nat * Z -> T) :=
  match lfields st with
  | [] => Some m
  | _ => match entries dim st with Some es => load_entries fill dim F r es m | None => None end
  end.
End L.
Arguments lfile : clear implicits.
