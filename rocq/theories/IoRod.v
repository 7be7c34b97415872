(** Model of CosseratRodMPIIO, sopht_mpi/utils/mpi_io.py 752-792.

    The rod belongs to PyElastica: its position_collection (3 x (n+1)) and
    radius (n) are arrays [pos] and [rad] here, changed by anybody between the
    calls; the element positions (dim x n) are the class's own array [elt]. *)
From Coq Require Import String.
From Verif Require Import Base SpecGrid SpecIO Comm IoLag.
Open Scope Z_scope.
Open Scope list_scope.

Section R.
Context {T : Type}.
(** addition, and multiplication by 0.5 *)
Variables (add : T -> T -> T) (half : T -> T).
(** dim; rod.n_elems; master_rank; the arrays *)
Variables (dim n master : Z) (pos rad elt : nat).

(** super().__init__ and add_as_lagrangian_fields_for_io(...), 767-782 *)
Definition rod_add : ladd :=
  {| la_name := Some "rod"%string; la_master := master; la_grid := elt; la_n := n; la_connect := true; la_fields := [("scalar_3d"%string, (rad, [n]))] |}.
Definition rod_io : option lio := add_all dim [rod_add] lio_init.

(** _update_rod_element_position, 788-792: elt[...] = 0.5 * (pos[:dim, 1:] + pos[:dim, :-1]).
    Row c, column i of an array with k columns is at c * k + i. *)
Definition in_elt (o : Z) : bool := (0 <=? o) && (o <? dim * n).
Definition update_elements (m : mem T) : mem T := fun p =>
  let '(r, (a, o)) := p in
  if (a =? elt)%nat && in_elt o then
    let c := o / n in let i := o mod n in
    half (add (m (r, (pos, c * (n + 1) + (i + 1)))) (m (r, (pos, c * (n + 1) + i))))
  else m p.

(** What happens to the program's memory between construction and exit: the
    rod's positions and radii change (its own time stepping); something else
    changes (other arrays, or the element positions, e.g. by load); save. *)
Inductive rod_event :=
| RMove (p : Z -> nat * Z -> T)  (* new contents of every array except elt *)
| RLoad (e : Z -> Z -> T)        (* new contents of elt *)
| RSave (time : T).

Definition rod_step (m : mem T) (e : rod_event) : mem T :=
  match e with
  | RMove p => fun q => let '(r, (a, o)) := q in if (a =? elt)%nat then m q else p r (a, o)
  | RLoad e => fun q => let '(r, (a, o)) := q in if (a =? elt)%nat then e r o else m q
  | RSave _ => update_elements m
  end.
(** The memory from which the k-th save wrote, and its time: save (784-786)
    updates the element positions, then _save. *)
Fixpoint saves (m : mem T) (es : list rod_event) : list (T * mem T) :=
  match es with
  | [] => []
  | RSave t :: es' => (t, rod_step m (RSave t)) :: saves (rod_step m (RSave t)) es'
  | e :: es' => saves (rod_step m e) es'
  end.
End R.
