(** Specification of the ghost summation. *)
From Verif Require Import Base SpecGrid SpecPenalise.

(** All the copies (rank, ghosted index) of the cell at global position P, over all ranks. *)
Definition cell_eqb (a b : list Z) : bool := if list_eq_dec Z.eq_dec a b then true else false.
Definition copies_of (dims loc : list Z) (g : Z) (P : list Z) : list (Z * list Z) :=
  filter (fun rI => cell_eqb (ghost_pos dims loc g (fst rI) (snd rI)) P)
    (list_prod (zrange 0 (zprod dims)) (box (map (fun _ => 0) loc) (ghosted g loc))).

(** Sum of a list. *)
Definition total {T} (add : T -> T -> T) (z : T) (l : list T) : T := fold_right add z l.

(** A commutative monoid. *)
Record comm_monoid {T} (add : T -> T -> T) (z : T) : Prop := {
  cm_comm : forall a b, add a b = add b a;
  cm_assoc : forall a b c, add a (add b c) = add (add a b) c;
  cm_zero : forall a, add a z = a }.
