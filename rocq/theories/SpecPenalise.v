(** Specification of the boundary penalisation (sponge) on the global grid. *)
From Verif Require Import Base SpecGrid.

(** Replace component a. *)
Fixpoint setn (P : list Z) (a : nat) (v : Z) : list Z :=
  match P, a with
  | [], _ => []
  | _ :: P', O => v :: P'
  | p :: P', S a' => p :: setn P' a' v
  end.

Section S.
Context {T C : Type}.
(** [damp a b v]: the value v damped according to the distance from
    coordinate a to coordinate b (v * sin(prefactor * (b - a))). *)
Variables (damp : C -> C -> T -> T) (coord : nat -> Z -> C) (N : list Z) (w : Z).

(** Low side along axis a: the first w cells (and whatever lies before them)
    take the value of cell w-1, damped by the distance to cell 0. *)
Definition sponge_front (a : nat) (u : list Z -> T) : list Z -> T := fun P =>
  if nth a P 0 <? w then damp (coord a 0) (coord a (nth a P 0)) (u (setn P a (w - 1))) else u P.
(** High side: the last w cells take the value of cell N-w, damped by the distance to cell N-1. *)
Definition sponge_back (a : nat) (u : list Z -> T) : list Z -> T := fun P =>
  if nth a N 0 - w <=? nth a P 0 then damp (coord a (nth a P 0)) (coord a (nth a N 0 - 1)) (u (setn P a (nth a N 0 - w))) else u P.

(** All sides, axis after axis; nothing in a periodic domain or with width 0. *)
Definition sponge (per : bool) (axes : list nat) (u : list Z -> T) : list Z -> T :=
  if per || (w =? 0) then u else fold_left (fun u a => sponge_back a (sponge_front a u)) axes u.
End S.

(** Apply an operation to the arrays [flds]. *)
Definition on_fields {T : Type} (flds : list nat) (h : (list Z -> T) -> list Z -> T) (u : nat -> list Z -> T) : nat -> list Z -> T :=
  fun f => if in_dec Nat.eq_dec f flds then h (u f) else u f.

(** The local coordinate arrays xg (ghosts included) are those of the global coordinates. *)
Definition coords_ok {C : Type} (dims loc : list Z) (g : Z) (xg : Z -> nat -> Z -> C) (coord : nat -> Z -> C) : Prop :=
  forall r a i, 0 <= r < zprod dims -> (a < length loc)%nat -> 0 <= i < nth a loc 0 + 2 * g ->
    xg r a i = coord a (nth a (block_start dims loc r) 0 + (i - g)).
