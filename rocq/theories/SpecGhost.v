(** Specification of ghost exchange, for any number of axes. *)
From Verif Require Import Base SpecGrid Comm.

Section SpecGhost.
Context {T : Type}.

(** Value of array f on rank r at multi-index I of an array of extents [sizes]. *)
Definition field (m : mem T) (sizes : list Z) (r : Z) (f : nat) (I : list Z) : T :=
  m (r, (f, ravel sizes I)).

(** Number of axes along which ghosted index I is in the ghost layer. *)
Fixpoint ghost_axes (g : Z) (loc I : list Z) : nat :=
  match loc, I with
  | n :: loc', i :: I' =>
      Nat.add (if (i <? g) || (g + n <=? i) then 1%nat else 0%nat) (ghost_axes g loc' I')
  | _, _ => 0%nat
  end.

(** Value that cell I of array f on rank r must have after an exchange that
    covers it, in terms of the memory m before it: the owner's value if the
    position has an owner, the old value otherwise. *)
Definition refreshed (m : mem T) (per : bool) (dims loc : list Z) (g : Z) (r : Z) (f : nat) (I : list Z) : T :=
  match owner per dims loc (ghost_pos dims loc g r I) with
  | Some (s, x) => field m (ghosted g loc) s f (map (fun i => i + g) x)
  | None => field m (ghosted g loc) r f I
  end.

(** Full exchange of the arrays F: every cell refreshed; nothing else changes. *)
Definition full_exchanged (per : bool) (dims loc : list Z) (g : Z) (F : list nat) (m m' : mem T) : Prop :=
  forall r f I, 0 <= r < zprod dims -> inb (ghosted g loc) I ->
    field m' (ghosted g loc) r f I =
    if in_dec Nat.eq_dec f F then refreshed m per dims loc g r f I
    else field m (ghosted g loc) r f I.

(** Face-only exchange: cells that are in the ghost layer along two or more
    axes keep their value. *)
Definition face_exchanged (per : bool) (dims loc : list Z) (g : Z) (F : list nat) (m m' : mem T) : Prop :=
  forall r f I, 0 <= r < zprod dims -> inb (ghosted g loc) I ->
    field m' (ghosted g loc) r f I =
    if in_dec Nat.eq_dec f F then
      if (ghost_axes g loc I <=? 1)%nat then refreshed m per dims loc g r f I
      else field m (ghosted g loc) r f I
    else field m (ghosted g loc) r f I.
End SpecGhost.
