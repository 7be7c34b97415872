(** How often a cell is updated, and with which values. *)
From Verif Require Import Base SpecGrid SpecGhost Comm.

(** To how many ends of a block axis of n cells is cell x nearer than ks? *)
Definition near_ends (ks n x : Z) : nat := Nat.add (if x <? ks then 1%nat else 0%nat) (if n - ks <=? x then 1%nat else 0%nat).
(** Number of updates: look at the axes from the last one (x) to the first one;
    on the first axis with an end nearer than ks, the number of such ends; once
    if there is no such axis.  The lists are given last axis first. *)
Fixpoint updates_rev (ks : Z) (loc x : list Z) : nat :=
  match loc, x with
  | n :: loc', i :: x' => match near_ends ks n i with O => updates_rev ks loc' x' | c => c end
  | _, _ => 1%nat
  end.
Definition updates (ks : Z) (loc x : list Z) : nat := updates_rev ks (rev loc) (rev x).

Section S.
Context {T : Type}.
(** The value used for the cell at offset d from inner cell x of rank r: the
    owner's value of that position if it is in the domain (wrapped if periodic),
    otherwise what rank r's own ghost cell contained before the call. *)
Definition seen (m : mem T) (per : bool) (dims loc : list Z) (g r : Z) (x : list Z) (f : nat) (d : list Z) : T :=
  match owner per dims loc (vadd (vadd (block_start dims loc r) x) d) with
  | Some (s, y) => field m (ghosted g loc) s f (map (fun i => i + g) y)
  | None => field m (ghosted g loc) r f (map (fun i => i + g) (vadd x d))
  end.

Record added_exactly (per : bool) (dims loc : list Z) (g ks : Z) (F : list nat)
    (k : list (nat * ((nat -> list Z -> T) -> T -> T))) (m m' : mem T) : Prop := {
  ae_value : forall r x o K, 0 <= r < zprod dims -> inb loc x -> In (o, K) k ->
    field m' (ghosted g loc) r o (map (fun i => i + g) x) =
    Nat.iter (updates ks loc x) (K (seen m per dims loc g r x)) (field m (ghosted g loc) r o (map (fun i => i + g) x));
  ae_inner : forall r f x, 0 <= r < zprod dims -> inb loc x -> ~ In f (map fst k) ->
    field m' (ghosted g loc) r f (map (fun i => i + g) x) = field m (ghosted g loc) r f (map (fun i => i + g) x);
  ae_frame : forall r f a, 0 <= r < zprod dims -> ~ In f (map fst k) -> ~ In f F -> m' (r, (f, a)) = m (r, (f, a)) }.
End S.
