(** Specification vocabulary for files. *)
From Coq Require Import String Permutation.
From Verif Require Import Base SpecGrid.
Open Scope Z_scope.
Open Scope list_scope.

(** All cells of a grid with extents N. *)
Definition all_cells (N : list Z) : list (list Z) := box (map (fun _ => 0) N) N.

(** Performing a list of assignments, first to last. *)
Section W.
Context {K V : Type}.
Variable eqb : K -> K -> bool.
Definition assign1 (f : K -> V) (w : K * V) : K -> V := fun k => if eqb k (fst w) then snd w else f k.
Definition assign (ws : list (K * V)) (f : K -> V) : K -> V := fold_left assign1 ws f.
End W.
