(** What "saved" and "loaded" mean for all the ranks of a simulator (C56). *)
From Coq Require Import Permutation.
From Verif Require Import Base SpecGrid Comm IoEul.
Open Scope Z_scope.

Section S.
Context {T P : Type}.
(** F is the file left by a save of memory m: the ranks' writes have happened, in some order. *)
Definition saved_as (dims loc : list Z) (g : Z) (fs : list efield) (params : P) (m : mem T) (F : efile T P) : Prop :=
  exists ws, Permutation ws (all_writes dims loc g fs m) /\ F = saved fs params ws.
(** Every rank has loaded F: m0 is the memory before, m' the memory after. *)
Definition loaded_as (fill : T) (close : P -> P -> bool) (dims loc : list Z) (g : Z) (fs : list efield) (params : P) (F : efile T P) (m0 m' : mem T) : Prop :=
  forall r, 0 <= r < zprod dims -> load_rank fill close dims loc g fs params F r (fun a => m0 (r, a)) = Loaded (fun a => m' (r, a)).
End S.
