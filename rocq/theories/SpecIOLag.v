(** Specification of Lagrangian restart, in terms of the add calls only. *)
From Coq Require Import String.
From Verif Require Import Base SpecGrid Comm IoLag.
Open Scope Z_scope.
Open Scope list_scope.

(** The names the calls give their grids. *)
Fixpoint labels (count : nat) (adds : list ladd) : list string :=
  match adds with
  | [] => []
  | a :: adds' => grid_label count (la_name a) :: labels (match la_name a with None => S count | Some _ => count end) adds'
  end.
Definition field_names (adds : list ladd) : list string := flat_map (fun a => map fst (la_fields a)) adds.
Definition arrays (adds : list ladd) : list nat := flat_map (fun a => la_grid a :: map (fun f => fst (snd f)) (la_fields a)) adds.

(** Each field is a scalar (N) or a vector (dim, N) with N <> dim. *)
Definition shapes_ok (dim : Z) (adds : list ladd) : Prop :=
  Forall (fun a => Forall (fun f => snd (snd f) = [la_n a] \/ (snd (snd f) = [dim; la_n a] /\ la_n a <> dim)) (la_fields a)) adds.

(** The restarting program makes the same calls, with its own arrays and
    possibly other master ranks. *)
Definition same_add (a a' : ladd) : Prop :=
  la_name a = la_name a' /\ la_n a = la_n a' /\ Forall2 (fun f f' => fst f = fst f' /\ snd (snd f) = snd (snd f')) (la_fields a) (la_fields a').

Section S.
Context {T : Type}.
(** Every grid and field array on the loading master equals the one on the saving master. *)
Definition lag_restored (dim : Z) (adds : list ladd) (m : mem T) (adds' : list ladd) (m0 m' : mem T) : Prop :=
  (forall a a', In (a, a') (combine adds adds') ->
     (forall o, 0 <= o < zprod [dim; la_n a] -> m' (la_master a', (la_grid a', o)) = m (la_master a, (la_grid a, o))) /\
     (forall f arr arr' shape o, In (f, (arr, shape)) (la_fields a) -> In (f, (arr', shape)) (la_fields a') -> 0 <= o < zprod shape ->
        m' (la_master a', (arr', o)) = m (la_master a, (arr, o)))) /\
  (forall r b i, (forall a', In a' adds' -> la_master a' = r -> b <> la_grid a' /\ ~ In b (map (fun f => fst (snd f)) (la_fields a'))) ->
     m' (r, (b, i)) = m0 (r, (b, i))).
End S.
