(** Specification of gathering/scattering fields between the master's global
    arrays and every rank's ghosted local arrays. *)
From Verif Require Import Base SpecGrid Comm Blocking.

Section S.
Context {T : Type}.
Variables (dims loc : list Z) (g : Z) (master : Z).
(** [comps]: pairs (global array, local array), one per component. *)
Variable comps : list (nat * nat).

(** Value that global position p has in local array [lid] of its owner. *)
Definition owner_value (m : Z -> @lmem T) (lid : nat) (p : list Z) (v : T) : Prop :=
  exists s x, owner false dims loc p = Some (s, x) /\
    v = m s (lid, ravel (ghosted g loc) (map (fun i => i + g) x)).

(** After a gather: the master's global arrays hold, at every global
    position, the owner's inner value; nothing else changed anywhere. *)
Record gathered (m m' : Z -> @lmem T) : Prop := {
  g_values : forall gid lid p, In (gid, lid) comps -> inb (global_size dims loc) p ->
    owner_value m lid p (m' master (gid, ravel (global_size dims loc) p));
  g_others : forall r a, r <> master -> m' r a = m r a;
  g_rest : forall f i,
    ~ (In f (map fst comps) /\ exists p, inb (global_size dims loc) p /\ i = ravel (global_size dims loc) p) ->
    m' master (f, i) = m master (f, i) }.

(** After a scatter: every rank's inner cells hold the global values of
    their positions; ghost cells and everything else unchanged. *)
Record scattered (m m' : Z -> @lmem T) : Prop := {
  s_values : forall gid lid r I, In (gid, lid) comps -> 0 <= r < zprod dims -> inner g loc I ->
    m' r (lid, ravel (ghosted g loc) I) =
    m master (gid, ravel (global_size dims loc) (ghost_pos dims loc g r I));
  s_rest : forall r f i,
    ~ (0 <= r < zprod dims /\ In f (map snd comps) /\ exists I, inner g loc I /\ i = ravel (ghosted g loc) I) ->
    m' r (f, i) = m r (f, i) }.

(** Component arrays are distinct objects. *)
Record distinct_arrays : Prop := {
  da_g : NoDup (map fst comps); da_l : NoDup (map snd comps);
  da_gl : forall a, In a (map fst comps) -> ~ In a (map snd comps) }.
End S.

(** Effect of a sequence of gather (true) / scatter (false) calls. *)
Inductive calls_effect {T} (dims loc : list Z) (g master : Z) :
  list (bool * list (nat * nat)) -> (Z -> @lmem T) -> (Z -> @lmem T) -> Prop :=
| ce_nil m : calls_effect dims loc g master [] m m
| ce_gather comps calls m m1 m2 : gathered dims loc g master comps m m1 ->
    calls_effect dims loc g master calls m1 m2 -> calls_effect dims loc g master ((true, comps) :: calls) m m2
| ce_scatter comps calls m m1 m2 : scattered dims loc g master comps m m1 ->
    calls_effect dims loc g master calls m1 m2 -> calls_effect dims loc g master ((false, comps) :: calls) m m2.
