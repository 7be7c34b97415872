(** Specification vocabulary for restarting a rod driver (C72): what two coupled simulations have in common. *)
From Coq Require Import QArith.
From Verif Require Import Base SpecGrid SpecVbf SpecCoupled SpecLoop.
Open Scope Z_scope.

Section S.
Context {T W : Type}.
Variables (N : list Z) (nc : Z) (nb : nat) (bodies : nat -> vbody T).
(** What a driver saves: the flow arrays [kept] in every cell, and the position mismatches of the bodies; the forcing too is the same
    (it has been used up when a driver saves). *)
Record as_saved (kept : list nat) (s s' : cstate T) : Prop := {
  as_flow : forall a P, In a kept -> inb N P -> cs_u s a P = cs_u s' a P;
  as_forcing : forall c P, 0 <= c < nc -> inb N P -> cs_f s c P = cs_f s' c P;
  as_mismatch : forall b c j, (b < nb)%nat -> 0 <= c < nc -> 0 <= j < v_count (bodies b) -> pm (cs_st s b) c j = pm (cs_st s' b) c j }.
(** All there is: all flow arrays, velocity mismatches and forces too. *)
Record in_all (all : list nat) (s s' : cstate T) : Prop := {
  ia_saved : as_saved all s s';
  ia_nodes : forall b c j, (b < nb)%nat -> 0 <= c < nc -> 0 <= j < v_count (bodies b) ->
    vm (cs_st s b) c j = vm (cs_st s' b) c j /\ fo (cs_st s b) c j = fo (cs_st s' b) c j }.
(** Each timer is the same in both, or due in both. *)
Definition timers_as (due : W -> W -> bool) (limits ts ts' : list W) : Prop :=
  Forall2 (fun lt lt' => lt = lt' \/ (due (fst lt) (snd lt) = true /\ due (fst lt') (snd lt') = true)) (combine limits ts) (combine limits ts').
End S.
(** The stages of the rod's step compute its loads at least once. *)
Definition stages_load {T F} (stages : T -> list (action T F)) : Prop := forall h, In (OLag 0) (stages h).
