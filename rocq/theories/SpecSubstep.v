(** Dividing a time step into substeps, in exact arithmetic. *)
From Coq Require Import ZArith Reals.
Open Scope R_scope.

(** The largest number of equal substeps of a step f that are not shorter than r; one, if f itself is shorter. *)
Definition most_not_below (f r : R) (n : Z) : Prop :=
  (1 <= n)%Z /\ (forall k : Z, (1 <= k)%Z -> r <= f / IZR k -> (k <= n)%Z) /\ ((1 < n)%Z -> r <= f / IZR n).
