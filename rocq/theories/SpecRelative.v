(** Sums of squares and norms in floating-point arithmetic. *)
From Coq Require Import Reals.
Open Scope R_scope.

(** Rounding with a relative error of at most eps (floating point without underflow or overflow). *)
Record relative_rounding (rnd : R -> R) (eps : R) : Prop := {
  rr_eps : 0 <= eps < 1;
  rr_idem : forall x, rnd (rnd x) = rnd x;
  rr_error : forall x, Rabs (rnd x - x) <= eps * Rabs x }.
(** x and y agree up to k roundings. *)
Definition close (eps : R) (k : nat) (x y : R) : Prop := (1 - eps) ^ k * y <= x /\ (1 - eps) ^ k * x <= y.
