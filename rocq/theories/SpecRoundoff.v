(** Sums in floating-point arithmetic. *)
From Coq Require Import Reals.
From Verif Require Import Base SpecGhostSum.
Open Scope R_scope.

(** The numbers of a format F; rnd rounds to it.  The sum of two numbers of the format is rounded with a relative error of at
    most eps.  (Binary64 without overflow: eps = 2^-53, also with subnormal numbers.) *)
Record rounded_sums (F : R -> Prop) (rnd : R -> R) (eps : R) : Prop := {
  rs_eps : 0 <= eps;
  rs_zero : F 0;
  rs_closed : forall x, F (rnd x);
  rs_exact : forall x, F x -> rnd x = x;
  rs_error : forall a b, F a -> F b -> Rabs (rnd (a + b) - (a + b)) <= eps * Rabs (a + b) }.

(** The exact sum of some terms, and the sum of their magnitudes. *)
Definition exact_sum (l : list R) : R := total Rplus 0 l.
Definition magnitude (l : list R) : R := total Rplus 0 (map Rabs l).
(** x is the sum of base and n terms l, in some order and some grouping, up to the rounding of n additions. *)
Definition sums_to (eps : R) (n : nat) (base : R) (l : list R) (x : R) : Prop :=
  Rabs (x - (base + exact_sum l)) <= ((1 + eps) ^ n - 1) * (Rabs base + magnitude l).
