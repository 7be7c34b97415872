(** Double precision arithmetic (IEEE 754 binary64, round to nearest even; no overflow). *)
From Coq Require Import ZArith Reals.
From Flocq Require Import Core.
Open Scope R_scope.
(** The double nearest to x. *)
Definition b64 (x : R) : R := round radix2 (FLT_exp (-1074) 53) ZnearestE x.
Definition is_double (x : R) : Prop := generic_format radix2 (FLT_exp (-1074) 53) x.
