(** Specification of the passive transport simulators' time steps on the global grid. *)
From Verif Require Import Base SpecGrid SpecStencil SpecStep.

Section S.
Context {T : Type}.
Variables (add : T -> T -> T) (z : T) (per : bool) (N : list Z).

(** Advect the array, then diffuse the advected array. *)
Definition transported (fld : nat) (Ka Kd : (nat -> list Z -> T) -> T -> T) (u : nat -> list Z -> T) : nat -> list Z -> T :=
  euler_step per N add z true fld Kd (euler_step per N add z false fld Ka u).

(** A passive vector: each component is transported for itself, from the values before the step. *)
Definition transported_vector (comps : list nat) (Ka Kd : nat -> (nat -> list Z -> T) -> T -> T) (u : nat -> list Z -> T) : nat -> list Z -> T :=
  fun f P => if in_dec Nat.eq_dec f comps then transported f (Ka f) (Kd f) u f P else u f P.
End S.
