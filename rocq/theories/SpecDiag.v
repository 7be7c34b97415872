(** What the diagnostics of the flow simulators mean on the global grid. *)
From Coq Require Import Reals.
From Verif Require Import Base SpecGrid.
Open Scope Z_scope.

(** A total order with its smaller-of-two and larger-of-two operations. *)
Record ordered {T} (le : T -> T -> Prop) (mn mx : T -> T -> T) : Prop := {
  o_refl : forall a, le a a; o_trans : forall a b c, le a b -> le b c -> le a c; o_antisym : forall a b, le a b -> le b a -> a = b; o_total : forall a b, le a b \/ le b a;
  o_min : forall a b, (mn a b = a \/ mn a b = b) /\ le (mn a b) a /\ le (mn a b) b;
  o_max : forall a b, (mx a b = a \/ mx a b = b) /\ le a (mx a b) /\ le b (mx a b) }.
(** x is the maximum of F over the positions satisfying S. *)
Definition is_max {T} (le : T -> T -> Prop) (S : list Z -> Prop) (F : list Z -> T) (x : T) : Prop :=
  (exists p, S p /\ x = F p) /\ (forall p, S p -> le (F p) x).
(** The sum of the absolute values of some numbers. *)
Definition abs_sum (l : list R) : R := fold_right Rplus 0%R (map Rabs l).
(** The speed at a cell, as computed by mag from the velocity components there. *)
Definition speed {T} (mag : list T -> T) (u : nat -> list Z -> T) (vel : list nat) (p : list Z) : T := mag (map (fun f => u f p) vel).
(** The time step limit for maximal speed a in d dimensions: advection and, unless the viscosity is 0, diffusion. *)
Definition dt_limit (d : nat) (CFL dx tol nu tol' a : R) : R :=
  let advection := (CFL * dx / (a + tol))%R in
  if Req_EM_T (nu + tol') 0 then advection else Rmin advection (9 / 10 * dx * dx / (2 * IZR (Z.of_nat d)) / (nu + tol')).
Fixpoint rsum (l : list R) : R := match l with [] => 0%R | x :: l' => (x + rsum l')%R end.

(** In an arithmetic where every result is rounded by fl: *)
Definition rounded_abs_sum (fl : R -> R) (l : list R) : R := fold_left (fun s a => fl (s + Rabs a)%R) l 0%R.
Definition rounded_limit (fl : R -> R) (c tol diffusion a : R) : R := Rmin (fl (c / fl (a + tol)))%R diffusion.
