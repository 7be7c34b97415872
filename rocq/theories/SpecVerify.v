(** Fields sampled from a formula, and errors against a formula, on the global grid. *)
From Coq Require Import Reals QArith.
From Verif Require Import Base SpecGrid.
Open Scope Z_scope.

(** The centre of cell P, x first (P is in storage order, x last). *)
Definition centre (dx : Q) (P : list Z) : list Q := rev (map (fun i => ((inject_Z i + (1 # 2)) * dx)%Q) P).
(** A formula for the arrays gives equal values at equal coordinates. *)
Definition formula {T} (F : nat -> list Q -> T) : Prop := forall f a b, Forall2 Qeq a b -> F f a = F f b.
Fixpoint sum_of (l : list R) : R := match l with [] => 0%R | x :: l' => (x + sum_of l')%R end.
(** How far the arrays u are from a formula F, in cell P. *)
Definition deviation (dx : Q) (F : nat -> list Q -> R) (u : nat -> list Z -> R) (f : nat) (P : list Z) : R := Rabs (u f P - F f (centre dx P)).
(** Over all cells of the global grid and the arrays fs: the root of the sum of the squared errors, times h; the greatest error. *)
Definition l2_of (N : list Z) (fs : list nat) (h : R) (e : nat -> list Z -> R) : R :=
  (sqrt (sum_of (map (fun f => sum_of (map (fun P => e f P * e f P) (box (map (fun _ => 0%Z) N) N))) fs)) * h)%R.
Definition is_linf (N : list Z) (fs : list nat) (e : nat -> list Z -> R) (x : R) : Prop :=
  (exists f P, In f fs /\ inb N P /\ x = e f P) /\ (forall f P, In f fs -> inb N P -> (e f P <= x)%R).
