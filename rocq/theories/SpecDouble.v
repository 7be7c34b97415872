(** Specification of the doubled domain of the unbounded Poisson solver. *)
From Verif Require Import Base SpecGrid SpecStep.

(** Block extents of the doubled domain: the same ranks, blocks twice as long along every axis. *)
Definition doubled (loc : list Z) : list Z := map (Z.mul 2) loc.

Section S.
Context {T : Type}.
(** u inside the domain N, w elsewhere. *)
Definition pad (N : list Z) (u w : list Z -> T) : list Z -> T := fun p => if inbb N p then u p else w p.

(** Unbounded Poisson solve on the global grid: zero padding, then the convolution
    with the Green's function on the doubled grid. *)
Definition poisson (conv : (list Z -> T) -> list Z -> T) (z : T) (N : list Z) (u : list Z -> T) : list Z -> T :=
  conv (pad N u (fun _ => z)).
End S.

(** Effect of solve(solution := array s, right-hand side := array r) on the global arrays: the
    domain part of s becomes the Poisson solution for r, nothing else changes. *)
Definition solve_effect {T} (conv : (list Z -> T) -> list Z -> T) (z : T) (N : list Z) (u : nat -> list Z -> T) (sr : nat * nat) : nat -> list Z -> T :=
  fun f P => if Nat.eqb f (fst sr) then pad N (poisson conv z N (u (snd sr))) (u f) P else u f P.
(** Any number of solves one after the other. *)
Definition solve_all {T} conv (z : T) N (solves : list (nat * nat)) (u : nat -> list Z -> T) : nat -> list Z -> T :=
  fold_left (solve_effect conv z N) solves u.
(** Every axis has one rank or an even number of ranks. *)
Definition evenly (topo : list Z) : Prop := Forall (fun t => t = 1 \/ t mod 2 = 0) topo.
