(** Specification of the Laplacian filters on the global grid. *)
From Verif Require Import Base SpecGrid SpecStencil SpecStep.

(** Within bw cells of the boundary of a non-periodic domain (or outside it). *)
Definition zoneb (per : bool) (N : list Z) (bw : Z) (P : list Z) : bool :=
  negb per && existsb (fun ab => (fst ab <? bw) || (snd ab - bw <=? fst ab)) (combine P N).

Inductive filter_type := Multiplicative | Convolution.

Section S.
Context {T : Type}.
(** lap next prev here = 0.25 * (- next - prev + 2 * here); z is 0. *)
Variables (lap : T -> T -> T -> T) (sub : T -> T -> T) (z : T) (per : bool) (N : list Z) (bw : Z).

(** One filter pass along axis a: zero in the boundary zone. *)
Definition filt (a : nat) (v : list Z -> T) : list Z -> T := fun P =>
  let at_ d := v (norm per N (vadd P (axis_vec (length N) a d))) in
  if zoneb per N bw P then z else lap (at_ 1) (at_ (-1)) (at_ 0).
(** Passes along several axes, one after the other. *)
Definition filts (axes : list nat) (v : list Z -> T) : list Z -> T := fold_left (fun v a => filt a v) axes v.
Definition filts_n (n : nat) (axes : list nat) (v : list Z -> T) : list Z -> T := Nat.iter n (filts axes) v.

(** field - (Lz Ly Lx)^order field. *)
Definition multiplicative (order : nat) (v : list Z -> T) : list Z -> T :=
  fun P => sub (v P) (filts_n order [2; 1; 0]%nat v P).
(** (1 - Lz^order)(1 - Ly^order)(1 - Lx^order) field. *)
Definition conv1 (order : nat) (a : nat) (v : list Z -> T) : list Z -> T := fun P => sub (v P) (filts_n order [a] v P).
Definition convolution (order : nat) (v : list Z -> T) : list Z -> T :=
  conv1 order 0 (conv1 order 1 (conv1 order 2 v)).
Definition serial_filter (ft : filter_type) (order : nat) : (list Z -> T) -> list Z -> T :=
  match ft with Multiplicative => multiplicative order | Convolution => convolution order end.
End S.
