(** Specification of the free-space Poisson problem on a grid with spacing dx. *)
From Coq Require Import Reals.
From Coquelicot Require Import Complex.
From Verif Require Import Base SpecGrid SpecFourier SpecDouble SpecStep.
Open Scope Z_scope.

(** The length of an offset given in cells. *)
Definition offset_length (dx : R) (D : list Z) : R := (dx * sqrt (IZR (fold_right (fun d s => (d * d + s)%Z) 0%Z D)))%R.
(** Free-space Green's functions of - laplacian: - ln r / (2 pi) in the plane, 1 / (4 pi r) in space;
    at r = 0 the regularised values: the mean of - ln r / (2 pi) over the disc of area dx^2, and 1 / (4 pi dx). *)
Definition free_green_2d (dx : R) (D : list Z) : R :=
  if forallb (Z.eqb 0) D then (- (2 * ln (dx / sqrt PI) - 1) / (4 * PI))%R else (- ln (offset_length dx D) / (2 * PI))%R.
Definition free_green_3d (dx : R) (D : list Z) : R :=
  if forallb (Z.eqb 0) D then (1 / (4 * PI * dx))%R else (1 / (4 * PI * offset_length dx D))%R.

(** The cell p of a doubled axis of 2 n cells seen from its nearest end: p or 2 n - p. *)
Fixpoint nearest_end (N P : list Z) : list Z :=
  match N, P with n :: N', p :: P' => Z.min p (2 * n - p) :: nearest_end N' P' | _, _ => [] end.

(** Free-space solution for a source u on the grid N: the sum over the cells Q of the domain of
    green(P - Q) u(Q) times the volume of a cell; no periodic images. *)
Definition free_space (green : list Z -> R) (vol : R) (N : list Z) (u : list Z -> R) (P : list Z) : R :=
  (vol * rsum (fun Q => (green (vsub P Q) * u Q)%R) (all_cells N))%R.
(** Effect of one solve (solution array, right-hand side array), and of any number of them. *)
Definition free_solve green vol (N : list Z) (u : nat -> list Z -> R) (sr : nat * nat) : nat -> list Z -> R :=
  fun f P => if Nat.eqb f (fst sr) && inbb N P then free_space green vol N (u (snd sr)) P else u f P.
Definition free_solves green vol N (solves : list (nat * nat)) (u : nat -> list Z -> R) : nat -> list Z -> R :=
  fold_left (free_solve green vol N) solves u.

(** Contract of the real-to-complex transform and its inverse on a grid M.  Only the frequencies [kept] are stored; the
    others are the conjugates of stored ones. *)
Definition negated (M K : list Z) : list Z := vmod (vneg K) M.
Definition half_spectrum (M : list Z) (kept : list Z -> bool) : Prop := forall K, inb M K -> kept K = true \/ kept (negated M K) = true.
Definition hermitian (M : list Z) (kept : list Z -> bool) (A : list Z -> C) (K : list Z) : C := if kept K then A K else Cconj (A (negated M K)).
Definition is_forward (M : list Z) (kept : list Z -> bool) (fwd : (list Z -> R) -> list Z -> C) : Prop :=
  forall a K, inb M K -> kept K = true -> fwd a K = dft M (fun P => RtoC (a P)) K.
Definition is_backward (M : list Z) (kept : list Z -> bool) (bwd : (list Z -> C) -> list Z -> R) : Prop :=
  forall A P, inb M P -> bwd A P = Re (idft M (hermitian M kept A) P).
