(** Discrete Fourier transforms and circular convolution on a grid with extents M. *)
From Coq Require Import Reals.
From Coquelicot Require Import Complex.
From Verif Require Import Base SpecGrid.
Open Scope Z_scope.

(** All the cells of a grid. *)
Definition all_cells (N : list Z) : list (list Z) := box (map (fun _ => 0) N) N.

(** Sums over a list. *)
Definition rsum {A} (f : A -> R) (l : list A) : R := fold_right (fun a s => (f a + s)%R) 0%R l.
Definition csum {A} (f : A -> C) (l : list A) : C := fold_right (fun a s => (f a + s)%C) (RtoC 0) l.

(** e^{i t}, and K.J = sum over the axes of 2 pi K_a J_a / M_a. *)
Definition cis (t : R) : C := (cos t, sin t).
Fixpoint angle (M K J : list Z) : R :=
  match M, K, J with
  | m :: M', k :: K', j :: J' => (2 * PI * IZR (k * j) / IZR m + angle M' K' J')%R
  | _, _, _ => 0%R
  end.

(** Forward transform (not normalised) and backward transform (normalised). *)
Definition dft (M : list Z) (a : list Z -> C) (K : list Z) : C := csum (fun J => (a J * cis (- angle M K J))%C) (all_cells M).
Definition idft (M : list Z) (A : list Z -> C) (P : list Z) : C :=
  (/ RtoC (IZR (fold_right Z.mul 1 M)) * csum (fun K => A K * cis (angle M K P)) (all_cells M))%C.

(** Circular convolution of real arrays. *)
Definition circular (M : list Z) (a b : list Z -> R) (P : list Z) : R := rsum (fun Q => (a Q * b (vmod (vsub P Q) M))%R) (all_cells M).
