(** Real coordinates for the interpolation specification of SpecIB. *)
From Coq Require Import Reals.
From Verif Require Import Base SpecIB.
Open Scope R_scope.

(** Index of the last grid point at or below coordinate x, for grid points at k * dx + shift. *)
Definition r_cell (dx shift x : R) : Z := Int_part ((x - shift) / dx).
(** Coordinate of grid point k, and signed distance of it from x. *)
Definition grid_coord (dx shift : R) (k : Z) : R := IZR k * dx + shift.
Definition r_dist (dx shift : R) (k : Z) (x : R) : R := grid_coord dx shift k - x.
(** dx^dim times the weighted sum over the 4^dim support points, in exact real arithmetic. *)
Definition r_interpolated (dx shift : R) (wt : list R -> R) (u : list Z -> R) (pos : list R) : R :=
  interpolated (r_cell dx shift) (r_dist dx shift) 2 (fun s => s * dx ^ length pos) (fold_right Rplus 0) Rmult wt u pos.
