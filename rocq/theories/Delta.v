(** Model of the interpolation weight kernels, in exact real arithmetic.
    EulerianLagrangianGridCommunicatorMPI2D.py:386-518, 3D.py:440-588.  The 2D
    and 3D kernels differ only in the number of factors. *)
From Coq Require Import Reals List.
Import ListNotations.
Open Scope R_scope.

Definition rprod (l : list R) : R := fold_right Rmult 1 l.

(** (0.25 / dx) ** grid_dim * prod (1 + cos(0.5 * pi * (d / dx))).
    2D.py:415-426, 3D.py:462-481 *)
Definition cosine_factor (dx d : R) : R := 1 + cos (/ 2 * PI * (d / dx)).
Definition cosine_weight (dx : R) (ds : list R) : R := (/ 4 / dx) ^ length ds * rprod (map (cosine_factor dx) ds).

(** A numpy comparison used as a number. *)
Definition bool_r (b : bool) : R := if b then 1 else 0.
Definition rlt (a b : R) : bool := if Rlt_dec a b then true else false.

(** (0.125 / dx) ** grid_dim * prod ((r < 1) * (3 - 2 r + sqrt(|1 + 4 r - 4 r^2|))
    + (r >= 1) * (r < 2) * (5 - 2 r - sqrt(|-7 + 12 r - 4 r^2|))), r = |d| / dx.
    2D.py:456-516, 3D.py:501-586 *)
Definition peskin_factor (dx d : R) : R :=
  let r := Rabs d / dx in
  bool_r (rlt r 1) * (3 - 2 * r + sqrt (Rabs (1 + 4 * r - 4 * r ^ 2))) +
  bool_r (negb (rlt r 1)) * bool_r (rlt r 2) * (5 - 2 * r - sqrt (Rabs (-7 + 12 * r - 4 * r ^ 2))).
Definition peskin_weight (dx : R) (ds : list R) : R := (/ 8 / dx) ^ length ds * rprod (map (peskin_factor dx) ds).
