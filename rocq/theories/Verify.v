(** Model of how the verification examples set their initial fields and compute their errors:
    examples/2d_examples/LambOseenVortexCase/lamb_oseen_vortex.py,
    examples/3d_examples/PointSourceAdvectAndDiffuseCase/point_source_advection_diffusion.py.
    The formulas (lamb_oseen_helpers.py, point_source_helpers.py) are arbitrary functions F of array and coordinates.
    Coordinates in exact rational arithmetic, errors in exact real arithmetic. *)
From Coq Require Import Reals QArith.
From Verif Require Import Base SpecGrid SpecReduce Comm Coords Diagnostics.
Open Scope Z_scope.

Section V.
Variables (dims loc : list Z) (dx : Q) (g : Z).
Notation sizes := (ghosted g loc).
(** flow_sim.position_field[0], [1], .. at the cell I of rank r *)
Definition positions (r : Z) (I : list Z) : list Q := map (fun c => position_field dims loc dx g r c I) (seq 0 (length loc)).
(** field[...] = formula(position_field[...]): every cell of the array, ghosts included.
    lamb_oseen_vortex.py:46-66, point_source_advection_diffusion.py:48-61 *)
Definition from_positions {T} (fs : list nat) (F : nat -> list Q -> T) (m : mem T) : mem T := fun p =>
  let '(r, (f, i)) := p in
  if existsb (Nat.eqb f) fs && (0 <=? i) && (i <? zprod sizes) then F f (positions r (unravel sizes i)) else m p.

(** error_field = np.fabs(field - formula(position_field))[inner_idx]; the formula may use the rank's time.
    lamb_oseen_vortex.py:123-143, 154-173; point_source_advection_diffusion.py:141-161 *)
Definition error (F : Z -> nat -> list Q -> R) (m : mem R) (r : Z) (f : nat) (I : list Z) : R := Rabs (m (r, (f, ravel sizes I)) - F r f (positions r I)).
Definition errors (fs : list nat) F (m : mem R) (r : Z) : list R := flat_map (fun f => map (error F m r f) (slice_cells sizes g)) fs.
(** np.linalg.norm of an array of any shape *)
Definition norm (l : list R) : R := sqrt (fold_right Rplus 0%R (map Rsqr l)).
(** (norm * dx) ** 2, allreduce(SUM), sqrt.  lamb_oseen_vortex.py:144-146, 174-176 *)
Definition l2_error_2d (fs : list nat) F (m : mem R) (x : R) : Prop :=
  exists t, reduces Rplus (zprod dims) (fun r => Rsqr (norm (errors fs F m r) * Q2R dx)) t /\ x = sqrt t.
(** norm ** 2, allreduce(SUM), sqrt * dx**1.5.  point_source_advection_diffusion.py:162-164 *)
Definition l2_error_3d (dx15 : R) (fs : list nat) F (m : mem R) (x : R) : Prop :=
  exists t, reduces Rplus (zprod dims) (fun r => Rsqr (norm (errors fs F m r))) t /\ x = (sqrt t * dx15)%R.
(** np.amax, allreduce(MAX).  lamb_oseen_vortex.py:147-148, 177-178; point_source_advection_diffusion.py:165-166 *)
Definition linf_error (fs : list nat) F (m : mem R) (x : R) : Prop :=
  exists v, (forall r, 0 <= r < zprod dims -> amax Rmax (errors fs F m r) = Some (v r)) /\ reduces Rmax (zprod dims) v x.
End V.
