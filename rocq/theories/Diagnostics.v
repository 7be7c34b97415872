(** Model of compute_stable_timestep, get_max_vorticity and
    get_vorticity_divergence_l2_norm:
    sopht_mpi/simulator/flow/flow_simulators_mpi_2d.py:300-328,
    sopht_mpi/simulator/flow/flow_simulators_mpi_3d.py:426-476.
    The time step and the maximum in any arithmetic without nan: the
    operations on numbers are parameters.  (numpy's inf for a division by a
    zero viscosity in 2D: the parameter lim; see [real_limit] for exact
    arithmetic.) *)
From Coq Require Import Reals.
From Verif Require Import Base SpecGrid SpecReduce Comm.
Open Scope Z_scope.

(** The cells selected by [gs:-gs] on every axis of an array with the given
    extents; for gs = 0 the slice is [0:0], which is empty. *)
Definition py_slice (e g : Z) : Z * Z := (g, Z.max 0 ((if g =? 0 then 0 else e - g) - g)).
Definition slice_cells (sizes : list Z) (g : Z) : list (list Z) :=
  box (map (fun e => fst (py_slice e g)) sizes) (map (fun e => snd (py_slice e g)) sizes).

(** np.amax: None for an empty selection (raises). *)
Definition amax {T} (mx : T -> T -> T) (l : list T) : option T := match l with [] => None | x :: l' => Some (fold_left mx l' x) end.

Section D.
Context {T W : Type}.
Variables (loc : list Z) (g : Z).
Notation sizes := (ghosted g loc).
(** mag: np.sum(np.fabs(...), axis=0) at one cell; mx: the larger of two values; lim: the local limit for a maximal speed;
    mn: MPI.MIN; pre: * dt_prefac *)
Variables (mag : list T -> T) (mx : T -> T -> T) (lim : T -> W) (mn : W -> W -> W) (pre : W -> W).

(** velocity_mag_field[...] = np.sum(np.fabs(self.velocity_field), axis=0): the
    whole buffer array, ghosts included.  2D:303-304, 3D:429-431 *)
Definition store_magnitude (vel : list nat) (buf : nat) (m : mem T) : mem T := fun p =>
  let '(r, (f, i)) := p in if (f =? buf)%nat && (0 <=? i) && (i <? zprod sizes) then mag (map (fun f => m (r, (f, i))) vel) else m p.

(** min(CFL * dx / (amax + tol), ...).  2D:305-318, 3D:432-446 *)
Definition local_dt (vel : list nat) (buf : nat) (m : mem T) (r : Z) : option W :=
  option_map lim (amax mx (map (fun I => store_magnitude vel buf m (r, (buf, ravel sizes I))) (slice_cells sizes g))).
(** allreduce(MIN) and * dt_prefac; every rank must have got that far.  2D:319-321, 3D:447-449 *)
Definition stable_dt (n : Z) (vel : list nat) (buf : nat) (m : mem T) (x : W) : Prop :=
  exists v t, (forall r, 0 <= r < n -> local_dt vel buf m r = Some (v r)) /\ reduces mn n v t /\ x = pre t.

(** get_max_vorticity: amax over the inner cells of the (components of the) vorticity.  2D:323-328, 3D:471-476 *)
Definition local_max (vort : list nat) (m : mem T) (r : Z) : option T :=
  amax mx (flat_map (fun f => map (fun I => m (r, (f, ravel sizes I))) (slice_cells sizes g)) vort).
Definition max_vorticity (n : Z) (vort : list nat) (m : mem T) (x : T) : Prop :=
  exists v, (forall r, 0 <= r < n -> local_max vort m r = Some (v r)) /\ reduces mx n v x.
End D.

(** In exact arithmetic: min(CFL * dx / (amax + tol), 0.9 * dx**2 / (2 * dim) / (nu + tol')) with
    tol' = 0 in 2D and tol in 3D.  dx is a numpy number, so a division by 0 gives inf and the minimum is the first one.
    2D:305-318, 3D:432-446 *)
Definition real_limit (dim : nat) (CFL dx tol nu tol' a : R) : R :=
  if Req_EM_T (nu + tol') 0 then (CFL * dx / (a + tol))%R
  else Rmin (CFL * dx / (a + tol)) (9 / 10 * dx * dx / (2 * IZR (Z.of_nat dim)) / (nu + tol')).
Definition real_mag (l : list R) : R := fold_right Rplus 0%R (map Rabs l).

(** get_vorticity_divergence_l2_norm after compute_divergence has filled [dv], in exact arithmetic:
    norm(inner)**2, allreduce(SUM), sqrt, * dx**1.5.  3D:451-469 *)
Definition divergence_norm (loc : list Z) (g : Z) (n : Z) (dx15 : R) (dv : nat) (m : mem R) (x : R) : Prop :=
  exists t, reduces Rplus n (fun r => Rsqr (sqrt (fold_right Rplus 0%R (map (fun I => Rsqr (m (r, (dv, ravel (ghosted g loc) I)))) (slice_cells (ghosted g loc) g))))) t /\ x = (sqrt t * dx15)%R.
