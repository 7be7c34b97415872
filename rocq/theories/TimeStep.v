(** Model of the explicit time steps and of the passive-scalar simulators. *)
From Verif Require Import Base SpecGrid Comm Spmd Stencil.

Section TimeStep.
Context {T : Type}.
Variables (add : T -> T -> T) (z : T).

(** gen_elementwise_sum_pyst_kernel_2d/3d called with sum_field = field_1 = field, field_2 = flux:
    every cell of the array, ghosts included. *)
Definition sum_lops (sizes : list Z) (fld flux : nat) : list (@lop T) :=
  kernel_lops sizes 0 [(fld, fun rd old => add old (rd flux (map (fun _ => 0) sizes)))] (map (fun _ => SAll) sizes).

(** diffusion_timestep_mpi_2d.py:38-58, diffusion_timestep_mpi_3d.py (scalar version). *)
Definition diffusion_timestep_2d per py px ny nx g full (fld flux : nat) (K : @kfun T) : list (@phase T) :=
  diffusion_flux_2d z per py px ny nx g full flux fld K ++
  [PLoc (fun _ => sum_lops (ghosted g [ny; nx]) fld flux)].
Definition diffusion_timestep_3d per pz py px n0 n1 n2 g full (fld flux : nat) (K : @kfun T) : list (@phase T) :=
  diffusion_flux_3d z per pz py px n0 n1 n2 g full flux fld K ++
  [PLoc (fun _ => sum_lops (ghosted g [n0; n1; n2]) fld flux)].

(** advection_timestep_mpi_2d.py:38-60, advection_timestep_mpi_3d.py:40-63: reset the flux, add the ENO3 flux, add to the field. *)
Definition advection_timestep_2d per py px ny nx g full (fld flux vx vy : nat) (K : @kfun T) : list (@phase T) :=
  [PLoc (fun _ => set_lops (ghosted g [ny; nx]) [flux] z [SAll; SAll])] ++
  advection_flux_2d per py px ny nx g full flux fld vx vy K ++
  [PLoc (fun _ => sum_lops (ghosted g [ny; nx]) fld flux)].
Definition advection_timestep_3d per pz py px n0 n1 n2 g full (fld flux vx vy vz : nat) (K : @kfun T) : list (@phase T) :=
  [PLoc (fun _ => set_lops (ghosted g [n0; n1; n2]) [flux] z [SAll; SAll; SAll])] ++
  advection_flux_3d per pz py px n0 n1 n2 g full flux fld vx vy vz K ++
  [PLoc (fun _ => sum_lops (ghosted g [n0; n1; n2]) fld flux)].

(** One time-step kernel call: advection or diffusion of array [fld], with the
    serial flux kernel (this step's prefactor already bound). *)
Inductive tstep := Adv (fld : nat) (K : @kfun T) | Dif (fld : nat) (K : @kfun T).
Definition tstep_2d per py px ny nx g full (buf vx vy : nat) (s : tstep) : list (@phase T) :=
  match s with
  | Adv fld K => advection_timestep_2d per py px ny nx g full fld buf vx vy K
  | Dif fld K => diffusion_timestep_2d per py px ny nx g full fld buf K
  end.
Definition tstep_3d per pz py px n0 n1 n2 g full (buf vx vy vz : nat) (s : tstep) : list (@phase T) :=
  match s with
  | Adv fld K => advection_timestep_3d per pz py px n0 n1 n2 g full fld buf vx vy vz K
  | Dif fld K => diffusion_timestep_3d per pz py px n0 n1 n2 g full fld buf K
  end.

(** flow_simulators_mpi_2d.py:260-271 (advection_and_diffusion_timestep) and
    flow_simulators_mpi_3d.py:356-367 (scalar_advection_and_diffusion_timestep): the
    same buffer array serves as advection and as diffusion flux. *)
Definition passive_scalar_calls (fld : nat) (Ka Kd : @kfun T) : list tstep := [Adv fld Ka; Dif fld Kd].
(** flow_simulators_mpi_3d.py:369-380 (vector_advection_and_diffusion_timestep),
    advection_timestep_mpi_3d.py:70-95, diffusion_timestep_mpi_3d.py:64-92: the three
    components one after the other, first advection, then diffusion. *)
Definition passive_vector_calls (f0 f1 f2 : nat) (Ka Kd : nat -> @kfun T) : list tstep :=
  [Adv f0 (Ka f0); Adv f1 (Ka f1); Adv f2 (Ka f2); Dif f0 (Kd f0); Dif f1 (Kd f1); Dif f2 (Kd f2)].
End TimeStep.
