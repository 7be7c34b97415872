(** Model of the Navier-Stokes time steps of the flow simulators
    sopht_mpi/simulator/flow/flow_simulators_mpi_2d.py and _3d.py (non-periodic MPI construct).
    The deposited forcing field is part of the memory, not of the program. *)
From Verif Require Import Base SpecGrid SpecFilter Comm Spmd Stencil TimeStep Penalise Doubling Filter SpecNS.

Section NS.
Context {T C : Type}.
Variables (add : T -> T -> T) (z : T) (damp : C -> C -> T -> T) (conv : (list Z -> T) -> list Z -> T).

(** gen_add_fixed_val_pyst_kernel_2d/3d (vector): every cell of each component, ghosts included.
    flow_simulators_mpi_2d.py:221-240, flow_simulators_mpi_3d.py:306-325. *)
Definition add_fixed_val (sizes : list Z) (vs : list (nat * T)) : list (@lop T) :=
  kernel_lops sizes 0 (map (fun va => (fst va, fun (_ : nat -> list Z -> T) v => add v (snd va))) vs) (map (fun _ => SAll) sizes).

(** flow_simulators_mpi_2d.py:273-282 compute_velocity_from_vorticity. *)
Definition compute_velocity_from_vorticity_2d py px ny nx g full dd width xg (w psi vx vy D S : nat) (Kcx Kcy : @kfun T) : list (@phase T) :=
  penalise_2d damp false py px ny nx g width xg w ++
  poisson_solve_2d conv z false py px ny nx g dd D S psi w ++
  outplane_curl_2d z false py px ny nx g full vx vy psi Kcx Kcy.

(** flow_simulators_mpi_2d.py:284-287 navier_stokes_timestep; 260-271 advection_and_diffusion_timestep. *)
Definition navier_stokes_2d py px ny nx g full dd width xg (w psi vx vy buf D S : nat) (Kcx Kcy : @kfun T) (s : @ns2_step T) : list (@phase T) :=
  tstep_2d add z false py px ny nx g full buf vx vy (Adv w (n2_adv s)) ++
  tstep_2d add z false py px ny nx g full buf vx vy (Dif w (n2_dif s)) ++
  compute_velocity_from_vorticity_2d py px ny nx g full dd width xg w psi vx vy D S Kcx Kcy ++
  match n2_free s with
  | Some (a, b) => [PLoc (fun _ => add_fixed_val (ghosted g [ny; nx]) [(vx, a); (vy, b)])]
  | None => [] end.

(** flow_simulators_mpi_2d.py:289-298 navier_stokes_with_forcing_timestep; 242-258 choice of the step and time_step. *)
Definition time_step_2d py px ny nx g full dd width xg (w psi vx vy fx fy buf D S : nat) (Kcx Kcy : @kfun T) (s : @ns2_step T) : list (@phase T) :=
  match n2_frc s with
  | Some (K, _) =>
      update_vorticity_2d false py px ny nx g full w fx fy K ++
      navier_stokes_2d py px ny nx g full dd width xg w psi vx vy buf D S Kcx Kcy s ++
      [PLoc (fun _ => set_lops (ghosted g [ny; nx]) [fx; fy] z [SAll; SAll])]
  | None => navier_stokes_2d py px ny nx g full dd width xg w psi vx vy buf D S Kcx Kcy s
  end.

(** flow_simulators_mpi_3d.py:382-393 compute_flow_velocity. *)
Definition compute_flow_velocity_3d pz py px n0 n1 n2 g full width xg (w0 w1 w2 p0 p1 p2 vx vy vz D S : nat) (Kcx Kcy Kcz : @kfun T) race
    (free : option (T * T * T)) : list (@phase T) :=
  penalise_vector_3d damp false pz py px n0 n1 n2 g width xg [w0; w1; w2] ++
  poisson_vector_solve_3d conv z false pz py px n0 n1 n2 g D S [p0; p1; p2] [w0; w1; w2] ++
  curl_3d z false pz py px n0 n1 n2 g full vx vy vz p0 p1 p2 Kcx Kcy Kcz race ++
  match free with
  | Some (a, b, c) => [PLoc (fun _ => add_fixed_val (ghosted g [n0; n1; n2]) [(vx, a); (vy, b); (vz, c)])]
  | None => [] end.

(** gen_update_vorticity_from_velocity_forcing_pyst_mpi_kernel_3d applied to the arrays w and f. *)
Definition update_vorticity_call_3d pz py px n0 n1 n2 g full (w0 w1 w2 fx fy fz : nat) (K : @kfun T * @kfun T * @kfun T) : list (@phase T) :=
  match K with (K0, K1, K2) => update_vorticity_3d false pz py px n0 n1 n2 g full w0 w1 w2 fx fy fz K0 K1 K2 end.

(** flow_simulators_mpi_3d.py:395-413 rotational_form_navier_stokes_timestep; the filter (285-301) works in the
    components 0 and 1 of the vector buffer: field buffer b1, flux buffer b0; the cross product is elementwise over whole arrays. *)
Definition navier_stokes_3d (lap : T -> T -> T -> T) (sub : T -> T -> T) (filt : option (filter_type * nat * Z))
    pz py px n0 n1 n2 g full width xg (w0 w1 w2 p0 p1 p2 vx vy vz b0 b1 b2 buf D S : nat) (Kcx Kcy Kcz : @kfun T) race (s : @ns3_step T) : list (@phase T) :=
  [PLoc (fun _ => kernel_lops (ghosted g [n0; n1; n2]) 0 (three b0 b1 b2 (n3_crs s)) (map (fun _ => SAll) (ghosted g [n0; n1; n2])))] ++
  update_vorticity_call_3d pz py px n0 n1 n2 g full w0 w1 w2 b0 b1 b2 (n3_upd s) ++
  flat_map (fun c => tstep_3d add z false pz py px n0 n1 n2 g full buf vx vy vz (Dif c (n3_dif s c))) [w0; w1; w2] ++
  match filt with
  | Some (ft, order, bw) => vector_filter_3d lap sub z false pz py px n0 n1 n2 g full bw ft b1 b0 order [w0; w1; w2]
  | None => [] end ++
  compute_flow_velocity_3d pz py px n0 n1 n2 g full width xg w0 w1 w2 p0 p1 p2 vx vy vz D S Kcx Kcy Kcz race (n3_free s).

(** flow_simulators_mpi_3d.py:415-424 navier_stokes_with_forcing_timestep; 326-354 choice of the step and time_step. *)
Definition time_step_3d lap sub filt pz py px n0 n1 n2 g full width xg (w0 w1 w2 p0 p1 p2 vx vy vz fx fy fz b0 b1 b2 buf D S : nat)
    (Kcx Kcy Kcz : @kfun T) race (s : @ns3_step T) : list (@phase T) :=
  match n3_frc s with
  | Some (K, _) =>
      update_vorticity_call_3d pz py px n0 n1 n2 g full w0 w1 w2 fx fy fz K ++
      navier_stokes_3d lap sub filt pz py px n0 n1 n2 g full width xg w0 w1 w2 p0 p1 p2 vx vy vz b0 b1 b2 buf D S Kcx Kcy Kcz race s ++
      [PLoc (fun _ => set_lops (ghosted g [n0; n1; n2]) [fx; fy; fz] z [SAll; SAll; SAll])]
  | None => navier_stokes_3d lap sub filt pz py px n0 n1 n2 g full width xg w0 w1 w2 p0 p1 p2 vx vy vz b0 b1 b2 buf D S Kcx Kcy Kcz race s
  end.
End NS.

(** update_simulator_time: flow_simulators_mpi_2d.py:251-253, flow_simulators_mpi_3d.py:347-349; the same on every rank. *)
Definition simulator_time {R : Type} (plus : R -> R -> R) (t0 : R) (dts : list R) : R := fold_left plus dts t0.
