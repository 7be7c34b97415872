(** C35, C37, C42, C46: diagnostics, argument checks, coordinates, construction. *)
From Coq Require Import Reals QArith.
From Coq Require Import Lra.
From Verif Require Import Base SpecGrid SpecGhost SpecStencil SpecReduce SpecDiag SpecGhostSum SpecIO Comm Cart PyNum Penalise Diagnostics DiagProofs Construct Coords ConstructProofs.
Open Scope Z_scope.

(** C35. compute_stable_timestep, in any arithmetic whose numbers are totally ordered and whose limit does not grow with the speed:
    whatever the reduction order, every rank gets the value [pre (lim U)] (pre: times dt_prefac) for the maximal speed U over all cells
    of the global grid; ghost cells do not matter (m is only required to represent u); only the scratch buffer is written. *)
Theorem C35_stable_timestep_any_arithmetic (T W : Type) (mag : list T -> T) (lim : T -> W) (pre : W -> W) le mn mx leW mnW mxW dims loc g vel buf (m : mem T) u :
  grid_ok dims loc -> 1 <= g -> ordered le mn mx -> ordered leW mnW mxW -> (forall k l, le (mag k) (mag l) -> leW (lim (mag l)) (lim (mag k))) ->
  represents dims loc g vel m u ->
  (exists x, stable_dt loc g mag mx lim mnW pre (zprod dims) vel buf m x) /\
  (forall x, stable_dt loc g mag mx lim mnW pre (zprod dims) vel buf m x ->
     exists U, is_max le (inb (global_size dims loc)) (speed mag u vel) U /\ x = pre (lim U)) /\
  (forall r f i, f <> buf -> store_magnitude loc g mag vel buf m (r, (f, i)) = m (r, (f, i))).
Proof.
  intros Hok Hg Ot Ow An Hu. split; [exact (stable_dt_exists dims loc g Hok Hg mag lim pre le mn mx mnW Ot vel buf m)|]. split; [|intros; now apply store_frame].
  intros x Hx. exact (stable_dt_ok dims loc g Hok Hg mag lim pre le mn mx leW mnW mxW Ot Ow An vel buf m u x Hu Hx).
Qed.
(** In exact arithmetic: dt_prefac times the limit for the maximal speed. *)
Theorem C35_stable_timestep dims loc g CFL dx tol nu tol' prefac vel buf (m : mem R) u :
  grid_ok dims loc -> 1 <= g -> (0 <= CFL * dx)%R -> (0 < tol)%R -> represents dims loc g vel m u ->
  let dt := stable_dt loc g real_mag Rmax (real_limit (length loc) CFL dx tol nu tol') Rmin (fun t => t * prefac)%R (zprod dims) vel buf m in
  (exists x, dt x) /\
  (forall x, dt x -> exists U, is_max Rle (inb (global_size dims loc)) (speed abs_sum u vel) U /\ x = (dt_limit (length loc) CFL dx tol nu tol' U * prefac)%R).
Proof.
  intros Hok Hg Hc Ht Hu.
  destruct (C35_stable_timestep_any_arithmetic R R real_mag (real_limit (length loc) CFL dx tol nu tol') (fun t => t * prefac)%R Rle Rmin Rmax Rle Rmin Rmax dims loc g vel buf m u
    Hok Hg ordered_R ordered_R ltac:(intros k l H; now apply real_limit_anti) Hu) as (A & B & _).
  split; [exact A|]. intros x Hx. exact (B x Hx).
Qed.
(** In floating point: every operation rounded by a monotone fl (c, tol and diffusion are the rounded CFL * dx, the tolerance and the
    diffusive limit): the same, with the maximal rounded speed. *)
Theorem C35_stable_timestep_rounded (fl : R -> R) dims loc g c tol diffusion prefac vel buf (m : mem R) u :
  grid_ok dims loc -> 1 <= g -> (forall a b, (a <= b)%R -> (fl a <= fl b)%R) -> fl 0%R = 0%R -> (0 <= c)%R -> (0 < fl tol)%R -> represents dims loc g vel m u ->
  let dt := stable_dt loc g (rounded_abs_sum fl) Rmax (rounded_limit fl c tol diffusion) Rmin (fun t => fl (t * prefac)%R) (zprod dims) vel buf m in
  (exists x, dt x) /\
  (forall x, dt x -> exists U, is_max Rle (inb (global_size dims loc)) (speed (rounded_abs_sum fl) u vel) U /\ x = fl (rounded_limit fl c tol diffusion U * prefac)%R).
Proof.
  intros Hok Hg Mo Z0 Hc Ht Hu.
  destruct (C35_stable_timestep_any_arithmetic R R (rounded_abs_sum fl) (rounded_limit fl c tol diffusion) (fun t => fl (t * prefac)%R) Rle Rmin Rmax Rle Rmin Rmax dims loc g vel buf m u
    Hok Hg ordered_R ordered_R ltac:(intros k l H; now apply rounded_limit_anti) Hu) as (A & B & _).
  split; [exact A|]. intros x Hx. exact (B x Hx).
Qed.
(** Hence the same value for every decomposition of the same global field, in every such arithmetic. *)
Theorem C35_timestep_decomposition_independent (T W : Type) (mag : list T -> T) (lim : T -> W) (pre : W -> W) le mn mx leW mnW mxW dims1 loc1 g1 dims2 loc2 g2 vel buf1 buf2 (m1 m2 : mem T) u x1 x2 :
  grid_ok dims1 loc1 -> 1 <= g1 -> grid_ok dims2 loc2 -> 1 <= g2 -> global_size dims1 loc1 = global_size dims2 loc2 ->
  ordered le mn mx -> ordered leW mnW mxW -> (forall k l, le (mag k) (mag l) -> leW (lim (mag l)) (lim (mag k))) ->
  represents dims1 loc1 g1 vel m1 u -> represents dims2 loc2 g2 vel m2 u ->
  stable_dt loc1 g1 mag mx lim mnW pre (zprod dims1) vel buf1 m1 x1 -> stable_dt loc2 g2 mag mx lim mnW pre (zprod dims2) vel buf2 m2 x2 ->
  x1 = x2.
Proof.
  intros A1 A2 B1 B2 E Ot Ow An U1 U2 S1 S2.
  destruct (stable_dt_ok dims1 loc1 g1 A1 A2 mag lim pre le mn mx leW mnW mxW Ot Ow An vel buf1 m1 u x1 U1 S1) as (V1 & M1 & ->).
  destruct (stable_dt_ok dims2 loc2 g2 B1 B2 mag lim pre le mn mx leW mnW mxW Ot Ow An vel buf2 m2 u x2 U2 S2) as (V2 & M2 & ->).
  rewrite <- E in M2. now rewrite (top_unique dims1 loc1 mag le mn mx Ot vel u V1 V2 M1 M2).
Qed.
(** get_max_vorticity: the maximum over all cells (and components) of the global grid, for any totally ordered numbers. *)
Theorem C35_max_vorticity (T : Type) le (mn mx : T -> T -> T) dims loc g vort (m : mem T) u :
  grid_ok dims loc -> 1 <= g -> ordered le mn mx -> vort <> [] -> represents dims loc g vort m u ->
  (exists x, max_vorticity loc g mx (zprod dims) vort m x) /\
  (forall x, max_vorticity loc g mx (zprod dims) vort m x ->
     (exists f p, In f vort /\ inb (global_size dims loc) p /\ x = u f p) /\ (forall f p, In f vort -> inb (global_size dims loc) p -> le (u f p) x)).
Proof.
  intros Hok Hg Ot Hv Hu. split; [exact (max_vort_exists dims loc g Hok Hg (fun _ => m (0, (0%nat, 0))) mx vort m Hv)|].
  intros x Hx. exact (max_vort_ok dims loc g Hok Hg le mn mx Ot vort m u x Hu Hx).
Qed.
(** get_vorticity_divergence_l2_norm (after the divergence kernel): the norm over
    all cells of the global grid. *)
Theorem C35_divergence_norm dims loc g dx15 dv (m : mem R) w :
  grid_ok dims loc -> 1 <= g -> represents dims loc g [dv] m (fun _ => w) ->
  (exists x, divergence_norm loc g (zprod dims) dx15 dv m x) /\
  (forall x, divergence_norm loc g (zprod dims) dx15 dv m x ->
     x = (sqrt (rsum (map (fun p => Rsqr (w p)) (all_cells (global_size dims loc)))) * dx15)%R).
Proof.
  intros Hok Hg Hw. split; [now apply divergence_norm_exists|]. intros x Hx. rewrite (divergence_norm_ok dims loc g Hok Hg dx15 dv m w x Hw Hx). reflexivity.
Qed.
(** FINDING: with ghost size 0 the inner slice [0:-0] is empty and the maximum raises. *)
Theorem C35_ghost_size_zero_raises (T W : Type) loc (mag : list T -> T) mx (lim : T -> W) vel buf (m : mem T) r : loc <> [] ->
  local_dt loc 0 mag mx lim vel buf m r = None.
Proof. intros H. unfold local_dt. now rewrite slice_cells_zero. Qed.

(** C37. check_valid_ghost_size_and_kernel_support raises exactly if the ghost
    size is smaller than the support; the constructor guards raise exactly for
    sizes that are both out of range and not integers (FINDING: `and` for `or`). *)
Theorem C37_support_check g ks : check_valid g ks = ValueError <-> (py_value g < py_value ks)%Q.
Proof. exact (check_valid_spec g ks). Qed.
Theorem C37_guards g :
  (guard_positive g = ValueError <-> (py_value g <= 0)%Q /\ is_int g = false) /\
  (guard_nonnegative g = ValueError <-> (py_value g < 0)%Q /\ is_int g = false) /\
  (guard_positive g <> ValueError -> guard_positive g = Ok tt) /\ (guard_nonnegative g <> ValueError -> guard_nonnegative g = Ok tt).
Proof. exact (guards_spec g). Qed.
Theorem C37_positive_guard_refuted : ~ (forall g, guard_positive g = ValueError <-> (py_value g <= 0)%Q \/ is_int g = false).
Proof. intros H. assert (X : guard_positive (PyInt 0) = ValueError) by (apply H; left; cbn; apply Qle_refl). discriminate X. Qed.
Theorem C37_bad_sizes_accepted :
  guard_positive (PyInt 0) = Ok tt /\ guard_positive (PyInt (-1)) = Ok tt /\ guard_positive (PyFloat (3 # 2)) = Ok tt /\
  guard_nonnegative (PyInt (-1)) = Ok tt /\ guard_nonnegative (PyFloat (3 # 2)) = Ok tt /\ guard_positive (PyFloat (-1 # 2)) = ValueError.
Proof. repeat split. Qed.

(** C42. Component c of the position field at ghosted index I on rank r is
    (global cell index along axis d-1-c + 1/2) dx: the coordinate depends only
    on the global position, so overlapping cells of different ranks (and of
    different decompositions of the grid) agree. *)
Theorem C42_cell_centres dims loc dx g r c I : grid_ok dims loc -> 0 <= g -> 0 <= r < zprod dims -> (c < length loc)%nat -> inb (ghosted g loc) I ->
  (position_field dims loc dx g r c I == (inject_Z (nth (length loc - 1 - c) (ghost_pos dims loc g r I) 0%Z) + (1 # 2)) * dx)%Q.
Proof. exact (position_eq dims loc dx g r c I). Qed.
Theorem C42_ranks_agree dims1 loc1 g1 r1 I1 dims2 loc2 g2 r2 I2 dx c :
  grid_ok dims1 loc1 -> 0 <= g1 -> 0 <= r1 < zprod dims1 -> inb (ghosted g1 loc1) I1 ->
  grid_ok dims2 loc2 -> 0 <= g2 -> 0 <= r2 < zprod dims2 -> inb (ghosted g2 loc2) I2 ->
  (c < length loc1)%nat -> length loc1 = length loc2 -> ghost_pos dims1 loc1 g1 r1 I1 = ghost_pos dims2 loc2 g2 r2 I2 ->
  (position_field dims1 loc1 dx g1 r1 c I1 == position_field dims2 loc2 dx g2 r2 c I2)%Q.
Proof.
  intros A1 A2 A3 A4 B1 B2 B3 B4 Hc El E. rewrite (position_eq dims1 loc1 dx g1 r1 c I1) by auto. rewrite (position_eq dims2 loc2 dx g2 r2 c I2) by (auto; lia). now rewrite E, El.
Qed.

(** C42. The cells of the domain exactly cover it: along an axis of n cells whose range is R (x_range for the last axis, else what the
    simulator derives from it), cell i is the i-th of n equal cells of [0, R], and all cells are cubes. *)
Theorem C42_covers_domain dims loc x_range g r c I : grid_ok dims loc -> 0 <= g -> 0 <= r < zprod dims -> (c < length loc)%nat -> inb (ghosted g loc) I ->
  let n k := nth k (global_size dims loc) 0 in let last := (length loc - 1)%nat in let k := (last - c)%nat in
  let range k := other_range x_range (n k) (n last) in
  (position_field dims loc (cell_size x_range (n last)) g r c I == (inject_Z (nth k (ghost_pos dims loc g r I) 0%Z) + (1 # 2)) * (range k / inject_Z (n k)))%Q /\
  (range last == x_range)%Q /\ (range k / inject_Z (n k) == x_range / inject_Z (n last))%Q.
Proof. exact (covers dims loc x_range g r c I). Qed.

(** C46. The 2D constructor returns for every supported flow type and divisible
    grid, whatever the ghost size, the penalty zone and the process grid (FINDING:
    compilation errors are caught and logged); the missing kernels show as
    AttributeError in the first time step, exactly if a requirement is violated.
    The 3D constructor returns exactly if all requirements hold (ValueError
    otherwise), and then no kernel is missing. *)
Theorem C46_constructor_2d f fs grid topo g width :
  (exists s, new_simulator_2d f fs grid topo g width = Ok s) <->
  ((f = PassiveScalar /\ fs = false) \/ f = NavierStokes \/ f = NavierStokesForcing) /\ mpi_construct grid topo <> None.
Proof. exact (new_2d_ok f fs grid topo g width). Qed.
Theorem C46_time_step_2d f fs grid py px g width s : new_simulator_2d f fs grid [py; px] g width = Ok s ->
  (snd (perform s (step_calls_2d f)) = false <->
   2 <= g /\ (f = NavierStokes \/ f = NavierStokesForcing -> (py = 1 \/ px = 1) /\ exists w, width = PyInt w /\ 0 <= w)).
Proof.
  intros H. rewrite (step_2d f fs grid py px g width s H). unfold runnable_2d, valid_width. cbn [nth]. destruct f; cbn [is_ns]; split; intros [X Y]; (split; [exact X|]); intros Z; try discriminate Z; try (destruct Z as [Z|Z]; discriminate Z); apply Y; tauto || reflexivity.
Qed.
(** FINDING: when it is the Poisson solver or the penalty zone that was rejected,
    the failing step has already advected and diffused the vorticity. *)
Theorem C46_failing_step_half_done fs grid py px g width s : new_simulator_2d NavierStokes fs grid [py; px] g width = Ok s -> 2 <= g ->
  ((py <> 1 /\ px <> 1) \/ ~ (exists w, width = PyInt w /\ 0 <= w)) -> perform s (step_calls_2d NavierStokes) = ([AAdvection; ADiffusion], true).
Proof. exact (half_step_2d fs grid py px g width s). Qed.
(** What the first step does, in every case. *)
Theorem C46_step_done_2d f fs grid py px g width s : new_simulator_2d f fs grid [py; px] g width = Ok s ->
  let good := (py = 1 \/ px = 1) /\ exists w, width = PyInt w /\ 0 <= w in
  (g < 2 -> perform s (step_calls_2d f) = ([], true)) /\
  (2 <= g -> f = PassiveScalar -> perform s (step_calls_2d f) = ([AAdvection; ADiffusion], false)) /\
  (2 <= g -> good -> f = NavierStokes -> perform s (step_calls_2d f) = ([AAdvection; ADiffusion; APenalise; APoisson; ACurl; AFreeStream], false)) /\
  (2 <= g -> good -> f = NavierStokesForcing -> perform s (step_calls_2d f) = ([AUpdateVorticity; AAdvection; ADiffusion; APenalise; APoisson; ACurl; AFreeStream; ASetField], false)) /\
  (2 <= g -> ~ good -> f = NavierStokes -> perform s (step_calls_2d f) = ([AAdvection; ADiffusion], true)) /\
  (2 <= g -> ~ good -> f = NavierStokesForcing -> perform s (step_calls_2d f) = ([], true)).
Proof. exact (step_done_2d f fs grid py px g width s). Qed.
Theorem C46_errors_reported_2d_refuted : ~ (forall f fs grid py px g width,
  ~ (2 <= g /\ (f = NavierStokes \/ f = NavierStokesForcing -> (py = 1 \/ px = 1) /\ exists w, width = PyInt w /\ 0 <= w)) ->
  forall s, new_simulator_2d f fs grid [py; px] g width <> Ok s).
Proof. intros H. apply (H PassiveScalar false [8; 8] 2 2 1 (PyInt 2)) with (s := [ADiffusion]); [intros [X _]; lia|reflexivity]. Qed.
Theorem C46_constructor_3d f grid topo g width filter :
  let required := match f with
    | PassiveScalar | PassiveVector => 2 <= g
    | _ => 1 <= g /\ Exists (fun t => t = 1) topo /\ (exists w, width = PyInt w /\ 0 <= w) /\
           match filter with None => True | Some (order, known_type) => (exists o, order = PyInt o /\ 0 <= o) /\ known_type = true end
    end in
  ((exists s, new_simulator_3d f grid topo g width filter = Ok s) <-> f <> OtherFlow /\ mpi_construct grid topo <> None /\ required) /\
  (f <> OtherFlow -> mpi_construct grid topo <> None -> ~ required -> new_simulator_3d f grid topo g width filter = ValueError) /\
  (forall s, new_simulator_3d f grid topo g width filter = Ok s -> perform s (step_calls_3d f) =
     (match f with
      | NavierStokes => [ACross; AUpdateVorticity; ADiffusion; AFilter; APenalise; APoisson; ACurl; AFreeStream]
      | NavierStokesForcing => [AUpdateVorticity; ACross; AUpdateVorticity; ADiffusion; AFilter; APenalise; APoisson; ACurl; AFreeStream; ASetField]
      | _ => [AAdvection; ADiffusion] end, false)).
Proof.
  assert (X : forall f, let required := match f with
    | PassiveScalar | PassiveVector => 2 <= g
    | _ => 1 <= g /\ Exists (fun t => t = 1) topo /\ (exists w, width = PyInt w /\ 0 <= w) /\
           match filter with None => True | Some (order, known_type) => (exists o, order = PyInt o /\ 0 <= o) /\ known_type = true end
    end in
  ((exists s, new_simulator_3d f grid topo g width filter = Ok s) <-> f <> OtherFlow /\ mpi_construct grid topo <> None /\ required) /\
  (f <> OtherFlow -> mpi_construct grid topo <> None -> ~ required -> new_simulator_3d f grid topo g width filter = ValueError) /\
  (forall s, new_simulator_3d f grid topo g width filter = Ok s -> snd (perform s (step_calls_3d f)) = false)).
  { clear f. intros f. destruct f; try exact (new_3d_ok _ grid topo g width filter). cbn zeta. destruct (new_3d_ok OtherFlow grid topo g width filter) as (A & B & C). split; [|split; [congruence|exact C]]. rewrite A. split; intros [X _]; congruence. }
  destruct (X f) as (A & B & C). split; [exact A|]. split; [exact B|]. intros s H. rewrite (perform_all s _ (C s H)). destruct f; reflexivity.
Qed.

(** Which kernels a simulator has then, exactly. *)
Theorem C46_kernels_2d f fs grid py px g width s : new_simulator_2d f fs grid [py; px] g width = Ok s -> 2 <= g ->
  (f = NavierStokes \/ f = NavierStokesForcing -> (py = 1 \/ px = 1) /\ exists w, width = PyInt w /\ 0 <= w) ->
  forall a, In a s <-> In a match f with
    | NavierStokes => [AAdvection; ADiffusion; APenalise; APoisson; ACurl; AFreeStream]
    | NavierStokesForcing => [AUpdateVorticity; AAdvection; ADiffusion; APenalise; APoisson; ACurl; AFreeStream; ASetField]
    | _ => [AAdvection; ADiffusion; AFreeStream] end.
Proof. intros H Hg Hns a. rewrite (names_2d f fs grid py px g width s H Hg Hns). destruct f; cbn; tauto. Qed.
Theorem C46_kernels_3d f grid topo g width filter s : new_simulator_3d f grid topo g width filter = Ok s ->
  forall a, In a s <-> In a match f with
    | NavierStokes => [ACross; AUpdateVorticity; ADiffusion; AFilter; APenalise; APoisson; ACurl; AFreeStream; ADivergence]
    | NavierStokesForcing => [AUpdateVorticity; ACross; ADiffusion; AFilter; APenalise; APoisson; ACurl; AFreeStream; ADivergence; ASetField]
    | _ => [AAdvection; ADiffusion] end.
Proof. intros H a. rewrite (names_3d f grid topo g width filter s H). destruct f; try (cbn; tauto). unfold new_simulator_3d in H. discriminate. Qed.

(** Non-vacuity. *)
Example C46_nonvacuous :
  new_simulator_2d NavierStokesForcing true [8; 8] [1; 4] 2 (PyInt 2) = Ok [ADiffusion; AAdvection; APoisson; ACurl; APenalise; AUpdateVorticity; ASetField; AFreeStream] /\
  new_simulator_2d NavierStokes false [8; 8] [2; 2] 2 (PyInt 2) = Ok [ADiffusion; AAdvection] /\
  new_simulator_3d NavierStokes [8; 8; 8] [2; 2; 2] 2 (PyInt 2) None = ValueError /\
  new_simulator_3d PassiveVector [8; 8; 8] [2; 2; 2] 1 (PyInt 2) None = ValueError /\
  new_simulator_3d PassiveVector [8; 8; 8] [2; 2; 2] 2 (PyInt 2) None = Ok [ADiffusion; AAdvection].
Proof. repeat split. Qed.
Example C42_nonvacuous : grid_ok [2; 2] [3; 4] /\ inb (ghosted 2 [3; 4]) [5; 1] /\ inb (ghosted 1 [3; 4]) [1; 4] /\
  ghost_pos [2; 2] [3; 4] 2 1 [5; 1] = [3; 3] /\ ghost_pos [2; 2] [3; 4] 1 2 [1; 4] = [3; 3] /\
  Qeq (position_field [2; 2] [3; 4] (1 # 8)%Q 2 1 0%nat [5; 1]) (7 # 16)%Q.
Proof. repeat split; repeat constructor; lia. Qed.
Example C35_nonvacuous : exists (m : mem R) u, grid_ok [2; 1] [2; 3] /\ represents [2; 1] [2; 3] 2 [0; 1]%nat m u /\
  ordered Rle Rmin Rmax /\ is_max Rle (inb (global_size [2; 1] [2; 3])) (speed abs_sum u [0; 1]%nat) 5%R /\ dt_limit 2 (1 / 10) 1 1 0 0 5 = (1 / 60)%R.
Proof.
  exists (fun p => if (fst (snd p) =? 0)%nat then -3 else 2)%R, (fun f _ => if (f =? 0)%nat then -3 else 2)%R.
  split; [split; [reflexivity|repeat constructor; lia|repeat constructor; lia]|].
  split; [intros r f x _ _ _; reflexivity|]. split; [exact ordered_R|].
  assert (E : forall p, speed abs_sum (fun f (_ : list Z) => if (f =? 0)%nat then -3 else 2)%R [0; 1]%nat p = 5%R).
  { intros p. unfold speed, abs_sum. cbn [map fold_right Nat.eqb]. rewrite (Rabs_left (-3)) by lra. rewrite (Rabs_right 2) by lra. lra. }
  split; [split|].
  - exists [0; 0]. split; [|now rewrite E]. change (inb [4; 3] [0; 0]). constructor; [lia|]. constructor; [lia|constructor].
  - intros p _. rewrite E. lra.
  - unfold dt_limit. destruct (Req_EM_T (0 + 0) 0) as [_|N]; [lra|contradiction N; lra].
Qed.

Print Assumptions C35_stable_timestep_any_arithmetic.
Print Assumptions C35_stable_timestep_rounded.
Print Assumptions C35_stable_timestep.
Print Assumptions C35_timestep_decomposition_independent.
Print Assumptions C35_max_vorticity.
Print Assumptions C35_divergence_norm.
Print Assumptions C35_ghost_size_zero_raises.
Print Assumptions C37_support_check.
Print Assumptions C37_guards.
Print Assumptions C37_positive_guard_refuted.
Print Assumptions C37_bad_sizes_accepted.
Print Assumptions C42_cell_centres.
Print Assumptions C42_ranks_agree.
Print Assumptions C42_covers_domain.
Print Assumptions C46_constructor_2d.
Print Assumptions C46_step_done_2d.
Print Assumptions C46_time_step_2d.
Print Assumptions C46_failing_step_half_done.
Print Assumptions C46_errors_reported_2d_refuted.
Print Assumptions C46_constructor_3d.
Print Assumptions C46_kernels_2d.
Print Assumptions C46_kernels_3d.
