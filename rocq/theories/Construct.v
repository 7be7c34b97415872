(** Model of the ghost-size checks and of the construction of the flow
    simulators: which constructor calls raise, and which kernels a simulator has
    when its constructor has returned. *)
From Coq Require Import QArith.
From Verif Require Import Base Cart PyNum Penalise Filter Doubling.
Open Scope Z_scope.

(** Comparison of Python numbers. *)
Definition py_value (x : pynum) : Q := match x with PyInt z => inject_Z z | PyFloat q => q end.
Definition py_lt (x y : pynum) : bool := negb (Qle_bool (py_value y) (py_value x)).

(** check_valid_ghost_size_and_kernel_support, mpi_utils.py:17-24 *)
Definition check_valid (ghost_size kernel_support : pynum) : outcome unit :=
  if py_lt ghost_size kernel_support then ValueError else Ok tt.
(** `if ghost_size <= 0 and not isinstance(ghost_size, int): raise ValueError`,
    mpi_utils_2d.py:121-124, mpi_utils_3d.py:120-123 (ghost communicators) *)
Definition guard_positive (ghost_size : pynum) : outcome unit :=
  if py_le0 ghost_size && negb (is_int ghost_size) then ValueError else Ok tt.
(** `if ghost_size < 0 and not isinstance(ghost_size, int): raise ValueError`,
    mpi_utils_2d.py:435-439, mpi_utils_3d.py:1157-1161, mpi_io.py:81-85,
    UnboundedPoissonSolverMPI2D.py:169-173, UnboundedPoissonSolverMPI3D.py:203-207,
    EulerianLagrangianGridCommunicatorMPI2D.py:532-536, EulerianLagrangianGridCommunicatorMPI3D.py:603-607 *)
Definition guard_nonnegative (ghost_size : pynum) : outcome unit :=
  if py_lt0 ghost_size && negb (is_int ghost_size) then ValueError else Ok tt.

(** flow_type strings; [OtherFlow] is any other string. *)
Inductive flow_type := PassiveScalar | PassiveVector | NavierStokes | NavierStokesForcing | OtherFlow.
Definition is_ns (f : flow_type) : bool := match f with NavierStokes | NavierStokesForcing => true | _ => false end.
Definition is_forcing (f : flow_type) : bool := match f with NavierStokesForcing => true | _ => false end.

(** The attributes compile_kernels assigns. *)
Inductive attr := ADiffusion | AAdvection | APoisson | ACurl | APenalise | ACross | AUpdateVorticity | ADivergence | AFilter | ASetField | AFreeStream.
Definition attr_eqb (a b : attr) : bool :=
  match a, b with
  | ADiffusion, ADiffusion | AAdvection, AAdvection | APoisson, APoisson | ACurl, ACurl | APenalise, APenalise | ACross, ACross
  | AUpdateVorticity, AUpdateVorticity | ADivergence, ADivergence | AFilter, AFilter | ASetField, ASetField | AFreeStream, AFreeStream => true
  | _, _ => false
  end.
(** Assignments in order; the first that raises ends the method.  The result is
    the attributes assigned so far and whether an exception escaped. *)
Fixpoint compile (l : list (attr * outcome unit)) : list attr * option (outcome unit) :=
  match l with
  | [] => ([], None)
  | (a, Ok _) :: l' => let (s, e) := compile l' in (a :: s, e)
  | (a, err) :: _ => ([], Some err)
  end.

Definition kernel (ghost_size ks : Z) : outcome unit := check_valid (PyInt ghost_size) (PyInt ks).
Definition to_unit {A} (o : outcome A) : outcome unit :=
  match o with Ok _ => Ok tt | ValueError => ValueError | RuntimeError => RuntimeError | IndexError => IndexError end.

(** UnboundedFlowSimulator2D.compile_kernels, flow_simulators_mpi_2d.py:166-240.
    Kernel supports: diffusion 1, advection 2, curl 1, forcing 1.  The Poisson
    solver raises if both axes are distributed (UnboundedPoissonSolverMPI2D.py:180-188). *)
Definition kernels_2d (f : flow_type) (topo : list Z) (g : Z) (width : pynum) : list (attr * outcome unit) :=
  [(ADiffusion, kernel g 1); (AAdvection, kernel g 2)] ++
  (if is_ns f then
     [(APoisson, to_unit (distributed_dim2 (nth 0 topo 1) (nth 1 topo 1)));
      (ACurl, kernel g 1); (APenalise, to_unit (penalise_width width))] else []) ++
  (if is_forcing f then [(AUpdateVorticity, kernel g 1); (ASetField, Ok tt)] else []) ++
  [(AFreeStream, Ok tt)].
(** UnboundedFlowSimulator3D.compile_kernels, flow_simulators_mpi_3d.py:198-325.
    [filter] is None without filtering, otherwise the order (and type valid or not). *)
Definition kernels_3d (f : flow_type) (topo : list Z) (g : Z) (width : pynum) (filter : option (pynum * bool)) : list (attr * outcome unit) :=
  (match f with PassiveScalar | PassiveVector => [(ADiffusion, kernel g 1); (AAdvection, kernel g 2)] | _ => [] end) ++
  (if is_ns f then
     [(ADiffusion, kernel g 1); (APoisson, double3_check topo); (ACurl, kernel g 1); (APenalise, to_unit (penalise_width width));
      (ACross, Ok tt); (AUpdateVorticity, kernel g 1); (ADivergence, kernel g 1);
      (AFilter, match filter with
                | None => Ok tt
                | Some (order, valid_type) =>
                    (** laplacian_filter_mpi_3d.py:41-57, 393-397 *)
                    match filter_args order (PyInt 1) with
                    | Ok _ => match kernel g 1 with Ok _ => if valid_type then Ok tt else ValueError | e => e end
                    | _ => ValueError
                    end
                end)] else []) ++
  (if is_forcing f then [(ASetField, Ok tt)] else []) ++
  (if is_ns f then [(AFreeStream, Ok tt)] else []).

(** UnboundedFlowSimulator2D.__init__, flow_simulators_mpi_2d.py:54-93: the
    exception of compile_kernels is caught and logged (88-92).  The result is the
    set of kernels the simulator has. *)
Definition new_simulator_2d (f : flow_type) (free_stream : bool) (grid topo : list Z) (g : Z) (width : pynum) : outcome (list attr) :=
  match f with
  | OtherFlow | PassiveVector => ValueError
  | _ =>
    if (match f with PassiveScalar => free_stream | _ => false end) then ValueError
    else match mpi_construct grid topo with
         | None => RuntimeError
         | Some _ => match guard_positive (PyInt g) with
                     | Ok _ => Ok (fst (compile (kernels_2d f topo g width)))
                     | _ => ValueError
                     end
         end
  end.
(** UnboundedFlowSimulator3D.__init__, flow_simulators_mpi_3d.py:59-107 *)
Definition new_simulator_3d (f : flow_type) (grid topo : list Z) (g : Z) (width : pynum) (filter : option (pynum * bool)) : outcome (list attr) :=
  match f with
  | OtherFlow => ValueError
  | _ =>
    match mpi_construct grid topo with
    | None => RuntimeError
    | Some _ => match guard_positive (PyInt g) with
                | Ok _ => match compile (kernels_3d f topo g width filter) with
                          | (s, None) => Ok s
                          | (_, Some ValueError) => ValueError
                          | (_, Some RuntimeError) => RuntimeError
                          | (_, Some _) => IndexError
                          end
                | _ => ValueError
                end
    end
  end.

(** The attributes a time step calls, in order: flow_simulators_mpi_2d.py:255-306, _3d.py:351-424. *)
Definition step_calls_2d (f : flow_type) : list attr :=
  let ad := [AAdvection; ADiffusion] in
  let ns := ad ++ [APenalise; APoisson; ACurl; AFreeStream] in
  match f with NavierStokes => ns | NavierStokesForcing => AUpdateVorticity :: ns ++ [ASetField] | _ => ad end.
Definition step_calls_3d (f : flow_type) : list attr :=
  let ns := [ACross; AUpdateVorticity; ADiffusion; AFilter; APenalise; APoisson; ACurl; AFreeStream] in
  match f with NavierStokes => ns | NavierStokesForcing => AUpdateVorticity :: ns ++ [ASetField] | _ => [AAdvection; ADiffusion] end.
(** Python attribute lookup: the calls made before the first missing attribute,
    and whether the step ends with AttributeError. *)
Fixpoint perform (have calls : list attr) : list attr * bool :=
  match calls with
  | [] => ([], false)
  | a :: calls' => if existsb (attr_eqb a) have then let (d, e) := perform have calls' in (a :: d, e) else ([], true)
  end.
