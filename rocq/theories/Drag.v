(** Model of the drag history that drivers with a fixed body write:
    examples/2d_examples/FlowPastCylinderCase/flow_past_cylinder.py:85-88, 133-147, 173-186 (data_timer),
    examples/3d_examples/FlowPastSphereCase/flow_past_sphere_case.py:147-167, 214-223 (foto_timer): when the timer is due, the
    master appends flow_sim.time and the coefficient from np.sum(global_lag_grid_forcing_field[x_axis_idx, ...]) to two lists;
    after the loop it writes them to drag_vs_time.csv.  The loop itself is Adaptive.v and Driver.v.

    Simplifications: the two lists are one list of pairs; np.sum is some function of the row of the array; the scaling of time and
    drag (timescale, np.fabs, / drag_force_scale) is arbitrary; the file is its list of rows. *)
From Verif Require Import Base SpecGrid SpecVbf Comm Blocking Vbf Adaptive.
Open Scope Z_scope.

Section D.
Context {T E W TI D : Type}.
Variables (plus : W -> W -> W) (timer : nat) (master : Z) (arr : nat) (count : Z) (np_sum : list T -> T) (scaled : W -> TI) (coeff : T -> D).
(** np.sum(global_lag_grid_forcing_field[x_axis_idx, ...]) on rank r; x_axis_idx = 0.
    flow_past_cylinder.py:141-145, flow_past_sphere_case.py:158-164 *)
Definition summed (m : mem T) (r : Z) : T := np_sum (map (fun j => m (r, (arr, 0 * count + j))) (zrange 0 count)).
(** What rank r, whose time is t, appends in the iterations tr.
    flow_past_cylinder.py:134-147, flow_past_sphere_case.py:153-167 *)
Fixpoint appended (r : Z) (t : W) (tr : list (seen T W E)) : list (TI * D) :=
  match tr with
  | [] => []
  | e :: tr' => (if nth timer (e_due e) false then if r =? master then [(scaled t, coeff (summed (e_mem e) r))] else [] else []) ++ appended r (plus t (e_dt e)) tr'
  end.
(** drag_vs_time.csv as rank r writes it after the loop (None: it does not).
    flow_past_cylinder.py:173-186, flow_past_sphere_case.py:217-223 *)
Definition drag_file (r : Z) (t : W) (tr : list (seen T W E)) : option (list (TI * D)) :=
  if r =? master then Some (appended r t tr) else None.
End D.
