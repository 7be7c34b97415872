(** Model of MPIPlotter2D, sopht_mpi/utils/mpi_utils_2d.py:715-841.

    Simplifications: matplotlib is reduced to what a figure shows ([picture]): contourf, scatter and plot draw on the axes the values
    their arguments have then; colorbar adds a colour bar to the figure; cla removes what is drawn on the axes and the title, not the
    colour bars; cbar.remove removes that bar; savefig writes the figure as it is.  Numbers of cells, levels and colours are not
    modelled.  One model for any number of axes (the class is used with 2D fields). *)
From Verif Require Import Base SpecGrid Comm Blocking SpecBlocking FieldComm SpecPlotter.
Open Scope Z_scope.

Section P.
Context {T D Name : Type}.
Variables (dims loc : list Z) (g master : Z) (order : list Z).
(** the plotter's global buffers field_io, x_grid_io, y_grid_io, 747-752 *)
Variables fio xio yio : nat.

(** The attribute cbar: __init__ (730-754) does not set it. *)
Inductive attribute := Missing | IsNone | IsBar.
(** A rank's figure and cbar. *)
Record plotter := { fig : picture T D; cbar : attribute }.
(** __init__ and create_figure_and_axes, 730-775 (on all ranks) *)
Definition new_plotter : plotter := {| fig := {| shown := []; bars := 0; titled := true |}; cbar := Missing |}.
(** Memory; every rank's plotter; the files written so far: by whom, name, picture. *)
Record world := { w_mem : Z -> @lmem T; w_plot : Z -> plotter; w_files : list (Z * Name * picture T D) }.
Definition ranks : list Z := zrange 0 (zprod dims).

(** contourf, 777-809: three gathers, on all ranks, *)
Definition contourf_prog (x y f : nat) (r : Z) : list (@bop T) :=
  gather_scalar dims loc g master order r fio f ++ gather_scalar dims loc g master order r xio x ++ gather_scalar dims loc g master order r yio y.
(** then the rank draws what is in its buffers *)
Definition global_array (m : @lmem T) (a : nat) (P : list Z) : T := m (a, ravel (global_size dims loc) P).
Definition draw_contour (m : @lmem T) (p : plotter) : plotter :=
  {| fig := {| shown := shown (fig p) ++ [Contours (global_array m xio) (global_array m yio) (global_array m fio)]; bars := S (bars (fig p)); titled := titled (fig p) |}; cbar := IsBar |}.
(** scatter, plot, 811-823 *)
Definition draw_data (d : D) (p : plotter) : plotter := {| fig := {| shown := shown (fig p) ++ [Data d]; bars := bars (fig p); titled := titled (fig p) |}; cbar := cbar p |}.
(** clearfig, 836-841: cla; then the bar, if there is one; AttributeError if there is no attribute cbar *)
Definition clear_fig (p : plotter) : option plotter :=
  match cbar p with
  | Missing => None
  | IsNone => Some {| fig := {| shown := []; bars := bars (fig p); titled := false |}; cbar := IsNone |}
  | IsBar => Some {| fig := {| shown := []; bars := pred (bars (fig p)); titled := false |}; cbar := IsNone |}
  end.
(** execute_only_on_master, 756-764: for what rank r does and what it writes *)
Definition only_on_master {A} (r : Z) (yes no : A) : A := if r =? master then yes else no.
(** savefig, 825-834 *)
Definition saves_now (name : Name) (w : world) : list (Z * Name * picture T D) :=
  flat_map (fun r => only_on_master r [(r, name, fig (w_plot w r))] []) ranks.

(** One call made by all ranks.  None: AttributeError on some rank. *)
Inductive plot_step (w : world) : plot_call T D Name -> option world -> Prop :=
| ps_contourf x y f m : runs_to (zprod dims) (contourf_prog x y f) (w_mem w) m ->
    plot_step w (Contourf x y f) (Some {| w_mem := m; w_plot := fun r => draw_contour (m r) (w_plot w r); w_files := w_files w |})
| ps_data d : plot_step w (DrawData d) (Some {| w_mem := w_mem w; w_plot := fun r => only_on_master r (draw_data d (w_plot w r)) (w_plot w r); w_files := w_files w |})
| ps_save name : plot_step w (SaveFig name) (Some {| w_mem := w_mem w; w_plot := w_plot w; w_files := w_files w ++ saves_now name w |})
| ps_clear p : (forall r, clear_fig (w_plot w r) = Some (p r)) -> plot_step w ClearFig (Some {| w_mem := w_mem w; w_plot := p; w_files := w_files w |})
| ps_fails r : 0 <= r < zprod dims -> clear_fig (w_plot w r) = None -> plot_step w ClearFig None
| ps_simulate u m : (forall r a i, ~ In a [fio; xio; yio] -> m r (a, i) = u r (a, i)) -> (forall r a i, In a [fio; xio; yio] -> m r (a, i) = w_mem w r (a, i)) ->
    plot_step w (Simulate u) (Some {| w_mem := m; w_plot := w_plot w; w_files := w_files w |}).
(** A script; it stops at the first exception. *)
Inductive plots : world -> list (plot_call T D Name) -> option world -> Prop :=
| pl_done w : plots w [] (Some w)
| pl_step w c cs w' o : plot_step w c (Some w') -> plots w' cs o -> plots w (c :: cs) o
| pl_fail w c cs : plot_step w c None -> plots w (c :: cs) None.
Definition begins (m : Z -> @lmem T) : world := {| w_mem := m; w_plot := fun _ => new_plotter; w_files := [] |}.
End P.
