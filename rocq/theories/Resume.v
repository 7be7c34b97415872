(** Model of the restart of a coupled simulation, examples/3d_examples/FlowPastFreelyRotatingRodCase/flow_past_freely_rotating_rod_case.py:199-248
    (the flow's part is in Restart.v, the body's own state, lines 193-197, 221 and 225-228, belongs to PyElastica and CosseratRodMPIIO: C33).

    Simplifications: one file per body, as in the example; the stored positions are turned into rational numbers by [val]. *)
From Coq Require Import QArith String.
From Verif Require Import Base SpecGrid SpecVbf SpecCoupled Comm Blocking Lagrangian Vbf Coupled IoLag SpecResume.
Open Scope Z_scope.
Open Scope list_scope.

Section R.
Context {T : Type}.
Variables (z fill : T) (val : T -> Q) (dx shift : Q) (dims loc : list Z) (nc : Z) (actors : nat -> actor T) (ord : nat -> list Z -> list Z).

(** forcing_grid_io.add_as_lagrangian_fields_for_io, 204-210 *)
Definition mismatch_fields (a : actor T) : ladd :=
  let A := a_arrays a in let N := v_count (a_body a) in
  {| la_name := Some "mismatch_field"%string; la_master := a_master a; la_grid := gpos A; la_n := N; la_connect := false;
     la_fields := [("position_mismatch"%string, (gpm A, [nc; N])); ("velocity_mismatch"%string, (gvm A, [nc; N]))] |}.
(** The forcing grid's position_field on the master, after loading. *)
Definition stored_positions (a : actor T) (m : mem T) : list (list Q) :=
  map (fun j => map (fun c => val (m (a_master a, (gpos (a_arrays a), c * v_count (a_body a) + j)))) (zrange 0 nc)) (zrange 0 (v_count (a_body a))).
(** _init_local_buffers and the two scatters, 237-248 (on rank r; addr is rank_address after the mapping, 230-232) *)
Definition reinit (a : actor T) (addr order : list Z) (r : Z) : list (@bop T) :=
  [BLocal (init_local_buffers z (a_arrays a))] ++
  lag_scatter addr nc (a_master a) order (gpm (a_arrays a)) (lpm (a_arrays a)) r ++
  lag_scatter addr nc (a_master a) order (gvm (a_arrays a)) (lvm (a_arrays a)) r.
(** The first k bodies, one after the other: load the file, 222-224; map, 230-232; local_num_lag_nodes, 234-236; buffers and scatters, 237-248. *)
Inductive resumed (files : nat -> lfile T) : nat -> mem T -> (nat -> vb) -> mem T -> (nat -> vb) -> Prop :=
| re_0 m ss : resumed files 0 m ss m ss
| re_S k m ss m1 ss1 m2 addr m3 : resumed files k m ss m1 ss1 ->
    lag_loaded_as fill nc [mismatch_fields (actors k)] (files k) m1 m2 ->
    map_nodes false dims loc dx shift (Z.of_nat (length dims)) (stored_positions (actors k) m2) = Mapped addr ->
    segs_end (zprod dims) [SBlk (reinit (actors k) addr (ord k addr))] m2 m3 ->
    resumed files (S k) m ss m3 (set_at ss1 k (vb_init addr (ord k addr))).
End R.
