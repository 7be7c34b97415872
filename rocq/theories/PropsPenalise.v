(** Property C22: boundary penalisation. *)
From Verif Require Import Base SpecGrid SpecGhost SpecStencil SpecStep SpecPenalise Comm Spmd KernelList PyNum Penalise.
From Verif Require PenaliseProofs.

(** C22.  Penalisation on all ranks ends, under every schedule, with the serial
    sponge of the assembled arrays: on the inner cells for any ghost contents,
    and on the ghosts outside the domain too if those were given by u.
    The sponge must not be wider than the blocks. *)
Theorem C22_penalise_2d_serial (T C : Type) (damp : C -> C -> T -> T) (coord : nat -> Z -> C) per py px ny nx g w xg fld Fs (m : mem T) u :
  grid2 py px ny nx g -> 0 <= w -> w <= ny -> w <= nx -> coords_ok [py; px] [ny; nx] g xg coord ->
  exists m', spmd_ends (zprod [py; px]) (penalise_2d damp per py px ny nx g w xg fld) m m' /\
    let u' := on_fields [fld] (sponge damp coord (global_size [py; px] [ny; nx]) w per [1; 0]%nat) u in
    (represents [py; px] [ny; nx] g Fs m u -> represents [py; px] [ny; nx] g Fs m' u') /\
    (represents_ext per [py; px] [ny; nx] g Fs m u -> represents_ext per [py; px] [ny; nx] g Fs m' u').
Proof. exact (PenaliseProofs.penalise_2d_serial damp coord per py px ny nx g w xg fld Fs m u). Qed.

Theorem C22_penalise_3d_serial (T C : Type) (damp : C -> C -> T -> T) (coord : nat -> Z -> C) per pz py px n0 n1 n2 g w xg fld Fs (m : mem T) u :
  grid3 pz py px n0 n1 n2 g -> 0 <= w -> w <= n0 -> w <= n1 -> w <= n2 -> coords_ok [pz; py; px] [n0; n1; n2] g xg coord ->
  exists m', spmd_ends (zprod [pz; py; px]) (penalise_3d damp per pz py px n0 n1 n2 g w xg fld) m m' /\
    let u' := on_fields [fld] (sponge damp coord (global_size [pz; py; px] [n0; n1; n2]) w per [2; 1; 0]%nat) u in
    (represents [pz; py; px] [n0; n1; n2] g Fs m u -> represents [pz; py; px] [n0; n1; n2] g Fs m' u') /\
    (represents_ext per [pz; py; px] [n0; n1; n2] g Fs m u -> represents_ext per [pz; py; px] [n0; n1; n2] g Fs m' u').
Proof. exact (PenaliseProofs.penalise_3d_serial damp coord per pz py px n0 n1 n2 g w xg fld Fs m u). Qed.

Theorem C22_penalise_vector_3d_serial (T C : Type) (damp : C -> C -> T -> T) (coord : nat -> Z -> C) per pz py px n0 n1 n2 g w xg flds Fs (m : mem T) u :
  grid3 pz py px n0 n1 n2 g -> 0 <= w -> w <= n0 -> w <= n1 -> w <= n2 -> coords_ok [pz; py; px] [n0; n1; n2] g xg coord -> NoDup flds ->
  exists m', spmd_ends (zprod [pz; py; px]) (penalise_vector_3d damp per pz py px n0 n1 n2 g w xg flds) m m' /\
    let u' := on_fields flds (sponge damp coord (global_size [pz; py; px] [n0; n1; n2]) w per [2; 1; 0]%nat) u in
    (represents [pz; py; px] [n0; n1; n2] g Fs m u -> represents [pz; py; px] [n0; n1; n2] g Fs m' u') /\
    (represents_ext per [pz; py; px] [n0; n1; n2] g Fs m u -> represents_ext per [pz; py; px] [n0; n1; n2] g Fs m' u').
Proof. exact (PenaliseProofs.penalise_vector_3d_serial damp coord per pz py px n0 n1 n2 g w xg flds Fs m u). Qed.

(** Cells at least w away from every physical boundary keep their values. *)
Theorem C22_unchanged_outside_sponge (T C : Type) (damp : C -> C -> T -> T) (coord : nat -> Z -> C) per py px ny nx g w xg fld r x (m m' : mem T) :
  grid2 py px ny nx g -> 0 <= w -> w <= ny -> w <= nx -> coords_ok [py; px] [ny; nx] g xg coord ->
  spmd_ends (zprod [py; px]) (penalise_2d damp per py px ny nx g w xg fld) m m' ->
  0 <= r < zprod [py; px] -> inb [ny; nx] x ->
  (forall a, (a < 2)%nat -> w <= nth a (vadd (block_start [py; px] [ny; nx] r) x) 0 < nth a [py * ny; px * nx] 0 - w) ->
  forall f, field m' (ghosted g [ny; nx]) r f (map (fun i => i + g) x) = field m (ghosted g [ny; nx]) r f (map (fun i => i + g) x).
Proof. exact (PenaliseProofs.penalise_2d_unchanged damp coord per py px ny nx g w xg fld r x m m'). Qed.
Theorem C22_unchanged_outside_sponge_3d (T C : Type) (damp : C -> C -> T -> T) (coord : nat -> Z -> C) per pz py px n0 n1 n2 g w xg fld r x (m m' : mem T) :
  grid3 pz py px n0 n1 n2 g -> 0 <= w -> w <= n0 -> w <= n1 -> w <= n2 -> coords_ok [pz; py; px] [n0; n1; n2] g xg coord ->
  spmd_ends (zprod [pz; py; px]) (penalise_3d damp per pz py px n0 n1 n2 g w xg fld) m m' ->
  0 <= r < zprod [pz; py; px] -> inb [n0; n1; n2] x ->
  (forall a, (a < 3)%nat -> w <= nth a (vadd (block_start [pz; py; px] [n0; n1; n2] r) x) 0 < nth a [pz * n0; py * n1; px * n2] 0 - w) ->
  forall f, field m' (ghosted g [n0; n1; n2]) r f (map (fun i => i + g) x) = field m (ghosted g [n0; n1; n2]) r f (map (fun i => i + g) x).
Proof. exact (PenaliseProofs.penalise_3d_unchanged damp coord per pz py px n0 n1 n2 g w xg fld r x m m'). Qed.

(** Width 0 changes nothing at all. *)
Theorem C22_width_zero (T C : Type) (damp : C -> C -> T -> T) per py px ny nx pz n0 n1 n2 g xg fld flds (m m' : mem T) :
  (spmd_ends (zprod [py; px]) (penalise_2d damp per py px ny nx g 0 xg fld) m m' -> m' = m) /\
  (spmd_ends (zprod [pz; py; px]) (penalise_3d damp per pz py px n0 n1 n2 g 0 xg fld) m m' -> m' = m) /\
  (spmd_ends (zprod [pz; py; px]) (penalise_vector_3d damp per pz py px n0 n1 n2 g 0 xg flds) m m' -> m' = m).
Proof. exact (PenaliseProofs.width_zero damp per py px ny nx pz n0 n1 n2 g xg fld flds m m'). Qed.

(** Negative or non-integer widths, and only those, are refused. *)
Theorem C22_width_check width :
  (penalise_width width = ValueError <-> py_lt0 width = true \/ is_int width = false) /\
  (forall w, penalise_width width = Ok w <-> width = PyInt w /\ 0 <= w).
Proof. exact (PenaliseProofs.penalise_width_spec width). Qed.

(** FINDING: a sponge wider than the blocks that still fits in the ghosted
    array is accepted and silently gives something else. *)
Theorem C22_wide_sponge_refuted :
  ~ (forall (damp : Z -> Z -> Z -> Z) (coord : nat -> Z -> Z) per py px ny nx g w xg fld Fs (m : mem Z) u, grid2 py px ny nx g ->
      0 <= w -> w <= py * ny -> w <= px * nx -> g + w <= ny + 2 * g -> g + w <= nx + 2 * g ->
      coords_ok [py; px] [ny; nx] g xg coord -> represents_ext per [py; px] [ny; nx] g Fs m u ->
      exists m', spmd_ends (zprod [py; px]) (penalise_2d damp per py px ny nx g w xg fld) m m' /\
        represents [py; px] [ny; nx] g Fs m' (on_fields [fld] (sponge damp coord (global_size [py; px] [ny; nx]) w per [1; 0]%nat) u)).
Proof. exact PenaliseProofs.wide_sponge_refuted. Qed.

(** 2 x 3 ranks, blocks 4 x 5, ghost size 2, sponge width 3, coordinates 2p+1 (cell centres);
    cell (4, 7) is outside the sponge. *)
Example penalise_instance : grid2 2 3 4 5 2 /\ 0 <= 3 <= 4 /\ 3 <= 5 /\
  coords_ok [2; 3] [4; 5] 2 (fun r a i => 2 * (nth a (block_start [2; 3] [4; 5] r) 0 + (i - 2)) + 1) (fun _ p => 2 * p + 1) /\
  (forall a, (a < 2)%nat -> 3 <= nth a (vadd (block_start [2; 3] [4; 5] 4) [0; 2]) 0 < nth a [2 * 4; 3 * 5] 0 - 3).
Proof.
  split; [unfold grid2; lia|]. split; [lia|]. split; [lia|]. split; [intros r a i _ _ _; reflexivity|].
  intros [|[|a]] H; [vm_compute; split; congruence|vm_compute; split; congruence|lia].
Qed.
Example sponge_value : sponge (fun a b v => (b - a) * v) (fun _ p => p) [8; 15] 3 false [1; 0]%nat (fun P => nth 0 P 0 + 100 * nth 1 P 0) [4; 1] = 204.
Proof. reflexivity. Qed.

Print Assumptions C22_penalise_2d_serial.
Print Assumptions C22_penalise_3d_serial.
Print Assumptions C22_penalise_vector_3d_serial.
Print Assumptions C22_unchanged_outside_sponge.
Print Assumptions C22_unchanged_outside_sponge_3d.
Print Assumptions C22_width_zero.
Print Assumptions C22_width_check.
Print Assumptions C22_wide_sponge_refuted.
