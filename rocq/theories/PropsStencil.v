(** Properties C16-C21: distributed stencil kernels. *)
From Verif Require Import Base SpecGrid SpecGhost SpecStencil SpecAdd Comm Spmd Stencil KernelList.
From Verif Require HaloThms KernelProofs Refute2 AddExact.

(** C16.  Every execution of a stencil kernel on all ranks terminates in one
    and the same memory, and that memory is the serial result on the global
    field.  Kernels that reset the physical boundary (diffusion flux 2D/3D,
    vector diffusion flux 3D, out-of-plane curl 2D, divergence 3D), any block at
    least as wide as the ghost layer. *)
Theorem C16_reset_kernels_serial (T : Type) (z : T) per dims loc g F k ps (m : mem T) :
  reset_kernel z per dims loc g F k ps ->
  exists m', spmd_ends (zprod dims) ps m m' /\ acts_as_serial per dims loc g 1 F k (Some z) m m'.
Proof. exact (KernelProofs.reset_kernel_serial z per dims loc g F k ps m). Qed.

(** Kernels that add to their output (advection flux, vorticity update from
    forcing or penalised velocity): blocks at least two radii wide. *)
Theorem C16_adding_kernels_serial (T : Type) per dims loc g ks F k ps (m : mem T) :
  adding_kernel per dims loc g ks F k ps -> Forall (fun n => 2 * ks <= n) loc ->
  exists m', spmd_ends (zprod dims) ps m m' /\ acts_as_serial per dims loc g ks F k None m m'.
Proof. exact (KernelProofs.adding_kernel_serial per dims loc g ks F k ps m). Qed.

(** The final memory is a function of the initial one: there is no other outcome. *)
Theorem C16_result_unique (T : Type) n ps (m m1 m2 : mem T) : spmd_ends n ps m m1 -> spmd_ends n ps m m2 -> m1 = m2.
Proof. exact (HaloThms.spmd_ends_det n ps m m1 m2). Qed.

(** C17.  FINDING: with blocks thinner than two radii the contribution is
    added more than once; nothing in the code rejects such decompositions. *)
Theorem C17_added_once_refuted :
  ~ (forall per py px ny nx g full flux fld vx vy (K : @kfun Z) (m : mem Z),
      grid2 py px ny nx g -> 2 <= g -> ~ In flux [fld; vx; vy] -> star_local 2 [fld; vx; vy] 2 K ->
      exists m', spmd_ends (zprod [py; px]) (advection_flux_2d per py px ny nx g full flux fld vx vy K) m m' /\
        acts_as_serial per [py; px] [ny; nx] g 2 [fld; vx; vy] [(flux, K)] None m m').
Proof. exact Refute2.double_count_refuted. Qed.

(** Every inner cell of two-cell-wide blocks gets the update twice. *)
Theorem C17_two_wide_blocks_twice (T : Type) per py px ny full flux fld vx vy (K : @kfun T) (m : mem T) :
  1 <= py -> 1 <= px -> 2 <= ny -> ~ In flux [fld; vx; vy] -> star_local 2 [fld; vx; vy] 2 K ->
  exists m', spmd_ends (py * px) (advection_flux_2d per py px ny 2 2 full flux fld vx vy K) m m' /\
    forall u r x rd, represents [py; px] [ny; 2] 2 [fld; vx; vy] m u -> 0 <= r < py * px -> inb [ny; 2] x ->
      reads_global per (global_size [py; px] [ny; 2]) u [fld; vx; vy] 2 (vadd (block_start [py; px] [ny; 2] r) x) rd ->
      field m' (ghosted 2 [ny; 2]) r flux (map (fun i => i + 2) x) = K rd (K rd (field m (ghosted 2 [ny; 2]) r flux (map (fun i => i + 2) x))).
Proof. exact (Refute2.doubled2 T per py px ny full flux fld vx vy K m). Qed.

(** Exactly what the adding kernels do, for every decomposition the exchange
    supports: every cell gets the update [updates ks loc x] times, each time
    computed from the owners' values at positions inside the domain and from
    the rank's own old ghost cells at positions outside it; nothing else but
    ghost cells of the inputs changes. *)
Theorem C17_exact (T : Type) per dims loc g ks F k ps (m : mem T) :
  adding_kernel per dims loc g ks F k ps ->
  exists m', spmd_ends (zprod dims) ps m m' /\ added_exactly per dims loc g ks F k m m'.
Proof. exact (AddExact.adding_kernel_exact per dims loc g ks F k ps m). Qed.
(** Once if every block extent is at least two radii, ... *)
Theorem C17_once_when_wide ks loc x : Forall (fun n => 2 * ks <= n) loc -> inb loc x -> updates ks loc x = 1%nat.
Proof. exact (AddExact.updates_once ks loc x). Qed.
(** ... twice at some cell exactly if some axis is thinner than two radii and
    all later axes are wider than two radii, and never more often. *)
Theorem C17_twice_iff_thin ks loc : 1 <= ks -> positive loc ->
  ((exists x, inb loc x /\ updates ks loc x = 2%nat) <->
   exists before n after, loc = before ++ n :: after /\ n < 2 * ks /\ Forall (fun n' => 2 * ks < n') after).
Proof. exact (AddExact.updates_twice ks loc). Qed.
Theorem C17_at_most_twice ks loc x : 0 <= ks -> (1 <= updates ks loc x <= 2)%nat.
Proof. exact (fun H => AddExact.updates_rev_bound ks H (rev loc) (rev x)). Qed.
Example C17_exact_nonvacuous :
  adding_kernel false [2; 2] [4; 3] 2 2 [1%nat; 2%nat; 3%nat] [(0%nat, fun (rd : nat -> list Z -> Z) (o : Z) => o + rd 1%nat [0; 2])]
    (advection_flux_2d false 2 2 4 3 2 false 0 1 2 3 (fun rd o => o + rd 1%nat [0; 2])) /\
  updates 2 [4; 3] [2; 1] = 2%nat /\ updates 2 [4; 3] [2; 0] = 1%nat.
Proof.
  split; [|split; reflexivity]. constructor; [unfold grid2; lia|lia|simpl; intuition lia|].
  intros rd rd' o E. rewrite E; auto; [simpl; auto|]. exists 1%nat, 2. repeat split; simpl; lia.
Qed.

(** C18.  Exactly the outermost cells of a non-periodic domain are reset
    (curl included, whatever its racing reads returned). *)
Theorem C18_zero_exactly_on_boundary (T : Type) (z : T) per dims loc g F k ps (m m' : mem T) r o K x :
  reset_kernel z per dims loc g F k ps \/ curl_kernel z per dims loc g F k ps ->
  spmd_ends (zprod dims) ps m m' -> 0 <= r < zprod dims -> In (o, K) k -> inb loc x ->
  (forall rd old, K rd old <> z) ->
  (field m' (ghosted g loc) r o (map (fun i => i + g) x) = z <->
   on_boundary per (global_size dims loc) (vadd (block_start dims loc r) x)).
Proof. exact (KernelProofs.zero_exactly z per dims loc g F k ps m m' r o K x). Qed.

(** C19.  Inner results depend on inner inputs only. *)
Theorem C19_stale_ghosts_irrelevant (T : Type) (z : T) per dims loc g F k ps (m1 m2 m1' m2' : mem T) :
  reset_kernel z per dims loc g F k ps \/ curl_kernel z per dims loc g F k ps ->
  spmd_ends (zprod dims) ps m1 m1' -> spmd_ends (zprod dims) ps m2 m2' ->
  same_inner dims loc g F m1 m2 -> same_inner dims loc g (map fst k) m1' m2'.
Proof. exact (KernelProofs.stale_free_prog z per dims loc g F k ps m1 m2 m1' m2'). Qed.

(** C20.  FINDING: the adding kernels use out-of-domain ghost contents. *)
Theorem C20_stale_ghosts_irrelevant_refuted :
  ~ (forall per dims loc g ks F k ps (m1 m2 m1' m2' : mem Z), adding_kernel per dims loc g ks F k ps ->
      Forall (fun n => 2 * ks <= n) loc ->
      spmd_ends (zprod dims) ps m1 m1' -> spmd_ends (zprod dims) ps m2 m2' ->
      same_inner dims loc g (F ++ map fst k) m1 m2 -> same_inner dims loc g (map fst k) m1' m2').
Proof. exact Refute2.stale_ghost_refuted. Qed.

(** ... but not at distance ks or more from the physical boundary, and never in a periodic domain. *)
Theorem C20_away_from_boundary (T : Type) per dims loc g ks F k ps (m1 m2 m1' m2' : mem T) r o x :
  adding_kernel per dims loc g ks F k ps -> Forall (fun n => 2 * ks <= n) loc ->
  spmd_ends (zprod dims) ps m1 m1' -> spmd_ends (zprod dims) ps m2 m2' ->
  same_inner dims loc g (F ++ map fst k) m1 m2 -> 0 <= r < zprod dims -> In o (map fst k) -> inb loc x ->
  away per ks (global_size dims loc) (vadd (block_start dims loc r) x) ->
  field m1' (ghosted g loc) r o (map (fun i => i + g) x) = field m2' (ghosted g loc) r o (map (fun i => i + g) x).
Proof. exact (KernelProofs.stale_free_away_prog per dims loc g ks F k ps m1 m2 m1' m2' r o x). Qed.

(** ... and the out-of-domain ghost cells are the only ghost cells that matter:
    states that agree on inner cells and on those give the same result. *)
Theorem C20_only_outside_ghosts_matter (T : Type) per dims loc g ks F k ps (m1 m2 m1' m2' : mem T) :
  adding_kernel per dims loc g ks F k ps ->
  spmd_ends (zprod dims) ps m1 m1' -> spmd_ends (zprod dims) ps m2 m2' ->
  same_inner dims loc g (F ++ map fst k) m1 m2 ->
  (forall r f I, 0 <= r < zprod dims -> In f F -> inb (ghosted g loc) I -> owner per dims loc (ghost_pos dims loc g r I) = None ->
     field m1 (ghosted g loc) r f I = field m2 (ghosted g loc) r f I) ->
  same_inner dims loc g (map fst k) m1' m2'.
Proof. exact (AddExact.outside_ghosts per dims loc g ks F k ps m1 m2 m1' m2'). Qed.

(** C21.  The 3D curl is the serial curl, whatever the racing reads returned. *)
Theorem C21_curl_3d_serial (T : Type) (z : T) per dims loc g F k ps (m : mem T) :
  curl_kernel z per dims loc g F k ps ->
  exists m', spmd_ends (zprod dims) ps m m' /\ acts_as_serial per dims loc g 1 F k (Some z) m m'.
Proof. exact (KernelProofs.curl_kernel_serial z per dims loc g F k ps m). Qed.

(** ** The hypotheses are satisfiable: concrete kernels and grids. *)
(** 5-point Laplacian of array 1. *)
Definition lap5 (rd : nat -> list Z -> Z) (_ : Z) : Z :=
  rd 1%nat [1; 0] + rd 1%nat [-1; 0] + rd 1%nat [0; 1] + rd 1%nat [0; -1] - 4 * rd 1%nat [0; 0].
Ltac is_star := match goal with
  | |- star _ _ [?a; 0] => exists 0%nat, a | |- star _ _ [0; ?a] => exists 1%nat, a
  | |- star _ _ [?a; 0; 0] => exists 0%nat, a | |- star _ _ [0; ?a; 0] => exists 1%nat, a | |- star _ _ [0; 0; ?a] => exists 2%nat, a end;
  split; [lia|split; [simpl; lia|reflexivity]].
Lemma lap5_local : star_local 2 [1%nat] 1 lap5.
Proof. intros rd rd' o E. unfold lap5. rewrite !E; auto; try (simpl; auto; fail); is_star. Qed.
Lemma lap5_overwrites : overwrites lap5.
Proof. intros rd o o'. reflexivity. Qed.

(** 2 x 3 ranks with blocks of 4 x 5 cells and two ghost layers, open domain. *)
Example reset_kernel_instance :
  reset_kernel 0 false [2; 3] [4; 5] 2 [1%nat] [(0%nat, lap5)] (diffusion_flux_2d 0 false 2 3 4 5 2 false 0 1 lap5).
Proof. constructor; [unfold grid2; lia|lia|apply lap5_local|apply lap5_overwrites]. Qed.

(** In it, cell (3, 1) of rank 1 has global position (3, 6), is not on the
    boundary, and its star is inside the domain. *)
Example star_inside (u : nat -> list Z -> Z) :
  ~ on_boundary false (global_size [2; 3] [4; 5]) (vadd (block_start [2; 3] [4; 5] 1) [3; 1]) /\
  exists rd, reads_global false (global_size [2; 3] [4; 5]) u [1%nat] 1 (vadd (block_start [2; 3] [4; 5] 1) [3; 1]) rd.
Proof.
  assert (Ha : away false 1 (global_size [2; 3] [4; 5]) (vadd (block_start [2; 3] [4; 5] 1) [3; 1])).
  { right. vm_compute. repeat constructor; discriminate. }
  split; [intros Hb; eapply HaloThms.boundary_not_away; eauto|].
  apply HaloThms.reads_exist; auto; [|lia]. vm_compute. repeat constructor; discriminate.
Qed.

Definition adv (rd : nat -> list Z -> Z) (old : Z) : Z :=
  old + rd 2%nat [0; 0] * (rd 1%nat [0; 2] - rd 1%nat [0; -2]) + rd 3%nat [0; 0] * (rd 1%nat [1; 0] - rd 1%nat [-1; 0]).
Example adding_kernel_instance :
  adding_kernel false [2; 3] [4; 5] 2 2 [1%nat; 2%nat; 3%nat] [(0%nat, adv)] (advection_flux_2d false 2 3 4 5 2 false 0 1 2 3 adv) /\
  Forall (fun n => 2 * 2 <= n) [4; 5] /\ away false 2 (global_size [2; 3] [4; 5]) (vadd (block_start [2; 3] [4; 5] 1) [3; 1]).
Proof.
  split; [|split; [repeat constructor; lia|right; vm_compute; repeat constructor; discriminate]].
  constructor; [unfold grid2; lia|lia|simpl; intuition lia|].
  intros rd rd' o E. unfold adv. rewrite !E; auto; try (simpl; auto; fail); is_star.
Qed.

Definition dz (a b : nat) (rd : nat -> list Z -> Z) (_ : Z) : Z := rd a [1; 0; 0] - rd b [0; 0; -1] + 1.
Example curl_kernel_instance (race : Z -> nat -> list Z -> Z) :
  curl_kernel 0 false [1; 2; 2] [3; 3; 2] 1 [3%nat; 4%nat; 5%nat] [(0%nat, dz 3 4); (1%nat, dz 4 5); (2%nat, dz 5 3)]
   (curl_3d 0 false 1 2 2 3 3 2 1 true 0 1 2 3 4 5 (dz 3 4) (dz 4 5) (dz 5 3) race).
Proof.
  constructor.
  - unfold grid3. lia.
  - repeat constructor; simpl; intuition lia.
  - simpl. intuition lia.
  - intros K HK. split.
    + intros rd rd' o E. simpl in HK. destruct HK as [<-|[<-|[<-|[]]]]; unfold dz; rewrite !E; auto; try (simpl; auto; fail); is_star.
    + simpl in HK. destruct HK as [<-|[<-|[<-|[]]]]; intros rd o o'; reflexivity.
Qed.
(** A kernel function that never returns 0, for C18. *)
Example never_zero : forall rd old, (fun (_ : nat -> list Z -> Z) (_ : Z) => 1) rd old <> 0.
Proof. intros. discriminate. Qed.

Print Assumptions C16_reset_kernels_serial.
Print Assumptions C16_adding_kernels_serial.
Print Assumptions C16_result_unique.
Print Assumptions C17_added_once_refuted.
Print Assumptions C17_two_wide_blocks_twice.
Print Assumptions C18_zero_exactly_on_boundary.
Print Assumptions C19_stale_ghosts_irrelevant.
Print Assumptions C20_stale_ghosts_irrelevant_refuted.
Print Assumptions C20_away_from_boundary.
Print Assumptions C21_curl_3d_serial.
Print Assumptions C17_exact.
Print Assumptions C17_once_when_wide.
Print Assumptions C17_twice_iff_thin.
Print Assumptions C17_at_most_twice.
Print Assumptions C20_only_outside_ghosts_matter.
