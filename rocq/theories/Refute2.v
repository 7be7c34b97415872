(** Counterexamples about stencil kernels. *)
From Verif Require Import Base SpecGrid SpecGhost SpecStencil Cart CartFacts Comm Spmd GhostGeo Ghost2D Ghost3D GhostProofs Stencil StencilProofs HaloProofs HaloKernels HaloThms KernelList KernelProofs.
Arguments run_lops : simpl never.
Arguments addr_eq : simpl never.
Arguments place_dec : simpl never.

(** Blocks two cells wide: the radius-2 kernel is applied twice to every inner cell. *)
Lemma doubled2 (T : Type) per py px ny full flux fld vx vy (K : @kfun T) (m : mem T) :
  1 <= py -> 1 <= px -> 2 <= ny -> ~ In flux [fld; vx; vy] -> star_local 2 [fld; vx; vy] 2 K ->
  exists m', spmd_ends (py * px) (advection_flux_2d per py px ny 2 2 full flux fld vx vy K) m m' /\
    forall u r x rd, represents [py; px] [ny; 2] 2 [fld; vx; vy] m u -> 0 <= r < py * px -> inb [ny; 2] x ->
      reads_global per (global_size [py; px] [ny; 2]) u [fld; vx; vy] 2 (vadd (block_start [py; px] [ny; 2] r) x) rd ->
      field m' (ghosted 2 [ny; 2]) r flux (map (fun i => i + 2) x) = K rd (K rd (field m (ghosted 2 [ny; 2]) r flux (map (fun i => i + 2) x))).
Proof.
  intros Hpy Hpx Hny Hdis Hst.
  assert (Hz1 : zprod [py; px] = py * px) by (simpl; lia). rewrite <- Hz1. clear Hz1.
  set (C := all_copies (zprod [py; px]) (exchange2 per py px ny 2 2 full [fld; vx; vy])).
  set (k := [(flux, K)]). set (strips := strips2 2 2 (shape0 ny 2) (shape1 2 2)).
  assert (Hok : grid_ok [py; px] [ny; 2]) by (apply (ok2 py px ny 2 2); lia).
  assert (HC : exch_facts per [py; px] [ny; 2] 2 [fld; vx; vy] C) by (apply exch2_facts; lia).
  assert (Hnd : NoDup (map fst k)) by (repeat constructor; auto).
  assert (Hd : forall f, In f [fld; vx; vy] -> ~ In f (map fst k)).
  { unfold k. simpl in *. intros f Hf [E|[]]. subst. tauto. }
  assert (Hl : forall o K', In (o, K') k -> star_local (length [ny; 2]) [fld; vx; vy] 2 K').
  { intros o K' [E|[]]. inversion E; subst. exact Hst. }
  assert (Hs : Forall (fun v => length v = length (ghosted 2 [ny; 2])) strips) by (repeat constructor).
  set (z := m (0, (0%nat, 0))).
  exists (halo_post [py; px] [ny; 2] 2 2 C k strips (fun _ => []) z m). split.
  - apply (spmd_safe (zprod [py; px]) (halo [ny; 2] 2 2 C k strips (fun _ => []) z)).
    apply (halo_ok per [py; px] [ny; 2] 2 2 [fld; vx; vy] C k strips (fun _ => []) z Hok ltac:(lia) ltac:(lia) HC Hd Hl).
  - intros u r x rd Hrep Hr Hx Hrd.
    rewrite (halo_value per [py; px] [ny; 2] 2 2 [fld; vx; vy] C k strips (fun _ => []) z Hok ltac:(lia) ltac:(lia) HC Hnd Hd Hl Hs (fun _ => Forall_nil _) m r _ flux K); auto.
    2:{ apply inner_inb; [lia|]. now apply add_inner. }
    2:{ now left. }
    replace (passes [ny; 2] 2 2 strips (map (fun i => i + 2) x)) with 2%nat.
    + change (zeroed [ny; 2] 2 (fun _ => []) r (map (fun i => i + 2) x)) with false. cbn [Nat.iter nat_rect].
      rewrite !(read_global per [py; px] [ny; 2] 2 2 [fld; vx; vy] C k Hok ltac:(lia) HC Hl m u r x K flux _ rd Hr Hx Hrep ltac:(now left) Hrd). reflexivity.
    + symmetry. inversion Hx as [|? ? x0 X0 H0 HX0]; subst. inversion HX0 as [|? ? x1 X1 H1 HX1]; subst. inversion HX1; subst.
      unfold passes, strips, strips2, shape0, shape1. cbn [map view_in fold_right ghosted]. axes. cases3; simpl; lia.
Qed.

Definition addK (fld : nat) (rd : nat -> list Z -> Z) (old : Z) : Z := old + rd fld [0; 0].
Lemma zero_star n ks : (1 <= n)%nat -> 0 <= ks -> star n ks (repeat 0 n).
Proof. intros Hn Hk. exists 0%nat, 0. split; [lia|]. split; [simpl; lia|]. destruct n; [lia|]. reflexivity. Qed.

Lemma double_count_refuted :
  ~ (forall per py px ny nx g full flux fld vx vy (K : @kfun Z) (m : mem Z),
      grid2 py px ny nx g -> 2 <= g -> ~ In flux [fld; vx; vy] -> star_local 2 [fld; vx; vy] 2 K ->
      exists m', spmd_ends (zprod [py; px]) (advection_flux_2d per py px ny nx g full flux fld vx vy K) m m' /\
        acts_as_serial per [py; px] [ny; nx] g 2 [fld; vx; vy] [(flux, K)] None m m').
Proof.
  intros H. set (m := fun _ : place => 1).
  assert (Hst : star_local 2 [1%nat; 2%nat; 3%nat] 2 (addK 1)).
  { intros rd rd' o E. unfold addK. rewrite (E 1%nat [0; 0]); auto; [simpl; auto|]. apply (zero_star 2 2); lia. }
  destruct (H true 1 1 2 2 2 true 0%nat 1%nat 2%nat 3%nat (addK 1) m) as (m' & E & A); auto.
  { unfold grid2. lia. } { lia. } { simpl. intuition lia. }
  destruct (doubled2 Z true 1 1 2 true 0%nat 1%nat 2%nat 3%nat (addK 1) m) as (m2 & E2 & A2); auto; try lia.
  { simpl. intuition lia. }
  change (1 * 1) with (zprod [1; 1]) in E2. rewrite (spmd_ends_det _ _ _ _ _ E E2) in A.
  set (u := fun (_ : nat) (_ : list Z) => 1). set (rd := fun (_ : nat) (_ : list Z) => 1).
  assert (Hrep : represents [1; 1] [2; 2] 2 [1%nat; 2%nat; 3%nat] m u) by (intros r f x _ _ _; reflexivity).
  assert (Hrd : reads_global true (global_size [1; 1] [2; 2]) u [1%nat; 2%nat; 3%nat] 2 (vadd (block_start [1; 1] [2; 2] 0) [0; 0]) rd).
  { intros f d _ _. destruct (wrapv_true (global_size [1; 1] [2; 2]) (vadd (vadd (block_start [1; 1] [2; 2] 0) [0; 0]) d)) as [q Hq]. exists q. split; auto. }
  assert (Hx : inb [2; 2] [0; 0]) by (repeat constructor; lia).
  pose proof (A2 u 0 [0; 0] rd Hrep ltac:(lia) Hx Hrd) as V2.
  pose proof (as_value _ _ _ _ _ _ _ _ _ _ A u 0 [0; 0] 0%nat (addK 1) rd Hrep ltac:(simpl; lia) Hx ltac:(now left) ltac:(now left) Hrd) as V1.
  rewrite V1 in V2. unfold addK, rd, field, m in V2. discriminate.
Qed.

(** Near a physical boundary the advection kernel reads out-of-domain ghosts. *)
Definition leftK (fld : nat) (rd : nat -> list Z -> Z) (old : Z) : Z := old + rd fld [0; -1].
Definition m_zero : mem Z := fun _ => 0.
(** differs in the ghost cell (2, 1) of array 1, one column outside the domain. *)
Definition m_ghost : mem Z := fun l => if place_dec l (0, (1%nat, ravel [8; 8] [2; 1])) then 1 else 0.

Lemma stale_ghost_refuted :
  ~ (forall per dims loc g ks F k ps (m1 m2 m1' m2' : mem Z), adding_kernel per dims loc g ks F k ps ->
      Forall (fun n => 2 * ks <= n) loc ->
      spmd_ends (zprod dims) ps m1 m1' -> spmd_ends (zprod dims) ps m2 m2' ->
      same_inner dims loc g (F ++ map fst k) m1 m2 -> same_inner dims loc g (map fst k) m1' m2').
Proof.
  intros H.
  assert (Hst : star_local 2 [1%nat; 2%nat; 3%nat] 2 (leftK 1)).
  { intros rd rd' o E. unfold leftK. rewrite (E 1%nat [0; -1]); auto; [simpl; auto|]. exists 1%nat, (-1). split; [lia|]. split; [simpl; lia|reflexivity]. }
  assert (Hak : adding_kernel false [1; 1] [4; 4] 2 2 [1%nat; 2%nat; 3%nat] [(0%nat, leftK 1)]
    (advection_flux_2d false 1 1 4 4 2 false 0%nat 1%nat 2%nat 3%nat (leftK 1))).
  { constructor; auto; [unfold grid2; lia|lia|simpl; intuition lia]. }
  assert (Hl : Forall (fun n => 2 * 2 <= n) [4; 4]) by (repeat constructor; lia).
  destruct (adding_kernel_good 0 _ _ _ _ _ _ _ _ Hak) as (_ & _ & Hg). destruct (Hg Hl) as [Hok _].
  set (ps := advection_flux_2d false 1 1 4 4 2 false 0%nat 1%nat 2%nat 3%nat (leftK 1)) in *.
  pose proof (spmd_safe (zprod [1; 1]) ps m_zero Hok) as E1. pose proof (spmd_safe (zprod [1; 1]) ps m_ghost Hok) as E2.
  specialize (H _ _ _ _ _ _ _ _ _ _ _ _ Hak Hl E1 E2).
  assert (Hs : same_inner [1; 1] [4; 4] 2 ([1%nat; 2%nat; 3%nat] ++ map fst [(0%nat, leftK 1)]) m_zero m_ghost).
  { intros r f x Hr Hf Hx. unfold field, m_zero, m_ghost. destruct (place_dec _ _) as [E|]; auto. exfalso.
    pose proof (f_equal (fun p => snd (snd p)) E) as E'. cbn [fst snd] in E'. apply ravel_inj in E'.
    - inversion Hx as [|? ? x0 X0 H0 HX0]; subst. inversion HX0 as [|? ? x1 X1 H1 HX1]; subst. inversion HX1; subst. simpl in E'. inversion E'. lia.
    - apply (inner_inb 2 [4; 4]); [lia|]. now apply add_inner.
    - repeat constructor; lia. }
  specialize (H Hs 0 0%nat [0; 0] ltac:(simpl; lia) ltac:(simpl; auto) ltac:(repeat constructor; lia)).
  revert H. vm_compute. discriminate.
Qed.
