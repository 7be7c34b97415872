(** C29 - C32: interpolation and spreading. *)
From Coq Require Import Reals QArith Qround Qreals.
From Verif Require Import Base SpecGrid SpecGhost SpecGhostSum SpecStencil SpecLag SpecIB SpecDelta Comm Blocking SpecBlocking Spmd KernelList
  Lagrangian EulLag EulLagProofs IBThms IBProg Adjoint Refute4 Delta DeltaProofs DeltaQ.
Open Scope Z_scope.

(** C29. The constructor raises exactly when the ghost size is smaller than
    the kernel width; otherwise, for every node of rank r's block, the window
    of array cells the kernels read or write lies inside the ghosted local
    array, and its k-th cell is the k-th support point of the node on the
    global grid.  Coordinates are of any type with any [//]. *)
Theorem C29_rejects_iff_ghost_too_small g w : communicator_rejects g w = true <-> g < w.
Proof. apply Z.ltb_lt. Qed.
Theorem C29_support_inside_local_array {C : Type} (cell : C -> Z) dims loc g w r pos :
  grid_ok dims loc -> 1 <= w -> communicator_rejects g w = false -> node_in_block cell dims loc r pos ->
  length (window_cells cell dims loc g w r pos) = length (support_points cell w pos) /\
  forall k J P, nth_error (window_cells cell dims loc g w r pos) k = Some J -> nth_error (support_points cell w pos) k = Some P ->
    inb (ghosted g loc) J /\ ghost_pos dims loc g r J = P.
Proof. intros Hg Hw Hr. apply Z.ltb_ge in Hr. apply (support_local cell dims loc g w Hg). lia. Qed.

(** C30, interpolation. Ghost exchange of the field then interpolation, on
    every process grid: whatever the schedule, the ranks finish; the value
    stored for the i-th local node of rank r is the value the serial algorithm
    gives for that node on the global grid u (any weights, summation order and
    rounding); inner field cells are unchanged.  The exchange must be a full
    one, or at most one axis be distributed. *)
Theorem C30_interpolation_serial_2d (T : Type) (wt : list Q -> T) scale sum mul py px ny nx g w full dx shift comps lagf nodes address (m : mem T) u :
  let dims := [py; px] in let loc := [ny; nx] in
  grid2 py px ny nx g -> 1 <= w <= g -> (0 < dx)%Q -> full = true \/ at_most_one_split dims -> ~ In lagf comps -> represents dims loc g comps m u ->
  Forall (in_domain dx shift dims loc) nodes -> map_nodes false dims loc dx shift 2 nodes = Mapped address ->
  exists m', spmd_ends (zprod dims) (ghosted_interp2 (q_cell dx shift) (q_dist dx shift) wt scale sum mul false py px ny nx g w full comps lagf (local_positions nodes address)) m m' /\
    (forall c f r i j, 0 <= c -> nth_error comps (Z.to_nat c) = Some f -> 0 <= r < zprod dims -> ith_node address r i j ->
      Forall (inb (global_size dims loc)) (support_points (q_cell dx shift) w (node_at nodes j)) ->
      m' (r, lag_local address lagf r c i) = interpolated (q_cell dx shift) (q_dist dx shift) w scale sum mul wt (u f) (node_at nodes j)) /\
    represents dims loc g comps m' u /\
    (forall r a, fst a <> lagf -> ~ In (fst a) comps -> m' (r, a) = m (r, a)).
Proof. exact (interp_2d wt scale sum mul py px ny nx g w full dx shift comps lagf nodes address m u). Qed.
Theorem C30_interpolation_serial_3d (T : Type) (wt : list Q -> T) scale sum mul pz py px n0 n1 n2 g w full dx shift comps lagf nodes address (m : mem T) u :
  let dims := [pz; py; px] in let loc := [n0; n1; n2] in
  grid3 pz py px n0 n1 n2 g -> 1 <= w <= g -> (0 < dx)%Q -> full = true \/ at_most_one_split dims -> ~ In lagf comps -> represents dims loc g comps m u ->
  Forall (in_domain dx shift dims loc) nodes -> map_nodes false dims loc dx shift 3 nodes = Mapped address ->
  exists m', spmd_ends (zprod dims) (ghosted_interp3 (q_cell dx shift) (q_dist dx shift) wt scale sum mul false pz py px n0 n1 n2 g w full comps lagf (local_positions nodes address)) m m' /\
    (forall c f r i j, 0 <= c -> nth_error comps (Z.to_nat c) = Some f -> 0 <= r < zprod dims -> ith_node address r i j ->
      Forall (inb (global_size dims loc)) (support_points (q_cell dx shift) w (node_at nodes j)) ->
      m' (r, lag_local address lagf r c i) = interpolated (q_cell dx shift) (q_dist dx shift) w scale sum mul wt (u f) (node_at nodes j)) /\
    represents dims loc g comps m' u /\
    (forall r a, fst a <> lagf -> ~ In (fst a) comps -> m' (r, a) = m (r, a)).
Proof. exact (interp_3d wt scale sum mul pz py px n0 n1 n2 g w full dx shift comps lagf nodes address m u). Qed.

(** FINDING: with the face-only exchange of the 2D simulators' communicator and
    both axes distributed, corner ghosts are stale and the interpolated value
    is wrong. *)
Theorem C30_face_only_exchange_refuted :
  ~ (forall (wt : list Q -> Z) py px ny nx g w dx shift comps lagf nodes address (m : mem Z) u,
      grid2 py px ny nx g -> 1 <= w <= g -> (0 < dx)%Q -> ~ In lagf comps -> represents [py; px] [ny; nx] g comps m u ->
      Forall (in_domain dx shift [py; px] [ny; nx]) nodes -> map_nodes false [py; px] [ny; nx] dx shift 2 nodes = Mapped address ->
      exists m', spmd_ends (zprod [py; px]) (ghosted_interp2 (q_cell dx shift) (q_dist dx shift) wt (fun x => x) (fold_right Z.add 0) Z.mul false py px ny nx g w false comps lagf (local_positions nodes address)) m m' /\
        forall c f r i j, 0 <= c -> nth_error comps (Z.to_nat c) = Some f -> 0 <= r < zprod [py; px] -> ith_node address r i j ->
          Forall (inb (global_size [py; px] [ny; nx])) (support_points (q_cell dx shift) w (node_at nodes j)) ->
          m' (r, lag_local address lagf r c i) = interpolated (q_cell dx shift) (q_dist dx shift) w (fun x => x) (fold_right Z.add 0) Z.mul wt (u f) (node_at nodes j)).
Proof. exact interp_face_refuted. Qed.

(** C30, spreading. Each rank spreads its local nodes' forces on its ghosted
    array and the ghosts are summed, on every process grid and under every
    schedule: every inner cell gains exactly the sum over ALL nodes of what the
    serial algorithm adds to that cell, ghosts and receive buffers are zero
    again (so calls can be chained), nothing else changes.  Addition is any
    commutative monoid, multiplication and weights are arbitrary. *)
Theorem C30_spreading_serial_2d (T : Type) (add mul : T -> T -> T) (z : T) (wt : list Q -> T) times0 py px ny nx g w dx shift nodes address comps lagf rb cb (force : Z -> Z -> T) (m : Z -> @lmem T) (u : nat -> list Z -> T) :
  let dims := [py; px] in let loc := [ny; nx] in
  comm_monoid add z -> grid2 py px ny nx g -> 1 <= w <= g -> (0 < dx)%Q -> (forall x, times0 x = z) -> NoDup (lagf :: comps ++ [rb; cb]) ->
  zero_buf z (py * px) rb [g; nx + 2 * g] m -> zero_buf z (py * px) cb [ny + 2 * g; g] m ->
  Forall (in_domain dx shift dims loc) nodes -> map_nodes false dims loc dx shift 2 nodes = Mapped address ->
  (forall r c f i j, 0 <= r < py * px -> 0 <= c -> nth_error comps (Z.to_nat c) = Some f -> ith_node address r i j -> m r (lag_local address lagf r c i) = force c j) ->
  (forall f r I, In f comps -> 0 <= r < py * px -> inner g loc I -> m r (f, ravel (ghosted g loc) I) = u f (ghost_pos dims loc g r I)) ->
  (forall f r I, In f comps -> 0 <= r < py * px -> inb (ghosted g loc) I -> ~ inner g loc I -> m r (f, ravel (ghosted g loc) I) = z) ->
  exists m', runs_to (py * px) (spread2 (q_cell dx shift) (q_dist dx shift) wt mul add times0 false py px ny nx g w comps lagf rb cb (local_positions nodes address)) m m' /\
    (forall c f r I, 0 <= c -> nth_error comps (Z.to_nat c) = Some f -> 0 <= r < py * px -> inner g loc I ->
      m' r (f, ravel (ghosted g loc) I) = add (u f (ghost_pos dims loc g r I))
         (total add z (map (fun j => contribution (q_cell dx shift) (q_dist dx shift) w z mul wt (node_at nodes j) (force c j) (ghost_pos dims loc g r I)) (zrange 0 (Z.of_nat (length nodes)))))) /\
    (forall f r I, In f comps -> 0 <= r < py * px -> inb (ghosted g loc) I -> ~ inner g loc I -> m' r (f, ravel (ghosted g loc) I) = z) /\
    (zero_buf z (py * px) rb [g; nx + 2 * g] m' /\ zero_buf z (py * px) cb [ny + 2 * g; g] m') /\
    (forall r x, ~ In (fst x) comps -> ~ In (fst x) [rb; cb] -> m' r x = m r x).
Proof. intros dims loc Hm. exact (spread_2d add mul z wt Hm times0 py px ny nx g w dx shift nodes address comps lagf rb cb force m u). Qed.
Theorem C30_spreading_serial_3d (T : Type) (add mul : T -> T -> T) (z : T) (wt : list Q -> T) times0 pz py px n0 n1 n2 g w dx shift nodes address comps lagf bz by_ bx (force : Z -> Z -> T) (m : Z -> @lmem T) (u : nat -> list Z -> T) :
  let dims := [pz; py; px] in let loc := [n0; n1; n2] in
  comm_monoid add z -> grid3 pz py px n0 n1 n2 g -> 1 <= w <= g -> (0 < dx)%Q -> (forall x, times0 x = z) -> NoDup (lagf :: comps ++ [bz; by_; bx]) ->
  zero_buf z (pz * py * px) bz [g; n1 + 2 * g; n2 + 2 * g] m -> zero_buf z (pz * py * px) by_ [n0 + 2 * g; g; n2 + 2 * g] m -> zero_buf z (pz * py * px) bx [n0 + 2 * g; n1 + 2 * g; g] m ->
  Forall (in_domain dx shift dims loc) nodes -> map_nodes false dims loc dx shift 3 nodes = Mapped address ->
  (forall r c f i j, 0 <= r < pz * py * px -> 0 <= c -> nth_error comps (Z.to_nat c) = Some f -> ith_node address r i j -> m r (lag_local address lagf r c i) = force c j) ->
  (forall f r I, In f comps -> 0 <= r < pz * py * px -> inner g loc I -> m r (f, ravel (ghosted g loc) I) = u f (ghost_pos dims loc g r I)) ->
  (forall f r I, In f comps -> 0 <= r < pz * py * px -> inb (ghosted g loc) I -> ~ inner g loc I -> m r (f, ravel (ghosted g loc) I) = z) ->
  exists m', runs_to (pz * py * px) (spread3 (q_cell dx shift) (q_dist dx shift) wt mul add times0 false pz py px n0 n1 n2 g w comps lagf bz by_ bx (local_positions nodes address)) m m' /\
    (forall c f r I, 0 <= c -> nth_error comps (Z.to_nat c) = Some f -> 0 <= r < pz * py * px -> inner g loc I ->
      m' r (f, ravel (ghosted g loc) I) = add (u f (ghost_pos dims loc g r I))
         (total add z (map (fun j => contribution (q_cell dx shift) (q_dist dx shift) w z mul wt (node_at nodes j) (force c j) (ghost_pos dims loc g r I)) (zrange 0 (Z.of_nat (length nodes)))))) /\
    (forall f r I, In f comps -> 0 <= r < pz * py * px -> inb (ghosted g loc) I -> ~ inner g loc I -> m' r (f, ravel (ghosted g loc) I) = z) /\
    (zero_buf z (pz * py * px) bz [g; n1 + 2 * g; n2 + 2 * g] m' /\ zero_buf z (pz * py * px) by_ [n0 + 2 * g; g; n2 + 2 * g] m' /\ zero_buf z (pz * py * px) bx [n0 + 2 * g; n1 + 2 * g; g] m') /\
    (forall r x, ~ In (fst x) comps -> ~ In (fst x) [bz; by_; bx] -> m' r x = m r x).
Proof. intros dims loc Hm. exact (spread_3d add mul z wt Hm times0 pz py px n0 n1 n2 g w dx shift nodes address comps lagf bz by_ bx force m u). Qed.

(** C31. In exact real arithmetic, for every node position in any number of
    dimensions: the weights times dx^dim sum to one over the support; Peskin's
    weights moreover interpolate the grid coordinates exactly. *)
Theorem C31_cosine_partition_of_unity (dx shift : R) (pos : list R) : (0 < dx)%R ->
  r_interpolated dx shift (cosine_weight dx) (fun _ => 1%R) pos = 1%R.
Proof. intros Hd. apply interp_one; auto. intros. now apply cosine_one. Qed.
Theorem C31_peskin_partition_of_unity (dx shift : R) (pos : list R) : (0 < dx)%R ->
  r_interpolated dx shift (peskin_weight dx) (fun _ => 1%R) pos = 1%R.
Proof. intros Hd. apply interp_one; auto. intros. now apply peskin_one. Qed.
Theorem C31_peskin_exact_on_coordinates (dx shift : R) (pos : list R) (a : nat) : (0 < dx)%R -> (a < length pos)%nat ->
  r_interpolated dx shift (peskin_weight dx) (fun P => grid_coord dx shift (nth a P 0)) pos = nth a (rev pos) 0%R.
Proof. intros Hd Ha. apply interp_coord; auto; intros. now apply peskin_one. now apply peskin_coord. Qed.

(** C32. Spreading forces on a zero field, on any process grid and under any
    schedule, in any commutative semiring: for every global field v, the sum
    over all inner cells of h * spread * v is the sum over all nodes of force *
    interpolated v (h = dx^dim): the two operations are adjoint.  Nodes'
    supports lie in the domain. *)
Theorem C32_adjoint_2d (T : Type) (add mul : T -> T -> T) (z one : T) (wt : list Q -> T) times0 py px ny nx g w dx shift nodes address comps lagf rb cb (force : Z -> Z -> T) (m : Z -> @lmem T) (h : T) :
  let dims := [py; px] in let loc := [ny; nx] in
  comm_semiring add mul z one -> grid2 py px ny nx g -> 1 <= w <= g -> (0 < dx)%Q -> (forall x, times0 x = z) -> NoDup (lagf :: comps ++ [rb; cb]) ->
  zero_buf z (py * px) rb [g; nx + 2 * g] m -> zero_buf z (py * px) cb [ny + 2 * g; g] m -> (forall f, In f comps -> zero_buf z (py * px) f (ghosted g loc) m) ->
  Forall (in_domain dx shift dims loc) nodes -> Forall (fun pos => Forall (inb (global_size dims loc)) (support_points (q_cell dx shift) w pos)) nodes ->
  map_nodes false dims loc dx shift 2 nodes = Mapped address ->
  (forall r c f i j, 0 <= r < py * px -> 0 <= c -> nth_error comps (Z.to_nat c) = Some f -> ith_node address r i j -> m r (lag_local address lagf r c i) = force c j) ->
  exists m', runs_to (py * px) (spread2 (q_cell dx shift) (q_dist dx shift) wt mul add times0 false py px ny nx g w comps lagf rb cb (local_positions nodes address)) m m' /\
    forall c f v, 0 <= c -> nth_error comps (Z.to_nat c) = Some f ->
      total add z (map (fun rI => mul h (mul (m' (fst rI) (f, ravel (ghosted g loc) (snd rI))) (v (ghost_pos dims loc g (fst rI) (snd rI))))) (inner_cells dims loc g)) =
      total add z (map (fun j => mul (force c j) (interpolated (q_cell dx shift) (q_dist dx shift) w (mul h) (total add z) mul wt v (node_at nodes j))) (zrange 0 (Z.of_nat (length nodes)))).
Proof. intros dims loc Hs. exact (spread_sum_2d add mul z one wt Hs times0 py px ny nx g w dx shift nodes address comps lagf rb cb force m h). Qed.
Theorem C32_adjoint_3d (T : Type) (add mul : T -> T -> T) (z one : T) (wt : list Q -> T) times0 pz py px n0 n1 n2 g w dx shift nodes address comps lagf bz by_ bx (force : Z -> Z -> T) (m : Z -> @lmem T) (h : T) :
  let dims := [pz; py; px] in let loc := [n0; n1; n2] in
  comm_semiring add mul z one -> grid3 pz py px n0 n1 n2 g -> 1 <= w <= g -> (0 < dx)%Q -> (forall x, times0 x = z) -> NoDup (lagf :: comps ++ [bz; by_; bx]) ->
  zero_buf z (pz * py * px) bz [g; n1 + 2 * g; n2 + 2 * g] m -> zero_buf z (pz * py * px) by_ [n0 + 2 * g; g; n2 + 2 * g] m -> zero_buf z (pz * py * px) bx [n0 + 2 * g; n1 + 2 * g; g] m ->
  (forall f, In f comps -> zero_buf z (pz * py * px) f (ghosted g loc) m) ->
  Forall (in_domain dx shift dims loc) nodes -> Forall (fun pos => Forall (inb (global_size dims loc)) (support_points (q_cell dx shift) w pos)) nodes ->
  map_nodes false dims loc dx shift 3 nodes = Mapped address ->
  (forall r c f i j, 0 <= r < pz * py * px -> 0 <= c -> nth_error comps (Z.to_nat c) = Some f -> ith_node address r i j -> m r (lag_local address lagf r c i) = force c j) ->
  exists m', runs_to (pz * py * px) (spread3 (q_cell dx shift) (q_dist dx shift) wt mul add times0 false pz py px n0 n1 n2 g w comps lagf bz by_ bx (local_positions nodes address)) m m' /\
    forall c f v, 0 <= c -> nth_error comps (Z.to_nat c) = Some f ->
      total add z (map (fun rI => mul h (mul (m' (fst rI) (f, ravel (ghosted g loc) (snd rI))) (v (ghost_pos dims loc g (fst rI) (snd rI))))) (inner_cells dims loc g)) =
      total add z (map (fun j => mul (force c j) (interpolated (q_cell dx shift) (q_dist dx shift) w (mul h) (total add z) mul wt v (node_at nodes j))) (zrange 0 (Z.of_nat (length nodes)))).
Proof. intros dims loc Hs. exact (spread_sum_3d add mul z one wt Hs times0 pz py px n0 n1 n2 g w dx shift nodes address comps lagf bz by_ bx force m h). Qed.

(** C32, conservation: with the cosine or Peskin weights (width 2, exact
    arithmetic) the integral of the spread force over the grid is the sum of
    the nodal forces, per component. *)
Theorem C32_total_force_conserved_2d (peskin : bool) py px ny nx g dx shift nodes address comps lagf rb cb (force : Z -> Z -> R) (m : Z -> @lmem R) :
  let dims := [py; px] in let loc := [ny; nx] in
  let wt := if peskin then peskin_weight_q dx else cosine_weight_q dx in
  grid2 py px ny nx g -> 2 <= g -> (0 < dx)%Q -> NoDup (lagf :: comps ++ [rb; cb]) ->
  zero_buf 0%R (py * px) rb [g; nx + 2 * g] m -> zero_buf 0%R (py * px) cb [ny + 2 * g; g] m -> (forall f, In f comps -> zero_buf 0%R (py * px) f (ghosted g loc) m) ->
  Forall (in_domain dx shift dims loc) nodes -> Forall (fun pos => Forall (inb (global_size dims loc)) (support_points (q_cell dx shift) 2 pos)) nodes ->
  map_nodes false dims loc dx shift 2 nodes = Mapped address ->
  (forall r c f i j, 0 <= r < py * px -> 0 <= c -> nth_error comps (Z.to_nat c) = Some f -> ith_node address r i j -> m r (lag_local address lagf r c i) = force c j) ->
  exists m', runs_to (py * px) (spread2 (q_cell dx shift) (q_dist dx shift) wt Rmult Rplus (fun x => x * 0)%R false py px ny nx g 2 comps lagf rb cb (local_positions nodes address)) m m' /\
    forall c f, 0 <= c -> nth_error comps (Z.to_nat c) = Some f ->
      total Rplus 0%R (map (fun rI => (Q2R dx ^ 2 * m' (fst rI) (f, ravel (ghosted g loc) (snd rI)))%R) (inner_cells dims loc g)) =
      total Rplus 0%R (map (force c) (zrange 0 (Z.of_nat (length nodes)))).
Proof.
  intros dims loc wt H2 Hw Hd Hn B1 B2 B3 Hdom Hsup Ha Hlag.
  destruct (spread_sum_2d Rplus Rmult 0%R 1%R wt r_semiring (fun x => x * 0)%R py px ny nx g 2 dx shift nodes address comps lagf rb cb force m (Q2R dx ^ 2)%R H2 ltac:(lia) Hd ltac:(intros; cbv beta; ring) Hn B1 B2 B3 Hdom Hsup Ha Hlag) as (m' & Hrun & V).
  exists m'. split; [exact Hrun|]. intros c f Hc Hf.
  apply (sum_one Rplus Rmult 0%R 1%R r_semiring _ _ _ _ _ _ (V c f (fun _ => 1%R) Hc Hf)). intros j Hj. apply zrange_In in Hj.
  assert (Hl : length (node_at nodes j) = 2%nat). { rewrite Forall_forall in Hdom. apply (in_domain_len dx shift dims loc); auto. apply Hdom. apply nth_In. lia. }
  rewrite <- Hl. destruct peskin; [now apply peskin_unit_q|now apply cosine_unit_q].
Qed.
Theorem C32_total_force_conserved_3d (peskin : bool) pz py px n0 n1 n2 g dx shift nodes address comps lagf bz by_ bx (force : Z -> Z -> R) (m : Z -> @lmem R) :
  let dims := [pz; py; px] in let loc := [n0; n1; n2] in
  let wt := if peskin then peskin_weight_q dx else cosine_weight_q dx in
  grid3 pz py px n0 n1 n2 g -> 2 <= g -> (0 < dx)%Q -> NoDup (lagf :: comps ++ [bz; by_; bx]) ->
  zero_buf 0%R (pz * py * px) bz [g; n1 + 2 * g; n2 + 2 * g] m -> zero_buf 0%R (pz * py * px) by_ [n0 + 2 * g; g; n2 + 2 * g] m -> zero_buf 0%R (pz * py * px) bx [n0 + 2 * g; n1 + 2 * g; g] m ->
  (forall f, In f comps -> zero_buf 0%R (pz * py * px) f (ghosted g loc) m) ->
  Forall (in_domain dx shift dims loc) nodes -> Forall (fun pos => Forall (inb (global_size dims loc)) (support_points (q_cell dx shift) 2 pos)) nodes ->
  map_nodes false dims loc dx shift 3 nodes = Mapped address ->
  (forall r c f i j, 0 <= r < pz * py * px -> 0 <= c -> nth_error comps (Z.to_nat c) = Some f -> ith_node address r i j -> m r (lag_local address lagf r c i) = force c j) ->
  exists m', runs_to (pz * py * px) (spread3 (q_cell dx shift) (q_dist dx shift) wt Rmult Rplus (fun x => x * 0)%R false pz py px n0 n1 n2 g 2 comps lagf bz by_ bx (local_positions nodes address)) m m' /\
    forall c f, 0 <= c -> nth_error comps (Z.to_nat c) = Some f ->
      total Rplus 0%R (map (fun rI => (Q2R dx ^ 3 * m' (fst rI) (f, ravel (ghosted g loc) (snd rI)))%R) (inner_cells dims loc g)) =
      total Rplus 0%R (map (force c) (zrange 0 (Z.of_nat (length nodes)))).
Proof.
  intros dims loc wt H2 Hw Hd Hn B1 B2 B3 B4 Hdom Hsup Ha Hlag.
  destruct (spread_sum_3d Rplus Rmult 0%R 1%R wt r_semiring (fun x => x * 0)%R pz py px n0 n1 n2 g 2 dx shift nodes address comps lagf bz by_ bx force m (Q2R dx ^ 3)%R H2 ltac:(lia) Hd ltac:(intros; cbv beta; ring) Hn B1 B2 B3 B4 Hdom Hsup Ha Hlag) as (m' & Hrun & V).
  exists m'. split; [exact Hrun|]. intros c f Hc Hf.
  apply (sum_one Rplus Rmult 0%R 1%R r_semiring _ _ _ _ _ _ (V c f (fun _ => 1%R) Hc Hf)). intros j Hj. apply zrange_In in Hj.
  assert (Hl : length (node_at nodes j) = 3%nat). { rewrite Forall_forall in Hdom. apply (in_domain_len dx shift dims loc); auto. apply Hdom. apply nth_In. lia. }
  rewrite <- Hl. destruct peskin; [now apply peskin_unit_q|now apply cosine_unit_q].
Qed.

(** Two nodes on a 2 x 1 process grid of 4 x 8 blocks, ghost size 2, dx = 1/4,
    one in each block, supports across the block boundary. *)
Example ib_instance :
  let nodes := [[(9 # 8)%Q; (7 # 8)%Q]; [(3 # 4)%Q; (5 # 4)%Q]] in
  grid2 2 1 4 8 2 /\ (0 < 1 # 4)%Q /\ NoDup [9; 0; 1; 7; 8]%nat /\ at_most_one_split [2; 1] /\
  Forall (in_domain (1 # 4) (1 # 8) [2; 1] [4; 8]) nodes /\
  Forall (fun pos => Forall (inb (global_size [2; 1] [4; 8])) (support_points (q_cell (1 # 4) (1 # 8)) 2 pos)) nodes /\
  map_nodes false [2; 1] [4; 8] (1 # 4) (1 # 8) 2 nodes = Mapped [0; 1] /\
  local_positions nodes [0; 1] 1 = [[(3 # 4)%Q; (5 # 4)%Q]].
Proof.
  cbv zeta. split; [unfold grid2; lia|]. split; [reflexivity|]. split; [repeat constructor; cbn; intuition lia|]. split; [vm_compute; lia|].
  split; [repeat constructor; unfold Qle, Qlt; cbn; lia|]. split.
  - repeat (constructor; [vm_compute support_points; vm_compute global_size; repeat constructor; lia|]). constructor.
  - split; vm_compute; reflexivity.
Qed.
(** Integers form a semiring; a node of the block has its window inside the array. *)
Example ib_instance2 : comm_semiring Z.add Z.mul 0 1 /\ communicator_rejects 2 2 = false /\ node_in_block (q_cell (1 # 4) (1 # 8)) [2; 1] [4; 8] 0 [(9 # 8)%Q; (7 # 8)%Q] /\
  window_cells (q_cell (1 # 4) (1 # 8)) [2; 1] [4; 8] 2 2 0 [(9 # 8)%Q; (7 # 8)%Q] = box [4; 5] [4; 4].
Proof.
  split; [repeat constructor; intros; lia|]. split; [reflexivity|]. split; [|vm_compute; reflexivity].
  unfold node_in_block. vm_compute. repeat constructor; discriminate.
Qed.

Print Assumptions C29_rejects_iff_ghost_too_small.
Print Assumptions C29_support_inside_local_array.
Print Assumptions C30_interpolation_serial_2d.
Print Assumptions C30_interpolation_serial_3d.
Print Assumptions C30_face_only_exchange_refuted.
Print Assumptions C30_spreading_serial_2d.
Print Assumptions C30_spreading_serial_3d.
Print Assumptions C31_cosine_partition_of_unity.
Print Assumptions C31_peskin_partition_of_unity.
Print Assumptions C31_peskin_exact_on_coordinates.
Print Assumptions C32_adjoint_2d.
Print Assumptions C32_adjoint_3d.
Print Assumptions C32_total_force_conserved_2d.
Print Assumptions C32_total_force_conserved_3d.
