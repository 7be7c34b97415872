(** C15, C39, C40, C41: virtual boundary forcing and bodies. *)
From Coq Require Import Reals QArith.
From Verif Require Import Base SpecGrid SpecGhost SpecGhostSum SpecStencil SpecLag SpecIB SpecVbf SpecReduce Comm Blocking SpecBlocking Spmd KernelList Lagrangian EulLag RunsTo
  Vbf Bodies SpecBodies VbfProofs VbfThms BodiesProofs VelFrame Deviation DeviationProofs Refute5.
Open Scope Z_scope.

(** C15. For every history of interactions (each re-mapping the nodes by their
    new positions) and time steps, on any number of ranks and under every
    schedule: the ranks finish; the position mismatch stored for a node, on
    whichever rank the node is now, is the Euler-forward time integral of that
    node's velocity mismatch over the whole history, and the forcing on the
    master is stiffness * position mismatch + damping * velocity mismatch of
    the latest interaction (serial history [history] in SpecVbf.v).  Provided
    that whenever the mapping changes some rank's node count changes. *)
Theorem C15_mismatch_follows_node (T : Type) (add sub mul : T -> T -> T) (z stiff damp : T) n nc master A N a0 o0 cs (m : Z -> @lmem T) :
  NoDup (all_arrays A) -> 0 <= nc -> 0 <= master < n -> mapping_ok n master N a0 o0 -> zero_start z n master A m -> Forall (call_ok n master N) cs ->
  moves_change_counts n a0 (flat_map mapping_of cs) ->
  let a := last (flat_map mapping_of cs) a0 in let es := map event_of cs in
  exists m', runs_to n (calls_prog add sub mul z stiff damp n nc master A (vb_init a0 o0) cs) m m' /\
    (forall r c i j, 0 <= r < n -> 0 <= c < nc -> ith_node a r i j -> m' r (lag_local a (lpm A) r c i) = euler_integral add sub mul z es c j z) /\
    (forall c j, 0 <= c < nc -> 0 <= j < N -> m' master (gfo A, c * N + j) = fo (history add sub mul z stiff damp es) c j).
Proof.
  intros HA Hnc Hma Hv Hz Hok Hmv a es. destruct (history_ok add sub mul z stiff damp n nc master A N HA Hnc Hma a0 o0 cs m Hv Hz Hok Hmv) as (m' & R & H1 & H2).
  exists m'. split; [exact R|]. split; [|exact H2]. intros r c i j Hr Hc Hij. rewrite <- (history_integral add sub mul z stiff damp). now apply H1.
Qed.
(** Every history whatsoever: the exact serial behaviour ([mapped_history] in
    SpecVbf.v).  At an interaction that leaves every rank's node count as it was,
    each node continues with the mismatch of the node that had its place. *)
Theorem C15_every_history (T : Type) (add sub mul : T -> T -> T) (z stiff damp : T) n nc master A N a0 o0 cs (m : Z -> @lmem T) :
  NoDup (all_arrays A) -> 0 <= nc -> 0 <= master < n -> mapping_ok n master N a0 o0 -> zero_start z n master A m -> Forall (call_ok n master N) cs ->
  let a := fst (mapped_history add sub mul z stiff damp n a0 (map mevent_of cs)) in let h := snd (mapped_history add sub mul z stiff damp n a0 (map mevent_of cs)) in
  exists m', runs_to n (calls_prog add sub mul z stiff damp n nc master A (vb_init a0 o0) cs) m m' /\
    (forall r c i j, 0 <= r < n -> 0 <= c < nc -> ith_node a r i j ->
       m' r (lag_local a (lpm A) r c i) = pm h c j /\ m' r (lag_local a (lvm A) r c i) = vm h c j) /\
    (forall c j, 0 <= c < nc -> 0 <= j < N -> m' master (gfo A, c * N + j) = fo h c j).
Proof. intros HA Hnc Hma. exact (mapped_history_ok add sub mul z stiff damp n nc master A N HA Hnc Hma a0 o0 cs m). Qed.
(** FINDING: if nodes exchange ranks and every count is unchanged, the local
    mismatch arrays stay where they are: node j is given the mismatch of the
    node [was j] that had its place before, and so is the force. *)
Theorem C15_exchange_misattributes (T : Type) (add sub mul : T -> T -> T) (z stiff damp : T) n nc master A N a0 o0 cs (m : Z -> @lmem T) a' o' pos body flow (was : Z -> Z) :
  NoDup (all_arrays A) -> 0 <= nc -> 0 <= master < n -> mapping_ok n master N a0 o0 -> zero_start z n master A m -> Forall (call_ok n master N) cs ->
  moves_change_counts n a0 (flat_map mapping_of cs) -> mapping_ok n master N a' o' ->
  let a := last (flat_map mapping_of cs) a0 in let h := history add sub mul z stiff damp (map event_of cs) in
  (forall r, 0 <= r < n -> node_count a' r = node_count a r) ->
  (forall r i j, 0 <= r < n -> ith_node a' r i j -> ith_node a r i (was j)) ->
  exists m', runs_to n (calls_prog add sub mul z stiff damp n nc master A (vb_init a0 o0) (cs ++ [CInteract a' o' pos body flow])) m m' /\
    (forall r c i j, 0 <= r < n -> 0 <= c < nc -> ith_node a' r i j -> m' r (lag_local a' (lpm A) r c i) = pm h c (was j)) /\
    (forall c j, 0 <= c < nc -> 0 <= j < N -> m' master (gfo A, c * N + j) = add (mul stiff (pm h c (was j))) (mul damp (sub (flow c j) (body c j)))).
Proof. intros HA Hnc Hma. exact (exchange_stale add sub mul z stiff damp n nc master A N HA Hnc Hma a0 o0 cs m a' o' pos body flow was). Qed.
Theorem C15_exchange_refuted :
  ~ (forall (add sub mul : Z -> Z -> Z) (z stiff damp : Z) n nc master A N a0 o0 cs (m : Z -> @lmem Z),
      NoDup (all_arrays A) -> 0 <= nc -> 0 <= master < n -> mapping_ok n master N a0 o0 -> zero_start z n master A m -> Forall (call_ok n master N) cs ->
      exists m', runs_to n (calls_prog add sub mul z stiff damp n nc master A (vb_init a0 o0) cs) m m' /\
        (forall c j, 0 <= c < nc -> 0 <= j < N -> m' master (gfo A, c * N + j) = fo (history add sub mul z stiff damp (map event_of cs)) c j)).
Proof. exact exchange_refuted. Qed.

(** C39. After every history (whatever the moves), each rank's node count (the
    size of its buffers) is the number of nodes the latest mapping gives it,
    and the counts sum to the number of nodes. *)
Theorem C39_counts_after_remaps (T : Type) n master N a0 o0 (cs : list (@call T)) :
  mapping_ok n master N a0 o0 -> Forall (call_ok n master N) cs ->
  let a := last (flat_map mapping_of cs) a0 in let s := final n (vb_init a0 o0) cs in
  (forall r, 0 <= r < n -> num s r = node_count a r) /\ fold_right Z.add 0 (map (num s) (zrange 0 n)) = N.
Proof.
  intros Hv Hok a s. assert (Ea : address s = a) by (apply (final_address n cs (vb_init a0 o0))).
  assert (Hc : forall r, 0 <= r < n -> num s r = node_count a r). { rewrite <- Ea. unfold s. apply counts_ok. intros. cbn [vb_init num address]. apply LagProofs.count_eq. }
  split; [exact Hc|].
  assert (Ha : Forall (fun r => 0 <= r < n) a /\ Z.of_nat (length a) = N).
  { clear Hc Ea s. unfold a. clear a. revert a0 o0 Hv. induction cs as [|c cs IH]; intros a0 o0 Hv; [destruct Hv as (? & ? & ?); auto|].
    apply Forall_inv in Hok as Hc. apply Forall_inv_tail in Hok. destruct c as [a' o' pos body flow|dt]; [|exact (IH Hok a0 o0 Hv)].
    cbn [flat_map mapping_of app]. destruct (flat_map mapping_of cs) as [|x l] eqn:E; [cbn [call_ok] in Hc; destruct Hc as (? & ? & ?); auto|].
    specialize (IH Hok a' o' Hc). change (last (a' :: x :: l) a0) with (last (x :: l) a0). replace (last (x :: l) a0) with (last (x :: l) a'); [exact IH|].
    clear. revert x. induction l as [|y l IHl]; intros x; [reflexivity|]. apply (IHl y). }
  destruct Ha as [Ha1 Ha2]. rewrite <- Ha2. rewrite <- (counts_sum n a Ha1). f_equal. apply map_ext_in. intros r Hr. apply zrange_In in Hr. apply Hc. lia.
Qed.

(** C40. Ghosting the velocity and interpolating it at the nodes, on any
    process grid, periodic or not, full or face-only exchange: inner velocity
    cells and all other arrays are unchanged. *)
Theorem C40_velocity_inner_cells_unchanged_2d {C D T : Type} (fdiv : C -> Z) (gdist : Z -> C -> D) (wt : list D -> T) scale sum mul per py px ny nx g w full comps lagf lpos (m : mem T) :
  grid2 py px ny nx g -> ~ In lagf comps ->
  exists m', spmd_ends (py * px) (ghosted_interp2 fdiv gdist wt scale sum mul per py px ny nx g w full comps lagf lpos) m m' /\
    (forall r f I, In f comps -> inner g [ny; nx] I -> m' (r, (f, ravel (ghosted g [ny; nx]) I)) = m (r, (f, ravel (ghosted g [ny; nx]) I))) /\
    (forall r a, fst a <> lagf -> ~ In (fst a) comps -> m' (r, a) = m (r, a)).
Proof. exact (velocity_2d fdiv gdist wt scale sum mul per py px ny nx g w full comps lagf lpos m). Qed.
Theorem C40_velocity_inner_cells_unchanged_3d {C D T : Type} (fdiv : C -> Z) (gdist : Z -> C -> D) (wt : list D -> T) scale sum mul per pz py px n0 n1 n2 g w full comps lagf lpos (m : mem T) :
  grid3 pz py px n0 n1 n2 g -> ~ In lagf comps ->
  exists m', spmd_ends (pz * py * px) (ghosted_interp3 fdiv gdist wt scale sum mul per pz py px n0 n1 n2 g w full comps lagf lpos) m m' /\
    (forall r f I, In f comps -> inner g [n0; n1; n2] I -> m' (r, (f, ravel (ghosted g [n0; n1; n2]) I)) = m (r, (f, ravel (ghosted g [n0; n1; n2]) I))) /\
    (forall r a, fst a <> lagf -> ~ In (fst a) comps -> m' (r, a) = m (r, a)).
Proof. exact (velocity_3d fdiv gdist wt scale sum mul per pz py px n0 n1 n2 g w full comps lagf lpos m). Qed.
(** Any list of bodies called one after the other: redistribution, forces, and
    spreading, for every schedule.  The forcing field becomes: previous forcing
    (zero if the body resets) plus the sum over the body's nodes of their
    forces' serial contributions, body after body ([body_effect]); ghosts are
    zero again; every body's mismatches and forces are those of the serial
    history; no other array changes. *)
Theorem C40_bodies_add_up_2d (T : Type) (add sub mul : T -> T -> T) (z : T) (times0 : T -> T) py px ny nx g dx shift comps bodies (m : Z -> @lmem T) u :
  comm_monoid add z -> (forall x, times0 x = z) -> grid2 py px ny nx g -> (0 < dx)%Q ->
  let bufsz := [[g; nx + 2 * g]; [ny + 2 * g; g]] in
  NoDup (comps ++ flat_map call_ids bodies) -> Forall (fun b => call_ready z [py; px] [ny; nx] g dx shift comps bufsz b m) bodies -> forc z [py; px] [ny; nx] g comps u m ->
  exists m', runs_to (py * px) (all_interactions (full_interaction2 add sub mul z times0 py px ny nx g dx shift comps) (map fst bodies)) m m' /\
    Forall (fun b => call_done add sub mul z [py; px] comps bufsz b m') bodies /\
    forc z [py; px] [ny; nx] g comps (fold_left (fun u b => body_effect add sub mul z dx shift b u) bodies u) m' /\
    (forall r a, ~ In (fst a) comps -> ~ In (fst a) (flat_map call_ids bodies) -> m' r a = m r a).
Proof. intros Hm Ht. exact (bodies_2d add sub mul z times0 Hm Ht py px ny nx g dx shift comps bodies m u). Qed.
Theorem C40_bodies_add_up_3d (T : Type) (add sub mul : T -> T -> T) (z : T) (times0 : T -> T) pz py px n0 n1 n2 g dx shift comps bodies (m : Z -> @lmem T) u :
  comm_monoid add z -> (forall x, times0 x = z) -> grid3 pz py px n0 n1 n2 g -> (0 < dx)%Q ->
  let bufsz := [[g; n1 + 2 * g; n2 + 2 * g]; [n0 + 2 * g; g; n2 + 2 * g]; [n0 + 2 * g; n1 + 2 * g; g]] in
  NoDup (comps ++ flat_map call_ids bodies) -> Forall (fun b => call_ready z [pz; py; px] [n0; n1; n2] g dx shift comps bufsz b m) bodies -> forc z [pz; py; px] [n0; n1; n2] g comps u m ->
  exists m', runs_to (pz * py * px) (all_interactions (full_interaction3 add sub mul z times0 pz py px n0 n1 n2 g dx shift comps) (map fst bodies)) m m' /\
    Forall (fun b => call_done add sub mul z [pz; py; px] comps bufsz b m') bodies /\
    forc z [pz; py; px] [n0; n1; n2] g comps (fold_left (fun u b => body_effect add sub mul z dx shift b u) bodies u) m' /\
    (forall r a, ~ In (fst a) comps -> ~ In (fst a) (flat_map call_ids bodies) -> m' r a = m r a).
Proof. intros Hm Ht. exact (bodies_3d add sub mul z times0 Hm Ht pz py px n0 n1 n2 g dx shift comps bodies m u). Qed.

(** C41. In a consistent state (in particular after every history of C15), the
    global deviation norm, whatever the order of the reduction, is the norm of
    all nodes' position mismatches over sqrt(node count).  The same value is
    returned on every rank. *)
Theorem C41_global_norm (nc n N master : Z) A s (m : Z -> @lmem R) (P V : Z -> Z -> R) x :
  0 <= nc -> 0 < n -> consistent n nc master A N s m P V -> global_deviation n nc N A s m x ->
  x = (sqrt (total Rplus 0 (map (fun c => total Rplus 0 (map (fun j => Rsqr (P c j)) (zrange 0 N))) (zrange 0 nc))) / sqrt (IZR N))%R.
Proof. exact (deviation_ok nc n N master A s m P V x). Qed.
Theorem C41_global_norm_exists (nc n N : Z) A s (m : Z -> @lmem R) : 0 < n -> exists x, global_deviation n nc N A s m x.
Proof.
  intros Hn. set (v := fun r => Rsqr (array_norm (lpm A) (nc * num s r) (m r))).
  assert (E : forall l : list Z, l <> [] -> exists t, combines Rplus v l t).
  { induction l as [|r l IH]; [contradiction|]. intros _. destruct l as [|r' l]; [exists (v r); constructor|]. destruct IH as (t & Ht); [discriminate|]. exists (v r + t)%R. exact (comb_two _ _ [r] _ _ _ (comb_one _ _ r) Ht). }
  destruct (E (zrange 0 n)) as (t & Ht); [|exists (sqrt t / sqrt (IZR N))%R; exists t; auto].
  intros X. assert (In 0 (zrange 0 n)) by (apply zrange_In; lia). rewrite X in H. contradiction.
Qed.
(** FINDING: the local variant divides by the number of nodes of the rank's
    forcing grid, which is 0 on every rank except the master. *)
Theorem C41_local_variant_undefined_off_master nc N master A s (m : Z -> @lmem R) r : r <> master -> local_deviation nc N master A s m r = None.
Proof. intros H. unfold local_deviation, seen_num_lag_nodes. apply Z.eqb_neq in H. now rewrite H. Qed.

(** ** The hypotheses are met *)
Definition migrating : list (@call Z) := [CInteract [0; 1] [1] r5zero r5zero r5flow; CAdvance 1; CInteract [1; 1] [1] r5zero r5zero r5flow; CAdvance 2; CInteract [0; 0] [] r5zero r5zero r5zero].
Example C15_nonvacuous : NoDup (all_arrays r5A) /\ mapping_ok 2 0 2 [0; 1] [1] /\ zero_start 0 2 0 r5A (fun _ _ => 0) /\ Forall (call_ok 2 0 2) migrating /\
  moves_change_counts 2 [0; 1] (flat_map mapping_of migrating) /\
  euler_integral Z.add Z.sub Z.mul 0 (map event_of migrating) 0 1 0 = 6 /\ fo (history Z.add Z.sub Z.mul 0 10 1 (map event_of migrating)) 0 1 = 60.
Proof.
  split; [exact r5_nodup|]. split; [apply r5_map; auto|]. split; [split; reflexivity|].
  split; [|split; [|split; reflexivity]].
  - repeat (constructor; [cbn [call_ok]; try exact Logic.I; (split; [repeat constructor; lia|split; [split; [repeat constructor; cbn; tauto|intros s; cbn; lia]|reflexivity]])|]). constructor.
  - cbn [migrating flat_map mapping_of app moves_change_counts]. split; [auto|]. split; [intros H; specialize (H 0 ltac:(lia)); discriminate|]. split; [intros H; specialize (H 0 ltac:(lia)); discriminate|exact Logic.I].
Qed.

(** Two nodes exchange ranks: node 0 continues with node 1's mismatch. *)
Definition exchanging : list (@call Z) := [CInteract [0; 1] [1] r5zero r5zero r5flow; CAdvance 1; CInteract [1; 0] [1] r5zero r5zero r5zero].
Example C15_every_history_nonvacuous : Forall (call_ok 2 0 2) exchanging /\ r5flow 0 0 <> r5flow 0 1 /\
  (forall j, j = 0 \/ j = 1 -> pm (snd (mapped_history Z.add Z.sub Z.mul 0 10 1 2 [0; 1] (map mevent_of exchanging))) 0 j = r5flow 0 (1 - j)) /\
  forall j, j = 0 \/ j = 1 -> euler_integral Z.add Z.sub Z.mul 0 (map event_of exchanging) 0 j 0 = r5flow 0 j.
Proof.
  split; [|split; [discriminate|split; intros j [-> | ->]; reflexivity]].
  repeat (constructor; [cbn [call_ok]; try exact Logic.I; (split; [repeat constructor; lia|split; [split; [repeat constructor; cbn; tauto|intros s; cbn; lia]|reflexivity]])|]). constructor.
Qed.

Definition ex_arrays (k : nat) : arrays := {| gpm := k; gvm := k + 1; gfo := k + 2; gpos := k + 3; gvel := k + 4; lpm := k + 5; lvm := k + 6; lfo := k + 7; lpos := k + 8; lvel := k + 9; lflow := k + 10 |}.
Definition ex_body (k : nat) (reset : bool) (pos : list Q) (addr ord : list Z) : interactor Z :=
  {| i_arrays := ex_arrays k; i_state := vb_init addr ord; i_stiff := 1; i_damp := 2; i_master := 0; i_width := 1; i_bufs := [(k + 11)%nat; (k + 12)%nat]; i_reset := reset;
     i_weight := fun _ => 1; c_nodes := [pos]; c_address := addr; c_order := ord; c_pos := r5zero; c_body := r5zero; c_flow := fun _ _ => 5 |}.
Definition ex_bodies : list (interactor Z * @node_state Z) :=
  [(ex_body 2 true [(3 # 2)%Q; (3 # 2)%Q] [0] [], at_rest 0); (ex_body 20 false [(5 # 2)%Q; (3 # 2)%Q] [1] [1], at_rest 0)].
Example C40_nonvacuous : grid2 1 2 2 2 1 /\ NoDup ([0%nat; 1%nat] ++ flat_map call_ids ex_bodies) /\
  Forall (fun b => call_ready 0 [1; 2] [2; 2] 1 1 0 [0%nat; 1%nat] [[1; 4]; [4; 1]] b (fun _ _ => 0)) ex_bodies /\ forc 0 [1; 2] [2; 2] 1 [0%nat; 1%nat] (fun _ _ => 0) (fun _ _ => 0) /\
  fold_left (fun u b => body_effect Z.add Z.sub Z.mul 0 1 0 b u) ex_bodies (fun _ _ => 0) 0 [1; 2] = 20.
Proof.
  split; [unfold grid2; lia|]. split; [cbn; repeat constructor; cbn; intuition discriminate|]. split; [|split; [split; reflexivity|vm_compute; reflexivity]].
  repeat constructor; cbn [fst snd ex_body i_master i_width c_nodes c_address c_order i_state vb_init address order num]; try (cbn; lia); try (vm_compute; reflexivity); try (intros; reflexivity); try (cbn; tauto).
  all: try (cbn; unfold Qle, Qlt; cbn; lia).
  all: try (intros; cbn; apply LagProofs.count_eq).
  all: cbn in *; lia.
Qed.

Print Assumptions C15_mismatch_follows_node.
Print Assumptions C15_every_history.
Print Assumptions C15_exchange_misattributes.
Print Assumptions C15_exchange_refuted.
Print Assumptions C39_counts_after_remaps.
Print Assumptions C40_velocity_inner_cells_unchanged_2d.
Print Assumptions C40_velocity_inner_cells_unchanged_3d.
Print Assumptions C40_bodies_add_up_2d.
Print Assumptions C40_bodies_add_up_3d.
Print Assumptions C41_global_norm.
Print Assumptions C41_global_norm_exists.
Print Assumptions C41_local_variant_undefined_off_master.
