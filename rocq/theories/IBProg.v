(** Ghosted interpolation as a parallel program. *)
From Coq Require Import QArith Qround.
From Verif Require Import Base SpecGrid SpecGhost SpecStencil SpecIB SpecLag Cart CartFacts Comm Spmd Ghost2D Ghost3D GhostProofs
  Stencil StencilProofs HaloKernels HaloThms GhostGeo KernelList EulLag LagProofs Lagrangian SpecStep EulLagProofs EulLagThms SpreadProofs IBThms.
Open Scope Z_scope.
Arguments run_lops : simpl never.
Arguments addr_eq : simpl never.
Arguments place_dec : simpl never.

Section G.
Context {T : Type}.
Variables (wt : list Q -> T) (scale : T -> T) (sum : list T -> T) (mul : T -> T -> T).
Variables (dims loc : list Z) (g w : Z) (dx shift : Q).
Hypothesis Hg : grid_ok dims loc.
Hypothesis Hw : 1 <= w <= g.
Hypothesis Hd : (0 < dx)%Q.
Notation e2l := (e2l_lops (q_cell dx shift) (q_dist dx shift) wt scale sum mul dims loc g w).

Lemma nodes_nth address nodes r i j : ith_node address r i j -> nth_error (local_positions nodes address r) (Z.to_nat i) = Some (node_at nodes j).
Proof. intros [_ H]. unfold local_positions. now apply map_nth_error. Qed.

Lemma interp_post (full : bool) (C : list (place * place)) comps lagf nodes address (m : mem T) u :
  exch_facts false dims loc g comps C ->
  (if full then full_exchanged false dims loc g comps m (run_copies C m) else face_exchanged false dims loc g comps m (run_copies C m)) ->
  full = true \/ at_most_one_split dims ->
  ~ In lagf comps -> represents dims loc g comps m u ->
  Forall (in_domain dx shift dims loc) nodes -> map_nodes false dims loc dx shift (Z.of_nat (length dims)) nodes = Mapped address ->
  exists m', spmd_ends (zprod dims) [PExch C (fun _ => []); PLoc (fun r => e2l r comps lagf (local_positions nodes address r))] m m' /\
    (forall c f r i j, 0 <= c -> nth_error comps (Z.to_nat c) = Some f -> 0 <= r < zprod dims -> ith_node address r i j ->
      Forall (inb (global_size dims loc)) (support_points (q_cell dx shift) w (node_at nodes j)) ->
      m' (r, lag_local address lagf r c i) = interpolated (q_cell dx shift) (q_dist dx shift) w scale sum mul wt (u f) (node_at nodes j)) /\
    represents dims loc g comps m' u /\
    (forall r a, fst a <> lagf -> ~ In (fst a) comps -> m' (r, a) = m (r, a)).
Proof.
  intros HC Hx Hfull Hlag Hu Hdom Ha. destruct (local_in_block dims loc dx shift nodes address Hd Hg Hdom Ha) as (Hl & Hr & Hb).
  eexists. split; [apply spmd_safe|].
  { constructor; [|constructor; [exact Logic.I|constructor]]. split; [apply (ef_nrw _ _ _ _ _ _ HC)|]. split; [apply (ef_ss _ _ _ _ _ _ HC)|]. split; [apply (ef_rng _ _ _ _ _ _ HC)|]. intros; constructor. }
  unfold den. cbn [fold_left den1]. set (m1 := den_loc (zprod dims) (fun _ => []) (run_copies C m)).
  assert (E1 : forall r a, m1 (r, a) = run_copies C m (r, a)). { intros r a. unfold m1, den_loc. cbn [fst snd]. destruct (_ && _); reflexivity. }
  assert (E2 : forall r, (fun a => m1 (r, a)) = (fun a => run_copies C m (r, a))) by (intros; apply FunctionalExtensionality.functional_extensionality; intros; apply E1).
  assert (Hun : forall r a, ~ In (fst a) comps -> run_copies C m (r, a) = m (r, a)).
  { intros r a Hna. apply run_copies_frame. intros s Hs. destruct (ef_dst _ _ _ _ _ _ HC s (r, a) Hs) as (f & I & Hf & _ & _ & E). cbn [snd] in E. rewrite E in Hna. cbn in Hna. contradiction. }
  assert (Hrep : represents dims loc g comps (run_copies C m) u).
  { intros r f x Hr0 Hf Hx0. rewrite <- (Hu r f x Hr0 Hf Hx0). unfold field. apply run_copies_frame. intros s Hs.
    destruct (ef_dst _ _ _ _ _ _ HC s _ Hs) as (f' & I & _ & HI & Hni & E). cbn [snd] in E. injection E as _ E. apply Hni. 
    assert (Hin : inner g loc (map (fun i => i + g) x)) by (now apply (add_inner loc g)).
    apply ravel_inj in E; auto; [now rewrite <- E|]. apply inner_inb; auto. lia. }
  split; [|split].
  - intros c f r i j Hc0 Hc Hr0 Hij Hs. unfold den_loc at 1. cbn [fst snd]. assert ((0 <=? r) && (r <? zprod dims) = true) as -> by (apply andb_true_iff; rewrite Z.leb_le, Z.ltb_lt; lia).
    rewrite E2. pose proof (nodes_nth address nodes r i j Hij) as Hn. specialize (Hb r Hr0). rewrite Forall_forall in Hb. pose proof (Hb _ (nth_error_In _ _ Hn)) as Hblk.
    unfold lag_local, node_count. replace (Z.of_nat (length (nodes_of address r))) with (Z.of_nat (length (local_positions nodes address r))) by (unfold local_positions; now rewrite map_length).
    destruct full.
    + apply (interp_full (q_cell dx shift) (q_dist dx shift) wt scale sum mul false dims loc g w comps Hg Hw m (run_copies C m) u r comps lagf (local_positions nodes address r) c f i (node_at nodes j)); auto. apply Hij.
    + destruct Hfull as [Hfull|Hone]; [discriminate|].
      apply (interp_face (q_cell dx shift) (q_dist dx shift) wt scale sum mul false dims loc g w comps Hg Hw m (run_copies C m) u r comps lagf (local_positions nodes address r) c f i (node_at nodes j)); auto. apply Hij.
  - intros r f x Hr0 Hf Hx0. rewrite <- (Hrep r f x Hr0 Hf Hx0). unfold field, den_loc at 1. cbn [fst snd]. rewrite E2. destruct (_ && _); [|apply E1]. etransitivity; [apply e2l_frame; cbn; congruence|reflexivity].
  - intros r a H1 H2. unfold den_loc at 1. cbn [fst snd]. rewrite <- Hun by auto. rewrite E2. destruct (_ && _); [|apply E1]. etransitivity; [apply e2l_frame; exact H1|reflexivity].
Qed.
End G.

Section P.
Context {T : Type}.
Variables (wt : list Q -> T) (scale : T -> T) (sum : list T -> T) (mul : T -> T -> T).
Lemma interp_2d py px ny nx g w full dx shift comps lagf nodes address (m : mem T) u :
  let dims := [py; px] in let loc := [ny; nx] in
  grid2 py px ny nx g -> 1 <= w <= g -> (0 < dx)%Q -> full = true \/ at_most_one_split dims -> ~ In lagf comps -> represents dims loc g comps m u ->
  Forall (in_domain dx shift dims loc) nodes -> map_nodes false dims loc dx shift 2 nodes = Mapped address ->
  exists m', spmd_ends (zprod dims) (ghosted_interp2 (q_cell dx shift) (q_dist dx shift) wt scale sum mul false py px ny nx g w full comps lagf (local_positions nodes address)) m m' /\
    (forall c f r i j, 0 <= c -> nth_error comps (Z.to_nat c) = Some f -> 0 <= r < zprod dims -> ith_node address r i j ->
      Forall (inb (global_size dims loc)) (support_points (q_cell dx shift) w (node_at nodes j)) ->
      m' (r, lag_local address lagf r c i) = interpolated (q_cell dx shift) (q_dist dx shift) w scale sum mul wt (u f) (node_at nodes j)) /\
    represents dims loc g comps m' u /\
    (forall r a, fst a <> lagf -> ~ In (fst a) comps -> m' (r, a) = m (r, a)).
Proof.
  intros dims loc H2 Hw Hd Hf Hlag Hu Hdom Ha. destruct H2 as (H1 & H2 & H3 & H4 & H5).
  apply (interp_post wt scale sum mul dims loc g w dx shift ltac:(split; [reflexivity| |]; repeat constructor; lia) Hw Hd full); auto.
  - apply exch2_facts; lia.
  - destruct full; [apply full2|apply edges2]; try lia; apply Permutation.Permutation_refl.
Qed.
Lemma interp_3d pz py px n0 n1 n2 g w full dx shift comps lagf nodes address (m : mem T) u :
  let dims := [pz; py; px] in let loc := [n0; n1; n2] in
  grid3 pz py px n0 n1 n2 g -> 1 <= w <= g -> (0 < dx)%Q -> full = true \/ at_most_one_split dims -> ~ In lagf comps -> represents dims loc g comps m u ->
  Forall (in_domain dx shift dims loc) nodes -> map_nodes false dims loc dx shift 3 nodes = Mapped address ->
  exists m', spmd_ends (zprod dims) (ghosted_interp3 (q_cell dx shift) (q_dist dx shift) wt scale sum mul false pz py px n0 n1 n2 g w full comps lagf (local_positions nodes address)) m m' /\
    (forall c f r i j, 0 <= c -> nth_error comps (Z.to_nat c) = Some f -> 0 <= r < zprod dims -> ith_node address r i j ->
      Forall (inb (global_size dims loc)) (support_points (q_cell dx shift) w (node_at nodes j)) ->
      m' (r, lag_local address lagf r c i) = interpolated (q_cell dx shift) (q_dist dx shift) w scale sum mul wt (u f) (node_at nodes j)) /\
    represents dims loc g comps m' u /\
    (forall r a, fst a <> lagf -> ~ In (fst a) comps -> m' (r, a) = m (r, a)).
Proof.
  intros dims loc H2 Hw Hd Hf Hlag Hu Hdom Ha. destruct H2 as (H1 & H2 & H3 & H4 & H5 & H6 & H7).
  apply (interp_post wt scale sum mul dims loc g w dx shift ltac:(split; [reflexivity| |]; repeat constructor; lia) Hw Hd full); auto.
  - apply exch3_facts; lia.
  - destruct full; [apply full3|apply faces3]; try lia; apply Permutation.Permutation_refl.
Qed.
End P.
