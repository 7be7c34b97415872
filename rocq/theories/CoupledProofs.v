(** Coupled runs follow the serial specification: proof for any dimension. *)
From Coq Require Import QArith FunctionalExtensionality.
From Verif Require Import Base SpecGrid SpecGhost SpecGhostSum SpecStencil SpecStep SpecLag SpecIB SpecVbf SpecNS SpecCoupled SpecBodies Comm Blocking SpecBlocking Spmd BlockFacts KernelList
  Stencil StencilProofs HaloThms PenaliseProofs GhostGeo HaloProofs HaloKernels StepProofs Lagrangian LagProofs LagComm EulLag EulLagThms EulLagProofs RunsTo IBThms IBProg Vbf Bodies VbfProofs VbfBook LocalProofs VbfThms BodiesProofs NSBase NSHalo Writes Coupled SpecTracks SpecResume.
Open Scope Z_scope.
Arguments run_lops : simpl never.
Arguments addr_eq : simpl never.
Arguments place_dec : simpl never.

Section Det.
Context {T : Type}.
Lemma segs_det n (l : list (@segment T)) m m1 m2 : segs_end n l m m1 -> segs_end n l m m2 -> m1 = m2.
Proof.
  intros H. revert m2. induction H as [m|ps l m m1 mf E H IH|prog l m m1 mf R H IH]; intros m2 H2; inversion H2 as [| ? ? ? m1' ? E' H' | ? ? ? m1' ? R' H']; subst; auto.
  - pose proof (spmd_ends_det _ _ _ _ _ E E') as <-. now apply IH.
  - pose proof (runs_to_det _ _ _ _ _ R R') as <-. now apply IH.
Qed.
Lemma segs_app n (l k : list (@segment T)) m m1 m2 : segs_end n l m m1 -> segs_end n k m1 m2 -> segs_end n (l ++ k) m m2.
Proof. induction 1; intros; cbn [app]; auto; econstructor; eauto. Qed.
End Det.

Lemma in_support_pts {C : Type} (cell : C -> Z) w P (pos : list C) : length P = length pos -> in_support cell w P pos = true -> In P (support_points cell w pos).
Proof.
  intros Hl H. unfold support_points. apply box_In; [unfold home; rewrite !map_length, rev_length; reflexivity|].
  unfold in_support in H. assert (Hl' : length P = length (home cell pos)) by (unfold home; rewrite map_length, rev_length; exact Hl).
  assert (Em : map (fun _ : C => 2 * w) pos = map (fun _ : Z => 2 * w) (home cell pos)).
  { assert (Hh : length (home cell pos) = length pos) by (unfold home; rewrite map_length, rev_length; reflexivity). clear -Hh. revert Hh. generalize (home cell pos). induction pos as [|x l IH]; intros [|y k]; cbn; intros H; try discriminate; auto. f_equal. apply IH. lia. }
  rewrite Em. clear Em Hl. revert P H Hl'. generalize (home cell pos) as h. clear. induction h as [|x h IH]; intros [|y P] H Hl; cbn in Hl; try discriminate; cbn [map]; constructor.
  - cbn [combine forallb fst snd] in H. apply andb_true_iff in H as [H _]. apply andb_true_iff in H. rewrite Z.ltb_lt, Z.leb_le in H. lia.
  - cbn [combine forallb] in H. apply andb_true_iff in H as [_ H]. apply IH; auto.
Qed.
Lemma domain_len dims loc dx shift pos : in_domain dx shift dims loc pos -> length (global_size dims loc) = length pos.
Proof.
  unfold in_domain, rel. intros H. assert (G : forall ss ls xs, in_cells dx ss ls xs -> length ls = length xs) by (induction 1; cbn; congruence).
  rewrite (G _ _ _ H). now rewrite map_length, rev_length.
Qed.
Lemma component_index f l : component_of f l = index_of f l.
Proof. induction l as [|x l IH]; cbn [component_of index_of]; [reflexivity|]. now rewrite IH. Qed.

Lemma nodup_join {A} (l k : list A) : NoDup l -> NoDup k -> (forall x, In x l -> ~ In x k) -> NoDup (l ++ k).
Proof.
  induction 1 as [|x l Hx Hl IH]; intros Hk Hd; cbn [app]; [exact Hk|]. constructor; [|apply IH; auto; intros; apply Hd; now right].
  rewrite in_app_iff. intros [H|H]; [contradiction|]. apply (Hd x); auto. now left.
Qed.

Section G.
Context {T F : Type}.
Variables (add sub mul : T -> T -> T) (z : T) (scale : T -> T) (sum : list T -> T) (dx shift : Q).
Variables (dims loc : list Z) (g : Z) (Fs vels fs W : list nat) (nb : nat) (actors : nat -> actor T) (bufsz : list (list Z)).
Variable exch : list (place * place).
Variable spread : actor T -> pose T -> Z -> list (@bop T).
Variable flow : F -> list (@phase T).
Variable flow_ok : F -> Prop.
Variable flow_step : (Z -> list Z -> T) -> (nat -> list Z -> T) -> F -> nat -> list Z -> T.
Variable full : bool.
Notation n := (zprod dims).
Notation nc := (Z.of_nat (length fs)).
Notation N := (global_size dims loc).
Hypothesis Hm : comm_monoid add z.
Hypothesis Hok : grid_ok dims loc.
Hypothesis Hg : 1 <= g.
Hypothesis Hdx : (0 < dx)%Q.
Hypothesis HF : incl Fs W.
Hypothesis Hvels : incl vels Fs.
Hypothesis Hfs : incl fs W.
Hypothesis HfF : forall f, In f fs -> ~ In f Fs.
Hypothesis Hnfs : NoDup fs.
Hypothesis Hlen : length vels = length fs.
Hypothesis HA : actors_ok dims g nb actors W.
Hypothesis Hex : exch_facts false dims loc g vels exch.
Hypothesis Hxx : forall m : mem T, if full then full_exchanged false dims loc g vels m (run_copies exch m) else face_exchanged false dims loc g vels m (run_copies exch m).
Hypothesis Hfull : full = true \/ at_most_one_split dims.
Notation tracks := (tracks z dims loc g Fs fs nb actors bufsz).
Notation off_edge := (off_edge z dims loc).
(** Spreading. *)
Hypothesis Hspread : forall b p (force : Z -> Z -> T) (m : Z -> @lmem T) (u : Z -> list Z -> T), (b < nb)%nat -> pose_ok dims loc dx shift (a_master (actors b)) (a_body (actors b)) p ->
  Forall2 (fun f sz => zero_buf z n f sz m) (a_bufs (actors b)) bufsz -> NoDup (fs ++ actor_ids (actors b)) ->
  (forall r c i j, 0 <= r < n -> 0 <= c < nc -> ith_node (p_address p) r i j -> m r (lag_local (p_address p) (lfo (a_arrays (actors b))) r c i) = force c j) ->
  forc z dims loc g fs u m ->
  exists m', runs_to n (spread (actors b) p) m m' /\
    forc z dims loc g fs (fun c P => add (u c P) (total add z (map (fun j => contribution (q_cell dx shift) (q_dist dx shift) (v_width (a_body (actors b))) z mul (v_weight (a_body (actors b))) (node_at (p_nodes p) j) (force c j) P)
      (zrange 0 (v_count (a_body (actors b))))))) m' /\
    Forall2 (fun f sz => zero_buf z n f sz m') (a_bufs (actors b)) bufsz /\
    (forall r a, ~ In (fst a) fs -> ~ In (fst a) (a_bufs (actors b)) -> m' r a = m r a).
(** The flow simulator's step. *)
Hypothesis Hflow : forall s (m : mem T) u frc, flow_ok s -> represents_ext false dims loc g Fs m u -> forc z dims loc g fs frc (by_rank m) ->
  (forall c P, inb N P -> edgeb false N P = true -> frc c P = z) ->
  exists m', spmd_ends n (flow s) m m' /\ represents_ext false dims loc g Fs m' (flow_step frc u s) /\ forc z dims loc g fs (fun _ _ => z) (by_rank m') /\
    (forall r a, ~ In (fst a) W -> m' (r, a) = m (r, a)).

Lemma ids_out b x : (b < nb)%nat -> In x (actor_ids (actors b)) -> ~ In x W.
Proof. intros Hb Hx Hw. destruct HA as [Hd _]. apply (nodup_disj _ _ _ Hd Hw). apply in_flat_map. exists b. split; [apply in_seq; lia|exact Hx]. Qed.
Lemma flat_seq {A} (f : nat -> list A) : forall k s b, (s <= b < s + k)%nat -> exists l1 l2, flat_map f (seq s k) = l1 ++ f b ++ l2 /\ forall b', (s <= b' < s + k)%nat -> b' <> b -> incl (f b') (l1 ++ l2).
Proof.
  induction k as [|k IH]; intros s b Hb; [lia|]. cbn [seq flat_map]. destruct (Nat.eq_dec b s) as [-> |Hn].
  - exists [], (flat_map f (seq (S s) k)). split; [reflexivity|]. intros b' Hb' Hne x Hx. cbn [app]. apply in_flat_map. exists b'. split; [apply in_seq; lia|exact Hx].
  - destruct (IH (S s) b ltac:(lia)) as (l1 & l2 & E & H). exists (f s ++ l1), l2. split; [rewrite E; now rewrite <- app_assoc|].
    intros b' Hb' Hne x Hx. rewrite <- app_assoc. apply in_or_app. destruct (Nat.eq_dec b' s) as [-> |Hs]; [now left|right]. exact (H b' ltac:(lia) Hne x Hx).
Qed.
Lemma ids_one b : (b < nb)%nat -> NoDup (actor_ids (actors b)).
Proof. intros Hb. destruct HA as [Hd _]. apply nodup_app_r in Hd. destruct (flat_seq (fun b => actor_ids (actors b)) nb 0 b ltac:(lia)) as (l1 & l2 & E & _). rewrite E in Hd. apply nodup_app_r in Hd. now apply nodup_app_l in Hd. Qed.
Lemma ids_apart b b' x : (b < nb)%nat -> (b' < nb)%nat -> b' <> b -> In x (actor_ids (actors b)) -> ~ In x (actor_ids (actors b')).
Proof.
  intros Hb Hb' Hne Hx Hx'. destruct HA as [Hd _]. apply nodup_app_r in Hd. destruct (flat_seq (fun b => actor_ids (actors b)) nb 0 b ltac:(lia)) as (l1 & l2 & E & H). rewrite E in Hd.
  specialize (H b' ltac:(lia) Hne x Hx'). apply in_app_iff in H as [H|H].
  - apply (nodup_disj _ _ _ Hd H). apply in_or_app. now left.
  - apply nodup_app_r in Hd. exact (nodup_disj _ _ _ Hd Hx H).
Qed.
Lemma fs_ids b : (b < nb)%nat -> NoDup (fs ++ actor_ids (actors b)).
Proof.
  intros Hb. apply nodup_join; [exact Hnfs|now apply ids_one|]. intros x Hx Hi. exact (ids_out b x Hb Hi (Hfs x Hx)).
Qed.

(** Ghost exchange of the velocity. *)
Definition exchd (m : mem T) : mem T := den n [PExch exch (fun _ => [])] m.
Lemma exchd_eq m r a : exchd m (r, a) = run_copies exch m (r, a).
Proof. unfold exchd, den. cbn [fold_left den1]. unfold den_loc. cbn [fst snd]. destruct (_ && _); reflexivity. Qed.
Lemma exchd_ends m : spmd_ends n [PExch exch (fun _ => [])] m (exchd m).
Proof.
  apply spmd_safe. constructor; [|constructor]. split; [apply (ef_nrw _ _ _ _ _ _ Hex)|]. split; [apply (ef_ss _ _ _ _ _ _ Hex)|]. split; [apply (ef_rng _ _ _ _ _ _ Hex)|]. intros; constructor.
Qed.
Lemma exchd_frame m r a : ~ In (fst a) vels -> exchd m (r, a) = m (r, a).
Proof.
  intros H. rewrite exchd_eq. apply run_copies_frame. intros s Hs. destruct (ef_dst _ _ _ _ _ _ Hex s (r, a) Hs) as (f & I & Hf & _ & _ & E). cbn [snd] in E. rewrite E in H. now apply H.
Qed.
Lemma exchd_ext m u : represents_ext false dims loc g Fs m u -> represents_ext false dims loc g Fs (exchd m) u.
Proof.
  intros Hu r f I Hr Hf HI HQ. rewrite <- (Hu r f I Hr Hf HI HQ). unfold field. rewrite exchd_eq. change (field (run_copies exch m) (ghosted g loc) r f I = field m (ghosted g loc) r f I).
  unfold field. destruct (in_dec Nat.eq_dec f vels) as [Hv|Hv]; [|now rewrite <- exchd_eq, exchd_frame].
  destruct HQ as [HQ|[Hga Ho]]; [now apply (copies_inner false dims loc g vels exch Hg Hex)|].
  change (field (run_copies exch m) (ghosted g loc) r f I = field m (ghosted g loc) r f I). rewrite (ef_ref _ _ _ _ _ _ Hex) by auto. unfold refreshed. now rewrite Ho.
Qed.
Lemma exchd_cell m u r f J : represents dims loc g vels m u -> 0 <= r < n -> In f vels -> inb (ghosted g loc) J -> inb N (ghost_pos dims loc g r J) ->
  exchd m (r, (f, ravel (ghosted g loc) J)) = u f (ghost_pos dims loc g r J).
Proof.
  intros Hu Hr Hf HJ HP. rewrite exchd_eq. change (field (run_copies exch m) (ghosted g loc) r f J = u f (ghost_pos dims loc g r J)). pose proof (Hxx m) as Hx.
  assert (V : refreshed m false dims loc g r f J = u f (ghost_pos dims loc g r J)) by (apply (exchanged_value false dims loc g vels); auto).
  destruct full.
  - rewrite (Hx r f J Hr HJ). destruct (in_dec Nat.eq_dec f vels); [exact V|contradiction].
  - destruct Hfull as [Hd|Hone]; [discriminate|]. rewrite (Hx r f J Hr HJ). destruct (in_dec Nat.eq_dec f vels); [|contradiction].
    pose proof (one_axis_ghosts dims loc g Hok r J Hr Hone HJ HP) as Hga. apply Nat.leb_le in Hga. now rewrite Hga.
Qed.

(** Velocity arrays that show u in all cells of the domain, ghosts included. *)
Definition fresh (m : mem T) (u : nat -> list Z -> T) : Prop := forall r f J, 0 <= r < n -> In f vels -> inb (ghosted g loc) J -> inb N (ghost_pos dims loc g r J) ->
  m (r, (f, ravel (ghosted g loc) J)) = u f (ghost_pos dims loc g r J).
Lemma exchd_fresh m u : represents dims loc g vels m u -> fresh (exchd m) u.
Proof. intros H r f J Hr Hf HJ HP. now apply exchd_cell. Qed.
Lemma fresh_same m m' u : (forall r f k, In f vels -> m' (r, (f, k)) = m (r, (f, k))) -> fresh m u -> fresh m' u.
Proof. intros E H r f J Hr Hf HJ HP. rewrite E by exact Hf. now apply H. Qed.

(** The interpolation reads the exchanged velocity. *)
Lemma vel_at c : 0 <= c < nc -> nth_error vels (Z.to_nat c) = Some (nth (Z.to_nat c) vels 0%nat).
Proof. intros Hc. apply nth_error_nth'. lia. Qed.
Lemma reads b p m u (M : Z -> @lmem T) : (b < nb)%nat -> pose_ok dims loc dx shift (a_master (actors b)) (a_body (actors b)) p -> fresh m u ->
  (forall r f k, In f vels -> M r (f, k) = m (r, (f, k))) ->
  flow_reader n nc (a_arrays (actors b)) (p_address p) (interpolate mul scale sum dx shift dims loc g vels (actors b) p) M
    (flow_at mul scale sum dx shift vels (fun b => a_body (actors b)) b p u).
Proof.
  intros Hb [P1 P2 P3 P4 P5] Hu HM. pose proof (proj2 HA b Hb) as [_ Hw].
  assert (HLA : In (lflow (a_arrays (actors b))) (all_arrays (a_arrays (actors b)))) by (unfold all_arrays, locals; cbn [app In]; tauto).
  assert (HLv : forall f, In f vels -> ~ In f (all_arrays (a_arrays (actors b)))).
  { intros f Hf Hx. apply (ids_out b f Hb); [apply in_or_app; now left|]. apply HF, Hvels, Hf. }
  split; [intros r mm a Ha; now apply e2l_frame|]. intros mm Hmm r c i j Hr Hc Hij.
  destruct (local_in_block dims loc dx shift (p_nodes p) (p_address p) Hdx Hok P1 P4) as (Hl & _ & Hbk).
  pose proof (nodes_nth (p_address p) (p_nodes p) r i j Hij) as Hn. specialize (Hbk r Hr). rewrite Forall_forall in Hbk. pose proof (Hbk _ (nth_error_In _ _ Hn)) as Hblk.
  assert (Hs : forall P, In P (support_points (q_cell dx shift) (v_width (a_body (actors b))) (node_at (p_nodes p) j)) -> inb N P).
  { pose proof (LagProofs.nodes_of_In) as _. rewrite Forall_forall in P3. intros P HP. assert (Hin : In (node_at (p_nodes p) j) (p_nodes p)).
    { destruct (ith_range (p_address p) r i j Hij) as [_ Hj]. unfold node_at. apply nth_In. lia. }
    specialize (P3 _ Hin). rewrite Forall_forall in P3. now apply P3. }
  unfold lag_local, node_count. replace (Z.of_nat (length (nodes_of (p_address p) r))) with (Z.of_nat (length (local_positions (p_nodes p) (p_address p) r))) by (unfold local_positions; now rewrite map_length).
  unfold interpolate, flow_at. eapply (e2l_correct (q_cell dx shift) (q_dist dx shift) (v_weight (a_body (actors b))) dims loc g (v_width (a_body (actors b))) Hok Hw scale sum mul r vels (lflow (a_arrays (actors b))) (local_positions (p_nodes p) (p_address p) r) _ _ c _ i (node_at (p_nodes p) j)); eauto.
  - intros X. exact (HLv _ X HLA).
  - lia.
  - now apply vel_at.
  - apply Hij.
  - intros J HJ HP. assert (Hv : In (nth (Z.to_nat c) vels 0%nat) vels) by (apply nth_In; lia). rewrite Hmm by (cbn [fst]; now apply HLv). rewrite HM by exact Hv. apply Hu; auto.
Qed.

Variable carry : list Z -> list Z -> Z -> Z.
Notation bodies := (fun b => a_body (actors b)).
Notation event := (event T F).
Notation sev := (serial_event add sub mul z scale sum dx shift vels flow_step bodies carry).
Notation met := (met add sub mul scale sum dx shift vels bodies carry).
Notation esegs := (event_segs add sub mul z scale sum dx shift dims loc g vels fs actors exch spread flow).
Notation emaps := (@event_maps T F dims).
(** The mapping rule fits the code at a call. *)
Definition fits (s : vb) (b : nat) (p : pose T) : Prop := carries n s (p_address p) (carry (address s) (p_address p)).

Lemma rep_vels (m : mem T) u : represents_ext false dims loc g Fs m u -> represents dims loc g vels m u.
Proof. intros H. apply (ext_represents dims loc g Hg). apply (ext_sub dims loc g false Fs); auto. Qed.

(** The exchange alone. *)
Lemma exchd_tracks ss m st : tracks ss m st -> tracks ss (exchd m) st.
Proof.
  intros [T1 T2 T3 T4 T5 T6]. assert (V : forall b x, (b < nb)%nat -> In x (actor_ids (actors b)) -> ~ In x vels) by (intros b x Hb Hx Hv; apply (ids_out b x Hb Hx); apply HF, Hvels, Hv).
  constructor; auto.
  - now apply exchd_ext.
  - destruct T2 as [A B]. split; intros; unfold by_rank in *; (rewrite exchd_frame; [auto|cbn [fst]; intros X; apply Hvels in X; eapply HfF; [|exact X]; eauto using nth_error_In]).
  - intros b Hb. apply (fstate_agree sub mul z dims fs _ _ _ _ _ (by_rank m)); auto. intros r a Ha. unfold by_rank. apply exchd_frame. apply (V b); auto. apply in_or_app. now left.
  - intros b Hb. apply (bufs_agree z dims _ _ (by_rank m)); auto. intros r a Ha. unfold by_rank. apply exchd_frame. apply (V b); auto. apply in_or_app. now right.
Qed.

(** Lagrangian part on a memory with fresh ghosts. *)
Definition homed (b : nat) (p : pose T) : Prop := a_local (actors b) = true -> p_address p = repeat (a_master (actors b)) (Z.to_nat (v_count (a_body (actors b)))).
Lemma lag_ok ss m st b p : tracks ss m st -> fresh m (cs_u st) -> (b < nb)%nat -> pose_ok dims loc dx shift (a_master (actors b)) (a_body (actors b)) p -> homed b p -> fits (ss b) b p ->
  forall M : Z -> @lmem T, (forall r a, ~ In (fst a) fs -> M r a = by_rank m r a) ->
  exists M', runs_to n (lag_force add sub mul z scale sum dx shift dims loc g vels fs (actors b) (ss b) p) M M' /\
    fstate n nc (a_master (actors b)) (a_arrays (actors b)) (v_count (a_body (actors b))) (remapped n (ss b) (p_address p) (p_order p)) M' (met b p st) /\
    (forall r c i j, 0 <= r < n -> 0 <= c < nc -> ith_node (p_address p) r i j -> M' r (lag_local (p_address p) (lfo (a_arrays (actors b))) r c i) = fo (met b p st) c j) /\
    (forall r a, ~ In (fst a) (all_arrays (a_arrays (actors b))) -> M' r a = M r a).
Proof.
  intros Ht Hfr Hb Hp Hho Hfit M HM. pose proof Ht as [X1 X2 X3 X4 X5 X6]. pose proof (proj2 HA b Hb) as [Hma Hw].
  assert (Hfa : forall x, In x (actor_ids (actors b)) -> ~ In x fs) by (intros x Hx Hf; exact (ids_out b x Hb Hx (Hfs x Hf))).
  assert (Haa : NoDup (all_arrays (a_arrays (actors b)))) by (pose proof (ids_one b Hb) as H; now apply nodup_app_l in H).
  assert (Hst : fstate n nc (a_master (actors b)) (a_arrays (actors b)) (v_count (a_body (actors b))) (ss b) M (cs_st st b)).
  { apply (fstate_agree sub mul z dims fs _ _ _ _ _ (by_rank m)); auto. intros r a Ha. apply HM. apply Hfa. apply in_or_app. now left. }
  destruct Hst as [Hi _].
  assert (Hrd : flow_reader n nc (a_arrays (actors b)) (p_address p) (interpolate mul scale sum dx shift dims loc g vels (actors b) p) M (flow_at mul scale sum dx shift vels bodies b p (cs_u st))).
  { apply (reads b p m); auto. intros r f k Hf. apply HM. cbn [fst]. intros X. exact (HfF f X (Hvels f Hf)). }
  unfold lag_force. destruct (a_local (actors b)) eqn:Hloc; [|
  destruct (interact_any add sub mul z (v_stiff (a_body (actors b))) (v_damp (a_body (actors b))) n nc (a_master (actors b)) (a_arrays (actors b)) (v_count (a_body (actors b))) Haa ltac:(lia) Hma
    (ss b) (p_address p) (p_order p) M (pm (cs_st st b)) (vm (cs_st st b)) (p_pos p) (p_vel p) _ _ (carry (address (ss b)) (p_address p)) Hi (po_order _ _ _ _ _ _ _ Hp) Hfit Hrd) as (M' & R & K1 & _ & K2 & K3 & K4);
    exists M'; (split; [exact R|]); unfold met, SpecCoupled.met; rewrite <- (X4 b Hb); cbn [ev1 pm vm fo]; (split; [split; [exact K1|exact K3]|]); split; [exact K2|exact K4]].
  specialize (Hho Hloc). pose proof (X6 b Hb Hloc) as Had. rewrite Hho, <- Had in Hrd.
  destruct (interact_local_ok add sub mul (v_stiff (a_body (actors b))) (v_damp (a_body (actors b))) n nc (a_master (actors b)) (a_arrays (actors b)) (v_count (a_body (actors b))) Haa Hma
    (ss b) M (pm (cs_st st b)) (vm (cs_st st b)) (p_pos p) (p_vel p) _ _ Hi Had Hrd) as (M' & R & K1 & K2 & K3 & K4).
  destruct K1 as (Kv & Kn & Kp & Km).
  assert (Hflag : update_flag n (ss b) (p_address p) = false).
  { unfold update_flag. rewrite Hho, <- Had. apply not_true_iff_false. intros E. apply existsb_exists in E. destruct E as (r & Hr & E). apply zrange_In in Hr. rewrite (Kn r) in E by lia. rewrite <- LagProofs.count_eq, Z.eqb_refl in E. discriminate. }
  assert (Hcar : forall j, 0 <= j < v_count (a_body (actors b)) -> carry (address (ss b)) (p_address p) j = j).
  { intros j Hj. unfold fits, carries in Hfit. rewrite Hflag in Hfit. remember (carry (address (ss b)) (p_address p)) as q eqn:Eq. clear Eq.
    assert (H0 : ith_node (p_address p) (a_master (actors b)) j j) by (rewrite Hho; apply home_ith; lia).
    pose proof (Hfit (a_master (actors b)) j j Hma H0) as H. rewrite Had in H. destruct (ith_home _ _ _ _ _ H) as (_ & X & _). symmetry. exact X. }
  assert (EH : forall (Q Q' : Z -> Z -> T) l, (forall c j, 0 <= j < v_count (a_body (actors b)) -> Q c j = Q' c j) -> copies_agree n nc (address (ss b)) l M' Q -> copies_agree n nc (p_address p) l M' Q').
  { intros Q Q' l HQ H r c i j Hr Hc Hij. rewrite Hho, <- Had in *. rewrite (H r c i j Hr Hc Hij). apply HQ. rewrite Had in Hij. destruct (ith_home _ _ _ _ _ Hij) as (_ & _ & Hj). lia. }
  exists M'. split; [exact R|]. unfold met, SpecCoupled.met. rewrite <- (X4 b Hb). cbn [ev1 pm vm fo]. split; [split; [split; [exact (po_order _ _ _ _ _ _ _ Hp)|split; [|split]]|]|split; [|exact K4]].
  - intros r Hr. cbn [remapped num address]. rewrite Hflag. rewrite Hho, <- Had. now apply Kn.
  - refine (EH _ _ _ _ Kp). intros c j Hj. cbn [pm vm fo]. now rewrite (Hcar j Hj).
  - refine (EH _ _ _ _ Km). intros c j Hj. reflexivity.
  - intros c j Hc Hj. cbn [pm vm fo]. rewrite (K3 c j Hc Hj). now rewrite (Hcar j Hj).
  - intros r c i j Hr Hc Hij. pose proof Hij as Hj0. rewrite Hho in Hj0. destruct (ith_home _ _ _ _ _ Hj0) as (_ & _ & Hj1). cbn [pm vm fo]. rewrite (Hcar j) by lia.
    assert (EA : p_address p = address (ss b)) by now rewrite Hho, Had. rewrite EA in *. exact (K2 r c i j Hr Hc Hij).
Qed.

(** What the interaction leaves in the master's global mismatch and position arrays. *)
Definition book_at (m : mem T) (b : nat) (P V pos : Z -> Z -> T) : Prop := forall c j, 0 <= c < nc -> 0 <= j < v_count (a_body (actors b)) ->
  m (a_master (actors b), (gpm (a_arrays (actors b)), c * v_count (a_body (actors b)) + j)) = P c j /\
  m (a_master (actors b), (gvm (a_arrays (actors b)), c * v_count (a_body (actors b)) + j)) = V c j /\
  m (a_master (actors b), (gpos (a_arrays (actors b)), c * v_count (a_body (actors b)) + j)) = pos c j.
Lemma lag_book ss m st b p : tracks ss m st -> (b < nb)%nat -> pose_ok dims loc dx shift (a_master (actors b)) (a_body (actors b)) p ->
  forall M M' : Z -> @lmem T, (forall r a, ~ In (fst a) fs -> M r a = by_rank m r a) ->
  runs_to n (lag_force add sub mul z scale sum dx shift dims loc g vels fs (actors b) (ss b) p) M M' -> a_local (actors b) = false ->
  book_at (at_place M') b (pm (cs_st st b)) (vm (cs_st st b)) (p_pos p).
Proof.
  intros Ht Hb Hp M M' HM R Hl. pose proof (tr_node _ _ _ _ _ _ _ _ _ _ _ _ Ht b Hb) as H3. pose proof (proj2 HA b Hb) as [Hma Hw].
  assert (Hfa : forall x, In x (actor_ids (actors b)) -> ~ In x fs) by (intros x Hx Hf; exact (ids_out b x Hb Hx (Hfs x Hf))).
  assert (Haa : NoDup (all_arrays (a_arrays (actors b)))) by (pose proof (ids_one b Hb) as H; now apply nodup_app_l in H).
  assert (Hst : fstate n nc (a_master (actors b)) (a_arrays (actors b)) (v_count (a_body (actors b))) (ss b) M (cs_st st b)).
  { apply (fstate_agree sub mul z dims fs _ _ _ _ _ (by_rank m)); auto. intros r a Ha. apply HM. apply Hfa. apply in_or_app. now left. }
  destruct Hst as [Hi _]. unfold lag_force in R. rewrite Hl in R.
  refine (interact_book add sub mul z _ _ n nc _ _ _ Haa ltac:(lia) Hma (ss b) _ _ M M' _ _ _ _ _ Hi (po_order _ _ _ _ _ _ _ Hp) _ R).
  intros r mm a Ha. now apply e2l_frame.
Qed.

Lemma tracks_one ss m st b ss' (M' : Z -> @lmem T) st' : tracks ss m st -> (b < nb)%nat ->
  (forall r a, ~ In (fst a) fs -> ~ In (fst a) (actor_ids (actors b)) -> M' r a = m (r, a)) ->
  fstate n nc (a_master (actors b)) (a_arrays (actors b)) (v_count (a_body (actors b))) (ss' b) M' (cs_st st' b) ->
  forc z dims loc g fs (cs_f st') M' -> Forall2 (fun f sz => zero_buf z n f sz M') (a_bufs (actors b)) bufsz -> address (ss' b) = cs_map st' b -> (a_local (actors b) = true -> address (ss' b) = repeat (a_master (actors b)) (Z.to_nat (v_count (a_body (actors b))))) ->
  (forall b', b' <> b -> ss' b' = ss b' /\ cs_st st' b' = cs_st st b' /\ cs_map st' b' = cs_map st b') -> cs_u st' = cs_u st -> tracks ss' (at_place M') st'.
Proof.
  intros [T1 T2 T3 T4 T5 T6] Hb E K1 K2 K3 K4 K7 K5 K6.
  assert (O : forall b' x, (b' < nb)%nat -> b' <> b -> In x (actor_ids (actors b')) -> forall r k, M' r (x, k) = m (r, (x, k))).
  { intros b' x Hb' Hne Hx r k. apply E; cbn [fst]; [intros X; exact (ids_out b' x Hb' Hx (Hfs x X))|]. apply (ids_apart b' b); auto. }
  constructor.
  - rewrite K6. intros r f I Hr Hf HI HQ. rewrite <- (T1 r f I Hr Hf HI HQ). unfold field, at_place. cbn [fst snd]. apply E; cbn [fst]; [intros X; exact (HfF f X Hf)|]. intros X. exact (ids_out b f Hb X (HF f Hf)).
  - exact K2.
  - intros b' Hb'. destruct (Nat.eq_dec b' b) as [-> |Hne]; [exact K1|]. destruct (K5 b' Hne) as (-> & -> & _).
    apply (fstate_agree sub mul z dims fs _ _ _ _ _ (by_rank m)); auto. intros r [x k] Ha. apply (O b'); auto. apply in_or_app. now left.
  - intros b' Hb'. destruct (Nat.eq_dec b' b) as [-> |Hne]; [exact K4|]. destruct (K5 b' Hne) as (-> & _ & ->). auto.
  - intros b' Hb'. destruct (Nat.eq_dec b' b) as [-> |Hne]; [exact K3|]. apply (bufs_agree z dims _ _ (by_rank m)); auto. intros r [x k] Ha. apply (O b'); auto. apply in_or_app. now right.
  - intros b' Hb' Hl. destruct (Nat.eq_dec b' b) as [-> |Hne]; [now apply K7|]. destruct (K5 b' Hne) as (-> & _). now apply T6.
Qed.
Lemma set_at_same {A} (f : nat -> A) b v : set_at f b v b = v. Proof. unfold set_at. now rewrite Nat.eqb_refl. Qed.
Lemma set_at_other {A} (f : nat -> A) b v b' : b' <> b -> set_at f b v b' = f b'. Proof. intros H. unfold set_at. destruct (Nat.eqb_spec b' b); [contradiction|reflexivity]. Qed.

Definition event_fits (ss : nat -> vb) (e : event) : Prop := match e with EFull b p | ELag b p => fits (ss b) b p | _ => True end.
Lemma bufs_ids b x : In x (a_bufs (actors b)) -> In x (actor_ids (actors b)). Proof. intros H. apply in_or_app. now right. Qed.
Lemma arrs_ids b x : In x (all_arrays (a_arrays (actors b))) -> In x (actor_ids (actors b)). Proof. intros H. apply in_or_app. now left. Qed.
Lemma arrs_bufs b x : (b < nb)%nat -> In x (all_arrays (a_arrays (actors b))) -> ~ In x (a_bufs (actors b)).
Proof. intros Hb H X. pose proof (ids_one b Hb) as Hd. exact (nodup_disj _ _ _ Hd H X). Qed.

Lemma off_spread st b p force : off_edge st -> (b < nb)%nat -> pose_ok dims loc dx shift (a_master (actors b)) (a_body (actors b)) p ->
  forall c P, inb N P -> edgeb false N P = true -> spread_onto add mul z dx shift bodies b p force (cs_f st) c P = z.
Proof.
  intros Ho Hb [P1 P2 P3 P4 P5] c P HP HE. unfold spread_onto. destruct Hm as [Ha Hc Hz].
  assert (E0 : (if v_reset (a_body (actors b)) then z else cs_f st c P) = z) by (destruct (v_reset _); auto). rewrite E0.
  assert (Z1 : forall l, (forall j, In j l -> 0 <= j < v_count (a_body (actors b))) -> total add z (map (fun j => contribution (q_cell dx shift) (q_dist dx shift) (v_width (a_body (actors b))) z mul (v_weight (a_body (actors b))) (node_at (p_nodes p) j) (force c j) P) l) = z).
  { induction l as [|j l IH]; intros Hl; [reflexivity|]. cbn [map total fold_right] in *. unfold total in *. rewrite IH by (intros; apply Hl; now right).
    assert (contribution (q_cell dx shift) (q_dist dx shift) (v_width (a_body (actors b))) z mul (v_weight (a_body (actors b))) (node_at (p_nodes p) j) (force c j) P = z) as ->; [|apply Hz].
    unfold contribution. destruct (in_support (q_cell dx shift) (v_width (a_body (actors b))) P (node_at (p_nodes p) j)) eqn:Es; [|reflexivity]. exfalso.
    assert (Hin : In (node_at (p_nodes p) j) (p_nodes p)) by (specialize (Hl j ltac:(now left)); unfold node_at; apply nth_In; lia).
    rewrite Forall_forall in P1, P3. specialize (P3 _ Hin). rewrite Forall_forall in P3. destruct (P3 P) as [_ X]; [|congruence].
    apply in_support_pts; auto. apply inb_length in HP. rewrite HP. now apply (domain_len dims loc dx shift), P1. }
  rewrite Z1 by (intros j Hj; apply zrange_In in Hj; lia). apply Hz.
Qed.

Lemma ghosting_ok ss (m : mem T) st b fr : tracks ss m st -> (fr = true -> fresh m (cs_u st)) -> a_auto (actors b) || fr = true ->
  exists m0, segs_end n (ghosting exch (actors b)) m m0 /\ tracks ss m0 st /\ fresh m0 (cs_u st) /\ (forall r a, ~ In (fst a) vels -> m0 (r, a) = m (r, a)).
Proof.
  intros Ht Hf Hg0. unfold ghosting. destruct (a_auto (actors b)).
  - exists (exchd m). split; [econstructor; [apply exchd_ends|constructor]|]. split; [now apply exchd_tracks|]. split; [apply exchd_fresh; apply rep_vels; exact (tr_flow _ _ _ _ _ _ _ _ _ _ _ _ Ht)|]. intros r a Ha. now apply exchd_frame.
  - exists m. split; [constructor|]. auto.
Qed.
Lemma vel_out b f : (b < nb)%nat -> In f vels -> ~ In f (actor_ids (actors b)). Proof. intros Hb Hf X. exact (ids_out b f Hb X (HF f (Hvels f Hf))). Qed.
Lemma vel_fs f : In f vels -> ~ In f fs. Proof. intros Hf X. exact (HfF f X (Hvels f Hf)). Qed.

(** The body an event is about. *)
Definition acts_on (e : event) : option nat := match e with EFull b _ | ELag b _ | EAdvance b _ => Some b | _ => None end.
Lemma event_more ss m st e fr : tracks ss m st -> off_edge st -> (fr = true -> fresh m (cs_u st)) -> event_ok dims loc nb actors dx shift flow_ok e -> event_fits ss e ->
  match e with EFull b _ | ELag b _ => a_auto (actors b) || fr = true | _ => True end ->
  exists m', segs_end n (esegs ss e) m m' /\ tracks (emaps ss e) m' (sev st e) /\ off_edge (sev st e) /\ (fresh_after actors fr e = true -> fresh m' (cs_u (sev st e))) /\
    (forall r a, ~ In (fst a) W -> (forall b, acts_on e = Some b -> ~ In (fst a) (actor_ids (actors b))) -> m' (r, a) = m (r, a)) /\
    match e with EFull b p | ELag b p => a_local (actors b) = false -> book_at m' b (pm (cs_st st b)) (vm (cs_st st b)) (p_pos p) | _ => True end.
Proof.
  intros Ht Ho Hfr He Hfit Hgh. destruct e as [b p|b p|b dt|x|]; cbn [event_ok event_fits] in He, Hfit.
  - destruct He as (Hb & Hp & Hho). destruct (ghosting_ok ss m st b fr Ht Hfr Hgh) as (mx & Rx & Hx & Hfx & Ex).
    set (M0 := by_rank mx). set (reset := v_reset (a_body (actors b))).
    set (Mr := local_on n (fun _ => if reset then reset_forcing z fs (ghosted g loc) else fun m => m) M0).
    assert (Rr : runs_to n (fun _ => if reset then [BLocal (reset_forcing z fs (ghosted g loc))] else []) M0 Mr).
    { unfold Mr. destruct reset; [apply (runs_to_local n (fun _ => _))|]. refine (eq_ind _ (fun x => runs_to n _ M0 x) (runs_to_nil n M0) _ _).
      apply functional_extensionality. intros r. unfold local_on. destruct (_ && _); reflexivity. }
    assert (Fr : forall r a, ~ In (fst a) fs -> Mr r a = M0 r a).
    { intros r a Ha. unfold Mr. apply local_on_frame. intros r0 m0. destruct reset; [now apply (reset_out)|reflexivity]. }
    assert (Hrf : forc z dims loc g fs (fun c P => if reset then z else cs_f st c P) Mr).
    { destruct (tr_forc _ _ _ _ _ _ _ _ _ _ _ _ Hx) as [F1 F2]. split.
      - intros c f r I Hc Hcf Hr HI. unfold Mr. rewrite local_on_in by auto. destruct reset; [apply (reset_in); [eapply nth_error_In; eauto|]|now apply F1].
        apply (GhostGeo.inner_inb g loc I); [lia|exact HI].
      - intros f r I Hfc Hr HI Hn. unfold Mr. rewrite local_on_in by auto. destruct reset; [now apply (reset_in)|now apply F2]. }
    destruct (lag_ok ss mx st b p Hx Hfx Hb Hp Hho Hfit Mr Fr) as (M1 & R1 & S1 & L1 & E1).
    assert (B1 : Forall2 (fun f sz => zero_buf z n f sz M1) (a_bufs (actors b)) bufsz).
    { apply (bufs_agree z dims _ _ M0); [|exact (tr_bufs _ _ _ _ _ _ _ _ _ _ _ _ Hx b Hb)]. intros r a Ha. rewrite E1 by (intros X; exact (arrs_bufs b _ Hb X Ha)). apply Fr. intros X. exact (ids_out b _ Hb (bufs_ids b _ Ha) (Hfs _ X)). }
    assert (F1 : forc z dims loc g fs (fun c P => if reset then z else cs_f st c P) M1).
    { assert (D : forall f, In f fs -> ~ In f (all_arrays (a_arrays (actors b)))) by (intros f Hf X; exact (ids_out b _ Hb (arrs_ids b _ X) (Hfs _ Hf))).
      destruct Hrf as [A B]. split; intros; (rewrite E1; [auto|cbn [fst]; apply D; eauto using nth_error_In]). }
    destruct (Hspread b p (fo (met b p st)) M1 _ Hb Hp B1 (fs_ids b Hb) L1 F1) as (M2 & R2 & F2 & B2 & E2).
    exists (at_place M2). split; [|split; [|split; [|split; [|split]]]].
    + cbn [event_segs]. refine (segs_app _ _ _ _ _ _ Rx _). econstructor; [|constructor]. unfold full_force. exact (runs_to_app _ _ _ _ _ _ Rr (runs_to_app _ _ _ _ _ _ R1 R2)).
    + apply (tracks_one ss mx st b); auto; cbn [event_maps serial_event cs_st cs_f cs_map cs_u].
      * intros r a A1 A2. rewrite E2 by (auto using bufs_ids). rewrite E1 by (auto using arrs_ids). now apply Fr.
      * rewrite !set_at_same. apply (fstate_agree sub mul z dims fs _ _ _ _ _ M1); auto. intros r a Ha. apply E2; [|now apply arrs_bufs]. intros X. exact (ids_out b _ Hb (arrs_ids b _ Ha) (Hfs _ X)).
      * now rewrite !set_at_same.
      * intros Hl. rewrite !set_at_same. now apply Hho.
      * intros b' Hne. now rewrite !set_at_other.
    + intros c P HP HE. cbn [serial_event cs_f]. now apply off_spread.
    + intros _. cbn [serial_event cs_u]. apply (fresh_same mx); [|exact Hfx]. intros r f k Hf. unfold at_place. cbn [fst snd].
      rewrite E2 by (cbn [fst]; auto using bufs_ids, vel_fs; intros X; exact (vel_out b f Hb Hf (bufs_ids b f X))). rewrite E1 by (cbn [fst]; intros X; exact (vel_out b f Hb Hf (arrs_ids b f X))). apply Fr. cbn [fst]. now apply vel_fs.
    + intros r a A1 A2. specialize (A2 b eq_refl). unfold at_place. cbn [fst snd]. rewrite E2 by (auto using bufs_ids). rewrite E1 by (auto using arrs_ids). rewrite Fr by auto. apply Ex. intros X. exact (A1 (HF _ (Hvels _ X))).
    + intros Hl c j Hc Hj. pose proof (lag_book ss mx st b p Hx Hb Hp Mr M1 Fr R1 Hl c j Hc Hj) as K. unfold at_place in K |- *. cbn [fst snd] in K |- *.
      rewrite !E2; auto; cbn [fst]; (apply arrs_bufs; [exact Hb|]) || (intros X; refine (ids_out b _ Hb (arrs_ids b _ _) (Hfs _ X))); unfold all_arrays; cbn [app In]; tauto.
  - destruct He as (Hb & Hp & Hho). destruct (ghosting_ok ss m st b fr Ht Hfr Hgh) as (mx & Rx & Hx & Hfx & Ex).
    destruct (lag_ok ss mx st b p Hx Hfx Hb Hp Hho Hfit (by_rank mx) ltac:(auto)) as (M1 & R1 & S1 & L1 & E1).
    exists (at_place M1). split; [|split; [|split; [|split; [|split]]]].
    + cbn [event_segs]. refine (segs_app _ _ _ _ _ _ Rx _). econstructor; [exact R1|constructor].
    + apply (tracks_one ss mx st b); auto; cbn [event_maps serial_event cs_st cs_f cs_map cs_u].
      * intros r a A1 A2. rewrite E1 by (auto using arrs_ids). reflexivity.
      * now rewrite !set_at_same.
      * assert (D : forall f, In f fs -> ~ In f (all_arrays (a_arrays (actors b)))) by (intros f Hf X; exact (ids_out b _ Hb (arrs_ids b _ X) (Hfs _ Hf))).
        destruct (tr_forc _ _ _ _ _ _ _ _ _ _ _ _ Hx) as [A B]. split; intros; (rewrite E1; [auto|cbn [fst]; apply D; eauto using nth_error_In]).
      * apply (bufs_agree z dims _ _ (by_rank mx)); [|exact (tr_bufs _ _ _ _ _ _ _ _ _ _ _ _ Hx b Hb)]. intros r a Ha. apply E1. intros X. exact (arrs_bufs b _ Hb X Ha).
      * now rewrite !set_at_same.
      * intros Hl. rewrite !set_at_same. now apply Hho.
      * intros b' Hne. now rewrite !set_at_other.
    + exact Ho.
    + intros _. cbn [serial_event cs_u]. apply (fresh_same mx); [|exact Hfx]. intros r f k Hf. unfold at_place. cbn [fst snd]. rewrite E1 by (cbn [fst]; intros X; exact (vel_out b f Hb Hf (arrs_ids b f X))). reflexivity.
    + intros r a A1 A2. specialize (A2 b eq_refl). unfold at_place. cbn [fst snd]. rewrite E1 by (auto using arrs_ids). apply Ex. intros X. exact (A1 (HF _ (Hvels _ X))).
    + intros Hl. exact (lag_book ss mx st b p Hx Hb Hp (by_rank mx) M1 ltac:(auto) R1 Hl).
  - pose proof (tr_node _ _ _ _ _ _ _ _ _ _ _ _ Ht b He) as [Hi Hf]. pose proof (proj2 HA b He) as [Hma Hw].
    assert (Haa : NoDup (all_arrays (a_arrays (actors b)))) by (pose proof (ids_one b He) as H; now apply nodup_app_l in H).
    destruct (advance_ok add mul n nc (a_master (actors b)) (a_arrays (actors b)) (v_count (a_body (actors b))) Haa (ss b) dt (by_rank m) _ _ Hi) as (M1 & R1 & S1 & E1).
    pose proof (arr_neq _ Haa) as Hneq. assert (Hgl : gfo (a_arrays (actors b)) <> lpm (a_arrays (actors b))) by tauto.
    assert (HL : In (lpm (a_arrays (actors b))) (all_arrays (a_arrays (actors b)))) by (unfold all_arrays, locals; cbn [app In]; tauto).
    exists (at_place M1). split; [|split; [|split; [|split; [|split]]]].
    + econstructor; [exact R1|constructor].
    + apply (tracks_one ss m st b); auto; cbn [event_maps serial_event cs_st cs_f cs_map cs_u].
      * intros r a A1 A2. apply E1. intros X. apply A2. rewrite X. now apply arrs_ids.
      * rewrite set_at_same. cbn [ev1]. split; [exact S1|]. cbn [fo]. intros c j Hc Hj. rewrite E1 by (cbn [fst]; exact Hgl). now apply Hf.
      * destruct (tr_forc _ _ _ _ _ _ _ _ _ _ _ _ Ht) as [A B]. split; intros; (rewrite E1; [auto|cbn [fst]; intros X; subst; apply (ids_out b _ He (arrs_ids b _ HL)); apply Hfs; eauto using nth_error_In]).
      * apply (bufs_agree z dims _ _ (by_rank m)); [|exact (tr_bufs _ _ _ _ _ _ _ _ _ _ _ _ Ht b He)]. intros r a Ha. apply E1. intros X. rewrite X in Ha. exact (arrs_bufs b _ He HL Ha).
      * now apply (tr_map _ _ _ _ _ _ _ _ _ _ _ _ Ht).
      * intros Hl. now apply (tr_local _ _ _ _ _ _ _ _ _ _ _ _ Ht).
      * intros b' Hne. now rewrite !set_at_other.
    + exact Ho.
    + cbn [fresh_after serial_event cs_u]. intros Ef. apply (fresh_same m); [|now apply Hfr]. intros r f k Hv. unfold at_place. cbn [fst snd]. unfold by_rank in E1. apply E1. cbn [fst]. intros X. subst f. exact (vel_out b _ He Hv (arrs_ids b _ HL)).
    + intros r a A1 A2. specialize (A2 b eq_refl). unfold at_place. cbn [fst snd]. unfold by_rank in E1. apply E1. intros X. apply A2. rewrite X. now apply arrs_ids.
    + exact I.
  - destruct Ht as [T1 T2 T3 T4 T5 T6]. destruct (Hflow x m (cs_u st) (cs_f st) He T1 T2 Ho) as (m' & R & U & FF & E).
    exists m'. split; [|split; [|split; [|split; [|split]]]].
    + econstructor; [exact R|constructor].
    + constructor; cbn [event_maps serial_event cs_st cs_f cs_map cs_u]; auto.
      * intros b Hb. apply (fstate_agree sub mul z dims fs _ _ _ _ _ (by_rank m)); auto. intros r a Ha. unfold by_rank. apply E. apply (ids_out b); auto. now apply arrs_ids.
      * intros b Hb. apply (bufs_agree z dims _ _ (by_rank m)); auto. intros r a Ha. unfold by_rank. apply E. apply (ids_out b); auto. now apply bufs_ids.
    + intros c P _ _. reflexivity.
    + discriminate.
    + intros r a A1 _. now apply E.
    + exact I.
  - exists (exchd m). split; [econstructor; [apply exchd_ends|constructor]|]. split; [now apply exchd_tracks|]. split; [exact Ho|]. split; [|split; [|exact I]].
    + intros _. cbn [serial_event]. apply exchd_fresh. apply rep_vels. exact (tr_flow _ _ _ _ _ _ _ _ _ _ _ _ Ht).
    + intros r a A1 _. apply exchd_frame. intros X. exact (A1 (HF _ (Hvels _ X))).
Qed.
Lemma event_step ss m st e fr : tracks ss m st -> off_edge st -> (fr = true -> fresh m (cs_u st)) -> event_ok dims loc nb actors dx shift flow_ok e -> event_fits ss e ->
  match e with EFull b _ | ELag b _ => a_auto (actors b) || fr = true | _ => True end ->
  exists m', segs_end n (esegs ss e) m m' /\ tracks (emaps ss e) m' (sev st e) /\ off_edge (sev st e) /\ (fresh_after actors fr e = true -> fresh m' (cs_u (sev st e))).
Proof. intros A B C D E G. destruct (event_more ss m st e fr A B C D E G) as (m' & H1 & H2 & H3 & H4 & _). eauto. Qed.

Notation csegs := (coupled_segs add sub mul z scale sum dx shift dims loc g vels fs actors exch spread flow).
Fixpoint all_fit (ss : nat -> vb) (es : list event) : Prop := match es with [] => True | e :: es' => event_fits ss e /\ all_fit (emaps ss e) es' end.
Notation colls := (collects add sub mul z scale sum dx shift vels flow_step bodies carry).
Definition booked (m : mem T) (x : nat -> option (collected T)) : Prop := forall b k, (b < nb)%nat -> a_local (actors b) = false -> x b = Some k -> book_at m b (co_pm k) (co_vm k) (co_pos k).
Lemma booked_frame (m m' : mem T) x b : (b < nb)%nat -> (forall b', (b' < nb)%nat -> b' <> b -> forall r a, In (fst a) (actor_ids (actors b')) -> m' (r, a) = m (r, a)) -> booked m x ->
  forall b' k, (b' < nb)%nat -> b' <> b -> a_local (actors b') = false -> x b' = Some k -> book_at m' b' (co_pm k) (co_vm k) (co_pos k).
Proof.
  intros Hb E H b' k Hb' Hne Hl Hx c j Hc Hj. rewrite !(E b' Hb' Hne) by (apply arrs_ids; unfold all_arrays; cbn [fst app In]; tauto). now apply H.
Qed.
Lemma keep_all (m m' : mem T) x : (forall b' r a, (b' < nb)%nat -> In (fst a) [gpm (a_arrays (actors b')); gvm (a_arrays (actors b')); gpos (a_arrays (actors b'))] -> m' (r, a) = m (r, a)) -> booked m x -> booked m' x.
Proof. intros E H b k Hb Hl Hx c j Hc Hj. rewrite !(E b) by (auto; cbn [fst In]; tauto). now apply H. Qed.
Theorem coupled_more es : forall fr ss m st x, tracks ss m st -> off_edge st -> (fr = true -> fresh m (cs_u st)) -> ghosts_ok actors fr es -> Forall (event_ok dims loc nb actors dx shift flow_ok) es -> all_fit ss es -> booked m x ->
  exists m', segs_end n (csegs ss es) m m' /\ tracks (final_maps dims ss es) m' (serial_coupled add sub mul z scale sum dx shift vels flow_step bodies carry st es) /\
    off_edge (serial_coupled add sub mul z scale sum dx shift vels flow_step bodies carry st es) /\ booked m' (colls st x es).
Proof.
  induction es as [|e es IH]; intros fr ss m st x Ht Ho Hfr Hgh He Hfit Hbk.
  - exists m. split; [constructor|auto].
  - destruct Hfit as [Hf1 Hf2]. destruct Hgh as [Hg1 Hg2]. inversion He as [|? ? He1 He2]; subst. destruct (event_more ss m st e fr Ht Ho Hfr He1 Hf1 Hg1) as (m1 & R1 & T1 & O1 & Q1 & E1 & B1).
    assert (Out : forall b' r a, (b' < nb)%nat -> (forall b, acts_on e = Some b -> b' <> b /\ (b < nb)%nat) -> In (fst a) (actor_ids (actors b')) -> m1 (r, a) = m (r, a)).
    { intros b' r a Hb' Hne Ha. apply E1; [now apply (ids_out b')|]. intros b Eb. destruct (Hne b Eb) as [Hx Hy]. apply (ids_apart b' b); auto. }
    assert (Mt : forall b p, (b < nb)%nat -> acts_on e = Some b -> (a_local (actors b) = false -> book_at m1 b (pm (cs_st st b)) (vm (cs_st st b)) (p_pos p)) ->
      booked m1 (set_at x b (Some {| co_pm := pm (cs_st st b); co_vm := vm (cs_st st b); co_pos := p_pos p |}))).
    { intros b p Hb Ea HB b' k Hb' Hl Hx. destruct (Nat.eq_dec b' b) as [-> |Hne].
      - rewrite set_at_same in Hx. injection Hx as <-. cbn [co_pm co_vm co_pos]. now apply HB.
      - rewrite set_at_other in Hx by exact Hne. apply (booked_frame m m1 x b Hb); auto. intros b2 Hb2 Hn2 r a Ha. apply (Out b2); auto. intros b3 E3. rewrite Ea in E3. injection E3 as <-. auto. }
    assert (K : booked m1 (match e with EFull b p | ELag b p => set_at x b (Some {| co_pm := pm (cs_st st b); co_vm := vm (cs_st st b); co_pos := p_pos p |}) | _ => x end)).
    { destruct e as [b p|b p|b dt|s|]; cbn [event_ok] in He1.
      - destruct He1 as (Hb & _). apply Mt; auto.
      - destruct He1 as (Hb & _). apply Mt; auto.
      - apply (keep_all m); [|exact Hbk]. intros b' r a Hb' Ha. destruct (Nat.eq_dec b' b) as [-> |Hne].
        + cbn [event_segs] in R1. inversion R1 as [| |? ? ? M1 ? R2 R3]; subst. inversion R3; subst. unfold at_place. cbn [fst snd].
          assert (Haa : NoDup (all_arrays (a_arrays (actors b)))) by (pose proof (ids_one b He1) as H; now apply nodup_app_l in H).
          pose proof (tr_node _ _ _ _ _ _ _ _ _ _ _ _ Ht b He1) as [Hi _].
          destruct (advance_ok add mul n nc (a_master (actors b)) (a_arrays (actors b)) (v_count (a_body (actors b))) Haa (ss b) dt (by_rank m) _ _ Hi) as (M2 & R4 & _ & E4).
          rewrite (runs_to_det _ _ _ _ _ R2 R4). rewrite E4; [reflexivity|]. pose proof (arr_neq _ Haa) as Hneq. clear -Ha Hneq. cbn [In] in Ha. destruct Ha as [<-|[<-|[<-|[]]]]; tauto.
        + apply (Out b'); auto; [intros b2 [= <-]; auto|]. apply arrs_ids. unfold all_arrays. cbn [app In] in *. tauto.
      - apply (keep_all m); [|exact Hbk]. intros b' r a Hb' Ha. apply (Out b'); auto; [discriminate|]. apply arrs_ids. unfold all_arrays. cbn [app In] in *. tauto.
      - apply (keep_all m); [|exact Hbk]. intros b' r a Hb' Ha. apply (Out b'); auto; [discriminate|]. apply arrs_ids. unfold all_arrays. cbn [app In] in *. tauto. }
    destruct (IH _ _ _ _ _ T1 O1 Q1 Hg2 He2 Hf2 K) as (m2 & R2 & T2 & O2 & B2). exists m2. split; [exact (segs_app _ _ _ _ _ _ R1 R2)|]. auto.
Qed.
Theorem coupled_run es : forall fr ss m st, tracks ss m st -> off_edge st -> (fr = true -> fresh m (cs_u st)) -> ghosts_ok actors fr es -> Forall (event_ok dims loc nb actors dx shift flow_ok) es -> all_fit ss es ->
  exists m', segs_end n (csegs ss es) m m' /\ (forall m'', segs_end n (csegs ss es) m m'' -> m'' = m') /\
    tracks (final_maps dims ss es) m' (serial_coupled add sub mul z scale sum dx shift vels flow_step bodies carry st es).
Proof.
  intros fr ss m st Ht Ho Hfr Hgh He Hfit. assert (X : exists m', segs_end n (csegs ss es) m m' /\ tracks (final_maps dims ss es) m' (serial_coupled add sub mul z scale sum dx shift vels flow_step bodies carry st es)).
  { revert fr ss m st Ht Ho Hfr Hgh He Hfit. induction es as [|e es IH]; intros fr ss m st Ht Ho Hfr Hgh He Hfit.
    - exists m. split; [constructor|exact Ht].
    - destruct Hfit as [Hf1 Hf2]. destruct Hgh as [Hg1 Hg2]. inversion He as [|? ? He1 He2]; subst. destruct (event_step ss m st e fr Ht Ho Hfr He1 Hf1 Hg1) as (m1 & R1 & T1 & O1 & Q1).
      destruct (IH _ _ _ _ T1 O1 Q1 Hg2 He2 Hf2) as (m2 & R2 & T2). exists m2. split; [exact (segs_app _ _ _ _ _ _ R1 R2)|exact T2]. }
  destruct X as (m' & R & Tm). exists m'. split; [exact R|]. split; [|exact Tm]. intros m'' R''. exact (segs_det _ _ _ _ _ R'' R).
Qed.
End G.
