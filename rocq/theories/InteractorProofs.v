(** Proofs about the construction of interactors (C55). *)
From Coq Require Import QArith.
From Verif Require Import Base SpecGrid SpecGhost SpecStencil SpecStep SpecLag SpecIB SpecVbf SpecBodies SpecCoupled SpecInteractor Comm Blocking Spmd Lagrangian Vbf Coupled SpecTracks Interactor GhostGeo.
From Verif Require LagProofs VbfProofs IoEulProofs CartFacts.
Open Scope Z_scope.

Lemma existsb_in f l : existsb (Nat.eqb f) l = true <-> In f l.
Proof. rewrite existsb_exists. split; [intros (x & H & E); apply Nat.eqb_eq in E; now subst|intros H; exists f; split; auto; apply Nat.eqb_refl]. Qed.

Section I.
Context {T : Type}.
Variables (mul : T -> T -> T) (pow : T -> Z -> T) (lt : T -> T -> bool) (two_dx half_dx : T).
Variables (dims loc : list Z) (dx shift : Q) (g : Z).
Notation init := (interactor_init mul pow lt two_dx half_dx dims loc dx shift g).
Hypothesis Hd : (0 < dx)%Q.
Hypothesis HG : grid_ok dims loc.

Lemma master_bcast (q : request T) : 0 <= g_master q < zprod dims ->
  bcast dims (fun r => get_maximum_lagrangian_grid_spacing (grid_of q r)) (g_master q) = Some (Some (g_spacing q)).
Proof.
  intros H. unfold bcast. assert (E : (0 <=? g_master q) && (g_master q <? zprod dims) = true) by (apply andb_true_iff; split; [apply Z.leb_le|apply Z.ltb_lt]; lia).
  rewrite E. unfold grid_of. now rewrite Z.eqb_refl.
Qed.
Lemma master_grid (q : request T) : position_field (grid_of q (g_master q)) = g_nodes q.
Proof. unfold grid_of. now rewrite Z.eqb_refl. Qed.

(** What is on a rank after a successful construction. *)
Lemma init_ready (q : request T) r x : 0 <= g_master q < zprod dims -> init q r = Ready x ->
  k_stiff x = v_stiff (body_of mul pow q) /\ k_damp x = v_damp (body_of mul pow q) /\ k_width x = width_of q /\ k_reset x = g_reset q /\ k_local x = g_local q /\ k_auto x = g_auto q /\
  k_log x = advised lt two_dx half_dx q /\ (g_dim q = 2 \/ g_dim q = 3) /\ width_of q <= g /\
  (if g_local q then k_num x = (if r =? g_master q then Z.of_nat (length (g_nodes q)) else 0) /\ k_total x = k_num x
   else map_nodes false dims loc dx shift (g_dim q) (g_nodes q) = Mapped (k_address x) /\ k_num x = node_count (k_address x) r /\ k_total x = Z.of_nat (length (k_address x))).
Proof.
  intros Hm. unfold interactor_init. rewrite (master_bcast q Hm). unfold vbf_init. rewrite master_grid.
  destruct (g_dim q =? 2) eqn:E2; [apply Z.eqb_eq in E2|destruct (g_dim q =? 3) eqn:E3; [apply Z.eqb_eq in E3|cbn; discriminate]]; cbn [negb andb];
  fold (width_of q); (destruct (g <? width_of q) eqn:Ew; [discriminate|apply Z.ltb_ge in Ew]);
  (destruct (g_local q) eqn:El;
   [intros E; injection E as <-; cbn; repeat split; auto; unfold grid_of; destruct (r =? g_master q); reflexivity
   |destruct (map_nodes _ _ _ _ _ _ _) as [a| |] eqn:Em; [|discriminate|destruct (r =? g_master q); discriminate]; intros E; injection E as <-; cbn; rewrite LagProofs.count_eq; repeat split; auto]).
Qed.
Lemma init_succeeds (q : request T) r : request_ok (zprod dims) (Z.of_nat (length dims)) g q -> Z.of_nat (length dims) = 2 \/ Z.of_nat (length dims) = 3 ->
  g_local q = true \/ Forall (in_domain dx shift dims loc) (g_nodes q) -> exists x, init q r = Ready x.
Proof.
  intros (Hm & Hdim & Hw) H23 Hn. unfold interactor_init. rewrite (master_bcast q Hm). unfold vbf_init. rewrite master_grid. fold (width_of q).
  assert (E1 : negb (g_dim q =? 2) && negb (g_dim q =? 3) = false) by (destruct H23 as [H | H]; rewrite Hdim, H; reflexivity).
  assert (E2 : (g <? width_of q) = false) by (apply Z.ltb_ge; lia). rewrite E1, E2. destruct (g_local q) eqn:El; [eauto|].
  destruct Hn as [Hn | Hn]; [discriminate|]. destruct (LagProofs.map_in_domain false dims loc dx shift Hd (g_nodes q) HG Hn) as (a & E & _). rewrite Hdim, E. eauto.
Qed.
Lemma init_value_error (q : request T) r : 0 <= g_master q < zprod dims -> (init q r = RaisesValueError <-> ((g_dim q <> 2 /\ g_dim q <> 3) \/ g < width_of q)).
Proof.
  intros Hm. unfold interactor_init. rewrite (master_bcast q Hm). unfold vbf_init. rewrite master_grid. fold (width_of q).
  destruct (g_dim q =? 2) eqn:E2; [apply Z.eqb_eq in E2|apply Z.eqb_neq in E2; destruct (g_dim q =? 3) eqn:E3; [apply Z.eqb_eq in E3|apply Z.eqb_neq in E3; cbn; split; auto]]; cbn [negb andb];
  (destruct (g <? width_of q) eqn:Ew; [apply Z.ltb_lt in Ew; split; auto|apply Z.ltb_ge in Ew]);
  (split; [|intros [[] | H]; lia]); (destruct (g_local q); [discriminate|destruct (map_nodes _ _ _ _ _ _ _); try discriminate; destruct (r =? g_master q); discriminate]).
Qed.
Lemma init_mpi_error (q : request T) r : init q r = RaisesMPIError <-> ~ 0 <= g_master q < zprod dims.
Proof.
  split.
  - intros E Hm. revert E. unfold interactor_init. rewrite (master_bcast q Hm). unfold vbf_init.
    destruct (_ && _); [discriminate|]. destruct (_ <? _); [discriminate|]. destruct (g_local q); [discriminate|]. destruct (map_nodes _ _ _ _ _ _ _); try discriminate; destruct (r =? g_master q); discriminate.
  - intros H. unfold interactor_init, bcast. assert (E : (0 <=? g_master q) && (g_master q <? zprod dims) = false) by (apply andb_false_iff; rewrite Z.leb_gt, Z.ltb_ge; lia). now rewrite E.
Qed.
(** Same outcome on all ranks, unless the master finds a node below the domain: then it raises and the others wait. *)
Lemma init_waits (q : request T) r : init q r = Waits -> r <> g_master q /\ init q (g_master q) = RaisesIndexError.
Proof.
  unfold interactor_init. destruct (bcast _ _ _) as [[h|]|]; try discriminate. unfold vbf_init.
  destruct (_ && _); [discriminate|]. destruct (_ <? _); [discriminate|]. destruct (g_local q); [discriminate|]. destruct (map_nodes _ _ _ _ _ _ _); try discriminate.
  rewrite Z.eqb_refl. destruct (r =? g_master q) eqn:E; [discriminate|]. apply Z.eqb_neq in E. auto.
Qed.
End I.

(** *** Memory at the start *)
Section M.
Context {T : Type}.
Variables (z : T) (dims loc : list Z) (g : Z) (Fs fs : list nat) (u0 : nat -> list Z -> T).
Hypothesis HG : grid_ok dims loc.
Hypothesis Hg : 0 <= g.
Hypothesis outside : forall f P, ~ inb (global_size dims loc) P -> u0 f P = z.
Notation start := (start_memory z dims loc g Fs fs u0).

Lemma inner_test gs (I : list Z) : inb (ghosted g gs) I -> forallb (fun il => (g <=? fst il) && (fst il <? g + snd il)) (combine I gs) = true <-> inner g gs I.
Proof.
  revert I. induction gs as [|l gs IH]; intros I H; inversion H; subst; cbn [combine forallb].
  - split; [intros _; constructor|auto].
  - rewrite andb_true_iff, (IH cs H4), andb_true_iff, Z.leb_le, Z.ltb_lt. cbn [fst snd]. unfold inner. cbn [map]. split.
    + intros [X1 X2]. constructor; auto.
    + intros X. inversion X; subst. auto.
Qed.
Lemma owner_none P : owner false dims loc P = None -> ~ inb (global_size dims loc) P.
Proof. unfold owner. intros H Hin. rewrite CartFacts.wrapv_in in H by auto. discriminate. Qed.

Lemma start_flow m : represents_ext false dims loc g Fs (start m) u0.
Proof.
  intros r f I Hr Hf HI Hc. unfold field, start_memory, start_value. cbn [fst snd]. rewrite (proj2 (existsb_in f Fs) Hf). cbv zeta. rewrite unravel_ravel by auto.
  destruct (forallb _ _) eqn:E; auto. destruct Hc as [Hc | [_ Hc]].
  - apply inner_test in Hc; auto. congruence.
  - symmetry. apply outside. now apply owner_none.
Qed.
Lemma start_forc m : (forall f, In f Fs -> ~ In f fs) -> forc z dims loc g fs (fun _ _ => z) (by_rank (start m)).
Proof.
  intros Hd. assert (G : forall f r k, In f fs -> start m (r, (f, k)) = z).
  { intros f r k Hf. unfold start_memory, start_value. cbn [fst snd]. destruct (existsb (Nat.eqb f) Fs) eqn:E; [apply existsb_in in E; destruct (Hd f E Hf)|]. now rewrite (proj2 (existsb_in f fs) Hf). }
  split; intros; apply G; auto. eapply nth_error_In; eauto.
Qed.

Variables (actors : nat -> actor T) (nb : nat).
Lemma zeroed_by m : forall l p, fold_left (fun m b => init_memory z (actors b) m) l m p =
  if existsb (fun b => existsb (Nat.eqb (fst (snd p))) (zeroed_arrays (a_arrays (actors b)) ++ a_bufs (actors b))) l then z else m p.
Proof.
  intros l. revert m. induction l as [|b l IH]; intros m p; [reflexivity|]. cbn [fold_left existsb]. rewrite IH. unfold init_memory, zero_arrays.
  destruct (existsb (Nat.eqb (fst (snd p))) (zeroed_arrays _ ++ _)); cbn [orb]; destruct (existsb _ l); reflexivity.
Qed.
Lemma init_zero m b f r k : (b < nb)%nat -> In f (zeroed_arrays (a_arrays (actors b)) ++ a_bufs (actors b)) -> init_memories z actors nb m (r, (f, k)) = z.
Proof.
  intros Hb Hf. unfold init_memories. rewrite zeroed_by. cbn [fst snd].
  assert (E : existsb (fun b => existsb (Nat.eqb f) (zeroed_arrays (a_arrays (actors b)) ++ a_bufs (actors b))) (seq 0 nb) = true).
  { apply existsb_exists. exists b. split; [apply in_seq; lia|now apply existsb_in]. } now rewrite E.
Qed.
Lemma init_same m f p : (forall b, (b < nb)%nat -> ~ In f (actor_ids (actors b))) -> fst (snd p) = f -> init_memories z actors nb m p = m p.
Proof.
  intros H E. subst f. unfold init_memories. rewrite zeroed_by.
  destruct (existsb _ (seq 0 nb)) eqn:X; auto. apply existsb_exists in X as (b & Hb & X). apply in_seq in Hb. apply existsb_in in X. destruct (H b ltac:(lia)).
  unfold actor_ids, all_arrays. apply in_app_iff in X as [X | X]; apply in_app_iff; [left|now right]. unfold zeroed_arrays in X. apply in_app_iff in X. apply in_app_iff. destruct X as [X | X]; [left|now right].
  cbn in *. tauto.
Qed.
End M.

(** *** Arrays of the interactors are new and distinct *)
Lemma actor_arrays_seq (T : Type) (a : actor T) i dim : a_arrays a = arrays_from i -> a_bufs a = bufs_from i dim -> forall f, In f (actor_ids a) <-> (i <= f < 11 + i + Z.to_nat dim)%nat.
Proof.
  intros E1 E2 f. unfold actor_ids. rewrite E1, E2. unfold bufs_from. rewrite in_app_iff, in_seq. cbn. lia.
Qed.
Lemma actor_ids_nodup (T : Type) (a : actor T) i dim : a_arrays a = arrays_from i -> a_bufs a = bufs_from i dim -> NoDup (actor_ids a).
Proof.
  intros E1 E2. unfold actor_ids. rewrite E1, E2. unfold bufs_from. apply IoEulProofs.NoDup_app_intro'.
  - unfold all_arrays, locals, arrays_from. cbn [gpm gvm gfo gpos gvel lpm lvm lfo lpos lvel lflow app]. repeat (apply NoDup_cons; [cbn [In]; lia|]). apply NoDup_nil.
  - apply seq_NoDup.
  - intros x Hx Hy. apply in_seq in Hy. cbn in Hx. lia.
Qed.

(** *** After construction the memory shows the start of the simulation *)
Section Start.
Context {T : Type}.
Variables (mul : T -> T -> T) (pow : T -> Z -> T) (lt : T -> T -> bool) (two_dx half_dx : T).
Variables (z : T) (dims loc : list Z) (dx shift : Q) (g : Z) (Fs fs W : list nat) (u0 : nat -> list Z -> T) (bufsz : list (list Z)).
Variables (qs : nat -> request T) (ord : nat -> list Z -> list Z) (nb base : nat) (xs : nat -> Z -> @made T).
Hypothesis Hd : (0 < dx)%Q.
Hypothesis HG : grid_ok dims loc.
Hypothesis Hg : 0 <= g.
Hypothesis Hdim : Z.of_nat (length dims) = 2 \/ Z.of_nat (length dims) = 3.
Hypothesis Hbz : length bufsz = length dims.
Hypothesis outside : forall f P, ~ inb (global_size dims loc) P -> u0 f P = z.
Hypothesis HW : NoDup W.
Hypothesis Hbase : forall f, In f W -> (f < base)%nat.
Hypothesis HFs : incl Fs W.
Hypothesis Hfs' : incl fs W.
Hypothesis Hdis : forall f, In f Fs -> ~ In f fs.
Hypothesis Hord : forall b a, (b < nb)%nat -> NoDup (ord b a) /\ forall s, In s (ord b a) <-> In s a /\ s <> g_master (qs b).
Hypothesis Hq : forall b, (b < nb)%nat -> request_ok (zprod dims) (Z.of_nat (length dims)) g (qs b).
Hypothesis Hn : forall b, (b < nb)%nat -> g_local (qs b) = true \/ Forall (in_domain dx shift dims loc) (g_nodes (qs b)).
Hypothesis Hx : forall b r, (b < nb)%nat -> 0 <= r < zprod dims -> interactor_init mul pow lt two_dx half_dx dims loc dx shift g (qs b) r = Ready (xs b r).
Definition the_actors (b : nat) : actor T := actor_made qs base b (xs b (g_master (qs b))).
Definition the_maps (b : nat) : vb := state_made qs ord b (xs b).

Lemma made_at b r : (b < nb)%nat -> 0 <= r < zprod dims -> 
  k_local (xs b r) = g_local (qs b) /\
  (if g_local (qs b) then k_num (xs b r) = (if r =? g_master (qs b) then Z.of_nat (length (g_nodes (qs b))) else 0) /\ k_total (xs b r) = k_num (xs b r)
   else map_nodes false dims loc dx shift (Z.of_nat (length dims)) (g_nodes (qs b)) = Mapped (k_address (xs b r)) /\ k_num (xs b r) = node_count (k_address (xs b r)) r /\ k_total (xs b r) = Z.of_nat (length (k_address (xs b r)))).
Proof.
  intros Hb Hr. destruct (Hq b Hb) as (Hm & Ed & Hw). destruct (init_ready mul pow lt two_dx half_dx dims loc dx shift g (qs b) r (xs b r) Hm (Hx b r Hb Hr)) as (_ & _ & _ & _ & E & _ & _ & _ & _ & H).
  rewrite Ed in H. auto.
Qed.
Lemma mapped_address b a : (b < nb)%nat -> g_local (qs b) = false -> map_nodes false dims loc dx shift (Z.of_nat (length dims)) (g_nodes (qs b)) = Mapped a ->
  length a = length (g_nodes (qs b)) /\ Forall (fun r => 0 <= r < zprod dims) a.
Proof.
  intros Hb El E. destruct (Hn b Hb) as [X | X]; [congruence|]. destruct (LagProofs.map_in_domain false dims loc dx shift Hd (g_nodes (qs b)) HG X) as (a' & E' & F).
  rewrite E' in E. injection E as ->. split; [symmetry; clear -F; induction F; cbn; congruence|]. clear -F. induction F; constructor; tauto.
Qed.
Lemma the_body b : (b < nb)%nat -> a_body (the_actors b) = body_of mul pow (qs b) /\ a_master (the_actors b) = g_master (qs b) /\ a_local (the_actors b) = g_local (qs b) /\ a_auto (the_actors b) = g_auto (qs b).
Proof.
  intros Hb. destruct (Hq b Hb) as (Hm & Ed & Hw). pose proof (init_ready mul pow lt two_dx half_dx dims loc dx shift g (qs b) _ _ Hm (Hx b _ Hb Hm)) as (E1 & E2 & E3 & E4 & E5 & E6 & _).
  destruct (made_at b (g_master (qs b)) Hb Hm) as [_ H].
  unfold the_actors, actor_made. cbn [a_body a_master a_local a_auto]. repeat split; auto. unfold body_of. rewrite E1, E2, E3, E4. cbn [body_of v_stiff v_damp]. f_equal.
  destruct (g_local (qs b)) eqn:El.
  - destruct H as [H1 H2]. rewrite H2, H1, Z.eqb_refl. reflexivity.
  - destruct H as (H1 & _ & H2). rewrite H2. f_equal. now apply mapped_address.
Qed.
Lemma nodes_of_repeat m k r : node_count (repeat m k) r = if r =? m then Z.of_nat k else 0.
Proof.
  rewrite <- LagProofs.count_eq. unfold local_num_lag_nodes. destruct (r =? m) eqn:E.
  - apply Z.eqb_eq in E. subst. f_equal. induction k as [|k IH]; cbn; auto. rewrite Z.eqb_refl. cbn. now f_equal.
  - apply Z.eqb_neq in E. induction k as [|k IH]; cbn; auto. destruct (m =? r) eqn:E'; [apply Z.eqb_eq in E'; congruence|auto].
Qed.
Lemma the_mapping b : (b < nb)%nat -> mapping_ok (zprod dims) (a_master (the_actors b)) (v_count (a_body (the_actors b))) (address (the_maps b)) (order (the_maps b)) /\
  (forall r, 0 <= r < zprod dims -> num (the_maps b) r = node_count (address (the_maps b)) r) /\
  (g_local (qs b) = true -> address (the_maps b) = repeat (g_master (qs b)) (Z.to_nat (v_count (a_body (the_actors b))))).
Proof.
  intros Hb. destruct (the_body b Hb) as (E1 & E2 & _). destruct (Hq b Hb) as (Hm & Ed & Hw). destruct (made_at b (g_master (qs b)) Hb Hm) as [_ H].
  rewrite E1, E2. cbn [body_of v_count]. unfold the_maps, state_made. cbv zeta. cbn [address order num]. destruct (g_local (qs b)) eqn:El.
  - destruct H as [H1 H2]. rewrite H2, H1, Z.eqb_refl. rewrite Nat2Z.id. split; [|split; auto].
    + split; [|split; [apply Hord; auto|now rewrite repeat_length]]. apply Forall_forall. intros r Hr. apply repeat_spec in Hr. now subst.
    + intros r Hr. destruct (made_at b r Hb Hr) as [_ H]. rewrite El in H. destruct H as [-> _]. now rewrite nodes_of_repeat.
  - destruct H as (H1 & _ & H2). destruct (mapped_address b _ Hb El H1) as [L F]. split; [|split; [|discriminate]].
    + split; [auto|split; [apply Hord; auto|now rewrite L]].
    + intros r Hr. destruct (made_at b r Hb Hr) as [_ H]. rewrite El in H. destruct H as (H3 & H4 & _). rewrite H3 in H1. injection H1 as EA. rewrite <- EA. exact H4.
Qed.
Lemma the_ids b f : (b < nb)%nat -> In f (actor_ids (the_actors b)) -> (first_array base b <= f < first_array base (S b))%nat.
Proof.
  intros Hb Hf. destruct (Hq b Hb) as (_ & Ed & _). apply (actor_arrays_seq T (the_actors b) (first_array base b) (g_dim (qs b)) eq_refl eq_refl) in Hf. unfold first_array in *. lia.
Qed.
Theorem cold_actors : actors_ok dims g nb the_actors W.
Proof.
  split.
  - apply IoEulProofs.NoDup_app_intro'; auto.
    + assert (G : forall k n, (k + n <= nb)%nat -> NoDup (flat_map (fun b => actor_ids (the_actors b)) (seq k n)) /\ forall f, In f (flat_map (fun b => actor_ids (the_actors b)) (seq k n)) -> (first_array base k <= f)%nat).
      { intros k n. revert k. induction n as [|n IH]; intros k Hk; cbn [seq flat_map]; [split; [constructor|intros f []]|].
        destruct (IH (S k) ltac:(lia)) as [N1 N2]. split.
        - apply IoEulProofs.NoDup_app_intro'; auto; [eapply actor_ids_nodup; reflexivity|]. intros f H1 H2. apply the_ids in H1; [|lia]. apply N2 in H2. lia.
        - intros f Hf. apply in_app_iff in Hf as [Hf | Hf]; [apply the_ids in Hf; lia|]. apply N2 in Hf. unfold first_array in *. lia. }
      apply (G 0%nat nb). lia.
    + intros f H1 H2. apply Hbase in H1. apply in_flat_map in H2 as (b & Hb & H2). apply in_seq in Hb. apply the_ids in H2; [|lia]. unfold first_array in H2. lia.
  - intros b Hb. destruct (the_body b Hb) as (E1 & E2 & _). rewrite E1, E2. destruct (Hq b Hb) as (Hm & _ & Hw). auto.
Qed.
Theorem cold_tracks m : tracks z dims loc g Fs fs nb the_actors bufsz the_maps (init_memories z the_actors nb (start_memory z dims loc g Fs fs u0 m)) (cold_start z u0 (fun b => address (the_maps b))).
Proof.
  assert (Old : forall f, In f W -> forall b, (b < nb)%nat -> ~ In f (actor_ids (the_actors b))).
  { intros f Hf b Hb Hi. apply Hbase in Hf. apply the_ids in Hi; auto. unfold first_array in Hi. lia. }
  assert (New : forall b, (b < nb)%nat -> forall f, In f (zeroed_arrays (a_arrays (the_actors b)) ++ a_bufs (the_actors b)) -> forall r k, init_memories z the_actors nb (start_memory z dims loc g Fs fs u0 m) (r, (f, k)) = z)
    by (intros; eapply init_zero; eauto).
  assert (Same : forall f r k, In f W -> init_memories z the_actors nb (start_memory z dims loc g Fs fs u0 m) (r, (f, k)) = start_memory z dims loc g Fs fs u0 m (r, (f, k)))
    by (intros f r k Hf; apply (init_same z the_actors nb _ f); [apply Old; auto|reflexivity]).
  split; cbn [cs_u cs_f cs_map cs_st cold_start].
  - intros r f I Hr Hf HI Hc. unfold field. rewrite Same by exact (HFs f Hf). exact (start_flow z dims loc g Fs fs u0 outside m r f I Hr Hf HI Hc).
  - destruct (start_forc z dims loc g Fs fs u0 m Hdis) as [F1 F2]. split.
    + intros c f r I Hc Hf Hr HI. unfold by_rank. rewrite Same by exact (Hfs' f (nth_error_In _ _ Hf)). exact (F1 c f r I Hc Hf Hr HI).
    + intros f r I Hf Hr HI HnI. unfold by_rank. rewrite Same by exact (Hfs' f Hf). exact (F2 f r I Hf Hr HI HnI).
  - intros b Hb. destruct (the_mapping b Hb) as (M1 & M2 & _). split.
    + split; [exact M1|]. split; [exact M2|]. split; intros r c i j _ _ _; unfold by_rank, lag_local; apply (New b Hb); apply in_app_iff; left; unfold zeroed_arrays; cbn; tauto.
    + intros c j _ _. unfold by_rank. apply (New b Hb). apply in_app_iff; left; unfold zeroed_arrays; cbn; tauto.
  - reflexivity.
  - intros b Hb. destruct (Hq b Hb) as (_ & Ed & _).
    assert (L : length (a_bufs (the_actors b)) = length bufsz) by (cbn [the_actors actor_made a_bufs]; unfold bufs_from; rewrite seq_length, Ed; lia).
    assert (N : forall f, In f (a_bufs (the_actors b)) -> forall r k, init_memories z the_actors nb (start_memory z dims loc g Fs fs u0 m) (r, (f, k)) = z) by (intros f Hf; apply (New b Hb); apply in_app_iff; auto).
    clear -L N. revert L N. generalize (a_bufs (the_actors b)) as l. generalize bufsz as bz. induction bz as [|s bz IH]; intros [|f l] L N; try discriminate; constructor.
    + intros r K _ _. unfold by_rank. apply N. now left.
    + apply IH; [now injection L|]. intros f' Hf'. apply N. now right.
  - intros b Hb El. destruct (the_mapping b Hb) as (_ & _ & M). destruct (the_body b Hb) as (E1 & E2 & E3 & _). rewrite E3 in El. rewrite E2. now apply M.
Qed.
End Start.
