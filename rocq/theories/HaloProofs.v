(** The common shape of the stencil kernels, for any number of axes. *)
From Verif Require Import Base SpecGrid SpecGhost SpecStencil Cart CartFacts Comm Spmd GhostGeo Ghost2D Ghost3D GhostProofs Stencil StencilProofs.
Arguments run_lops : simpl never.
Arguments addr_eq : simpl never.
Arguments place_dec : simpl never.

(** ** Stars *)
Lemma axis_vec_len n k c : length (axis_vec n k c) = n.
Proof. revert k. induction n; intros [|k]; simpl; auto. now rewrite repeat_length. Qed.
Lemma star_len n ks d : star n ks d -> length d = n.
Proof. intros (k & c & _ & _ & ->). apply axis_vec_len. Qed.

Lemma vadd_zeros (I : list Z) n : length I = n -> vadd I (repeat 0 n) = I.
Proof. apply vadd_zero. Qed.

Lemma inner_ghost_axes g loc I : inner g loc I -> ghost_axes g loc I = 0%nat.
Proof.
  unfold inner. revert I. induction loc as [|n loc IH]; intros I H; inversion H; subst; simpl; auto.
  rewrite IH by auto. destruct (Z.ltb_spec c g); [lia|]. destruct (Z.leb_spec (g + n) c); [lia|]. reflexivity.
Qed.

(** Shifting an inner cell along one axis by at most ks <= g. *)
Lemma star_cell g loc ks I d : 0 <= ks <= g -> inner g loc I -> star (length loc) ks d ->
  inb (ghosted g loc) (vadd I d) /\ (ghost_axes g loc (vadd I d) <= 1)%nat.
Proof.
  intros Hk HI (k & c & Hkn & Hc & ->). revert k Hkn I HI.
  induction loc as [|n loc IH]; intros k Hkn I HI; simpl in *; [lia|].
  unfold inner in HI. inversion HI as [|? ? ? ? i Is Hi HIs]; subst. fold (inner g loc Is) in HIs.
  assert (Hlen : length Is = length loc) by (apply in_box_length in HIs; tauto).
  destruct k as [|k]; simpl.
  - rewrite vadd_zeros by auto. split.
    + constructor; [lia|]. apply (inner_inb g loc); auto. lia.
    + rewrite inner_ghost_axes by auto. destruct (_ || _); lia.
  - destruct (IH k ltac:(lia) Is HIs) as [H1 H2]. split.
    + constructor; [lia|auto].
    + destruct (Z.ltb_spec (i + 0) g); [lia|]. destruct (Z.leb_spec (g + n) (i + 0)); [lia|]. simpl. exact H2.
Qed.

(** Cells at distance >= ks from the sides of the inner block: the star stays inside. *)
Lemma deep_star g loc ks I d : 0 <= ks -> in_box (map (fun _ => g + ks) loc) (map (fun n => n - 2 * ks) loc) I -> star (length loc) ks d ->
  inner g loc (vadd I d).
Proof.
  intros Hk HI (k & c & Hkn & Hc & ->). revert k Hkn I HI.
  induction loc as [|n loc IH]; intros k Hkn I HI; simpl in *; [lia|].
  inversion HI as [|? ? ? ? i Is Hi HIs]; subst.
  assert (Hlen : length Is = length loc) by (apply in_box_length in HIs as [-> _]; now rewrite map_length).
  destruct k as [|k]; simpl.
  - rewrite vadd_zeros by auto. constructor; [lia|].
    clear - HIs Hk. revert Is HIs. induction loc as [|n' loc IH]; intros Is H; simpl in *; inversion H; subst; constructor; auto; lia.
  - constructor; [lia|]. apply (IH k); auto. lia.
Qed.

Lemma deep_inner g loc ks I : 0 <= ks -> in_box (map (fun _ => g + ks) loc) (map (fun n => n - 2 * ks) loc) I -> inner g loc I.
Proof.
  intros Hk. unfold inner. revert I. induction loc as [|n loc IH]; intros I H; simpl in *; inversion H; subst; constructor; auto; lia.
Qed.

Lemma interior_deep g loc ks I : positive loc -> 1 <= g -> 0 <= ks -> view_in ks (ghosted g loc) (map (fun _ => IN g) loc) I = true ->
  in_box (map (fun _ => g + ks) loc) (map (fun n => n - 2 * ks) loc) I.
Proof.
  intros Hp Hg Hk. revert I. induction Hp as [|n loc Hn Hp IH]; intros [|i I] H; simpl in *; try discriminate; [constructor|].
  apply andb_true_iff in H as [H1 H2]. constructor; [|now apply IH].
  unfold slice_in, IN in H1. simpl in H1. rewrite andb_true_iff, Z.leb_le, Z.ltb_lt in H1. unfold py_start in H1.
  revert H1. cmp; intros; lia.
Qed.

(** ** Values read *)
Section Read.
Context {T : Type}.

Lemma refreshed_global per dims loc g F (m : mem T) u r f J q : grid_ok dims loc -> represents dims loc g F m u -> In f F ->
  length J = length loc ->
  wrapv per (global_size dims loc) (ghost_pos dims loc g r J) = Some q ->
  refreshed m per dims loc g r f J = u f q.
Proof.
  intros [Hl Hd Hn] Hrep Hf HJ Hq. unfold refreshed, owner. rewrite Hq.
  assert (Hgp : positive (global_size dims loc)).
  { unfold global_size, positive. clear - Hl Hd Hn. revert loc Hl Hn. induction Hd; intros [|n loc] Hl Hn; simpl in *; try discriminate; constructor.
    - inversion Hn; subst. nia. - inversion Hn; subst. apply IHHd; auto. }
  assert (Hqi : inb (global_size dims loc) q).
  { eapply wrapv_inb; [exact Hgp| |exact Hq]. unfold ghost_pos, block_start, global_size.
    rewrite !vadd_length; rewrite ?vmul_length; rewrite ?unravel_length, ?map_length; lia. }
  destruct (vdivmod_inb dims loc q) as [Q1 Q2]; auto.
  rewrite (Hrep (ravel dims (vdiv q loc)) f (vmod q loc)); auto.
  - f_equal. unfold block_start. rewrite unravel_ravel by auto. apply vdivmod_eq; auto.
    apply inb_length in Hqi. rewrite Hqi. unfold global_size. rewrite vmul_length; lia.
  - now apply ravel_bound.
Qed.

Lemma ghost_pos_shift dims loc g r x d : length x = length loc -> length d = length loc -> length loc = length dims ->
  ghost_pos dims loc g r (vadd (map (fun i => i + g) x) d) = vadd (vadd (block_start dims loc r) x) d.
Proof.
  intros Hx Hd Hl. unfold ghost_pos.
  assert (Hb : length (block_start dims loc r) = length loc).
  { unfold block_start. rewrite vmul_length; rewrite unravel_length; lia. }
  revert Hb. generalize (block_start dims loc r). intros b Hb. clear Hl. revert x d b Hx Hd Hb.
  induction loc as [|n loc IH]; intros [|a x] [|e d] [|c b] Hx Hd Hb; simpl in *; try discriminate; auto.
  f_equal; [lia|]. apply IH; lia.
Qed.
End Read.

(** ** The kernel program *)
Section Halo.
Context {T : Type}.
Variables (per : bool) (dims loc : list Z) (g ks : Z) (F : list nat) (C : list (place * place)) (k : @kern T).
Variables (strips : list (list pslice)) (zv : Z -> list (list pslice)) (z : T).
Notation sizes := (ghosted g loc).
Notation n := (zprod dims).
Notation iview := (map (fun _ => IN g) loc).

Definition halo : list (@phase T) :=
  [ PExch C (fun _ => kernel_lops sizes ks k iview);
    PLoc (fun r => flat_map (kernel_lops sizes ks k) strips ++ flat_map (set_lops sizes (map fst k) z) (zv r)) ].

Hypothesis Hok : grid_ok dims loc.
Hypothesis Hks : 0 <= ks <= g.
Hypothesis Hg : 1 <= g.
Hypothesis HC : exch_facts per dims loc g F C.
Hypothesis Hnd : NoDup (map fst k).
Hypothesis Hdis : forall f, In f F -> ~ In f (map fst k).
Hypothesis Hloc : forall o K, In (o, K) k -> star_local (length loc) F ks K.
Hypothesis Hstrips : Forall (fun v => length v = length sizes) strips.
Hypothesis Hzv : forall r, Forall (fun v => length v = length sizes) (zv r).

Let Hweak : forall o K, In (o, K) k -> forall rd rd' old, (forall f d, In f F -> rd f d = rd' f d) -> K rd old = K rd' old.
Proof. intros o K Hin rd rd' old H. apply (Hloc o K Hin). auto. Qed.

Lemma sizes_pos : Forall (fun x => 0 <= x) sizes.
Proof. destruct Hok as [_ _ H]. unfold ghosted. apply Forall_map. eapply Forall_impl; [|exact H]. simpl. lia. Qed.

Lemma iview_len : length iview = length sizes.
Proof. unfold ghosted. now rewrite !map_length. Qed.

Lemma halo_ok : Forall (phase_ok n) halo.
Proof.
  constructor; [|constructor; [exact I|constructor]]. simpl.
  split; [apply (ef_nrw _ _ _ _ _ _ HC)|]. split; [apply (ef_ss _ _ _ _ _ _ HC)|]. split; [apply (ef_rng _ _ _ _ _ _ HC)|].
  intros r Hr. apply Forall_forall. intros u Hu.
  unfold kernel_lops in Hu. apply in_flat_map in Hu as (J & HJ & Hu). apply in_map_iff in Hu as ([o K] & <- & Ho).
  apply kernel_cells_In in HJ; [|apply iview_len]. apply interior_deep in HJ; [|destruct Hok; auto|lia|lia].
  assert (Hout : In o (map fst k)) by (apply in_map_iff; exists (o, K); auto).
  split; simpl.
  - intros [s d] Hin. simpl. split.
    + destruct (ef_src _ _ _ _ _ _ HC _ _ Hin) as (f & I' & Hf & _ & E). intros ->. simpl in E. inversion E; subst. now apply (Hdis f).
    + destruct (ef_dst _ _ _ _ _ _ HC _ _ Hin) as (f & I' & Hf & _ & _ & E). intros ->. simpl in E. inversion E; subst. now apply (Hdis f).
  - intros m m' Hmm. rewrite Hmm.
    2:{ intros s Hin. destruct (ef_dst _ _ _ _ _ _ HC _ _ Hin) as (f & I' & Hf & _ & _ & E). simpl in E. inversion E; subst. now apply (Hdis f). }
    apply (Hloc o K Ho). intros f d Hf Hd. apply Hmm. intros s Hin.
    pose proof (deep_star g loc ks J d ltac:(lia) HJ Hd) as Hinn.
    destruct (ef_dst _ _ _ _ _ _ HC _ _ Hin) as (f' & I' & Hf' & HI' & Hni & E). simpl in E. inversion E as [[E1 E2]].
    apply ravel_inj in E2; auto; [subst; contradiction|]. apply inner_inb; auto. lia.
Qed.

Definition passes (I : list Z) : nat :=
  (b2n (view_in ks sizes iview I) + fold_right (fun v c => b2n (view_in ks sizes v I) + c) 0 strips)%nat.
Definition zeroed (r : Z) (I : list Z) : bool := existsb (fun v => view_in 0 sizes v I) (zv r).

Lemma count_strips I : count_occ ldec (flat_map (kernel_cells ks sizes) strips) I =
  fold_right (fun v c => (b2n (view_in ks sizes v I) + c)%nat) 0%nat strips.
Proof.
  induction Hstrips as [|v V Hv HV IH]; simpl; auto. rewrite count_app, IH, count_view; auto.
Qed.

Lemma zero_cells_In r I : In I (flat_map (view_cells sizes) (zv r)) <-> zeroed r I = true.
Proof.
  unfold zeroed. rewrite in_flat_map, existsb_exists. pose proof (Hzv r) as H. rewrite Forall_forall in H.
  split; intros (v & Hv & HI); exists v; split; auto; specialize (H v Hv).
  - rewrite view_cells_kernel in HI. now apply kernel_cells_In in HI.
  - rewrite view_cells_kernel. now apply kernel_cells_In.
Qed.

(** The memory after the kernel. *)
Definition halo_post (m : mem T) : mem T := den n halo m.

Lemma in_rk r : 0 <= r < n -> (0 <=? r) && (r <? n) = true.
Proof. intros. apply andb_true_iff. rewrite Z.leb_le, Z.ltb_lt. lia. Qed.

Lemma halo_run (m : mem T) r a : 0 <= r < n ->
  halo_post m (r, a) =
  run_lops (flat_map (set_cell sizes (map fst k) z) (flat_map (view_cells sizes) (zv r)))
   (run_lops (flat_map (cell_lops sizes k) (kernel_cells ks sizes iview ++ flat_map (kernel_cells ks sizes) strips))
     (fun a => run_copies C m (r, a))) a.
Proof.
  intros Hr. unfold halo_post, halo, den. simpl. unfold den_loc. simpl. rewrite in_rk by auto.
  rewrite run_lops_app, set_lops_views, kernel_lops_views, flat_map_app, run_lops_app, kernel_lops_cells. reflexivity.
Qed.

Lemma halo_value (m : mem T) r I o K : 0 <= r < n -> inb sizes I -> In (o, K) k ->
  field (halo_post m) sizes r o I =
  if zeroed r I then z
  else Nat.iter (passes I) (K (fun f d => field (run_copies C m) sizes r f (vadd I d))) (field m sizes r o I).
Proof.
  intros Hr HI Hin. unfold field at 1. rewrite halo_run by auto.
  assert (Ho : In o (map fst k)) by (apply in_map_iff; exists (o, K); auto).
  assert (HCi : forall v J, length v = length sizes -> In J (kernel_cells ks sizes v) -> inb sizes J).
  { intros v J Hv HJ. apply kernel_cells_In in HJ; auto. eapply view_in_inb; [|apply sizes_pos|exact HJ]. lia. }
  rewrite run_sets; auto.
  2:{ intros J HJ. apply zero_cells_In in HJ. unfold zeroed in HJ. apply existsb_exists in HJ as (v & Hv & HJ).
      eapply view_in_inb; [|apply sizes_pos|exact HJ]. lia. }
  assert (E : (if in_dec ldec I (flat_map (view_cells sizes) (zv r)) then true else false) = zeroed r I).
  { destruct (in_dec _ _ _) as [H|H].
    - symmetry. now apply zero_cells_In.
    - destruct (zeroed r I) eqn:Ez; auto. exfalso. apply H. now apply zero_cells_In. }
  destruct (in_dec _ _ _); rewrite <- E; auto.
  rewrite (run_cells sizes k Hnd F Hdis Hweak) with (K := K); auto.
  2:{ intros J HJ. apply in_app_iff in HJ as [HJ|HJ]; [apply (HCi iview); auto; apply iview_len|].
      apply in_flat_map in HJ as (v & Hv & HJ). apply (HCi v); auto. rewrite Forall_forall in Hstrips. auto. }
  rewrite count_app, count_strips, count_view by apply iview_len. fold (passes I).
  assert (Em : run_copies C m (r, (o, ravel sizes I)) = m (r, (o, ravel sizes I))).
  2:{ apply (f_equal (Nat.iter (passes I) (K (reader sizes (fun a => run_copies C m (r, a)) I)))). exact Em. }
  apply run_copies_frame. intros s Hs.
  destruct (ef_dst _ _ _ _ _ _ HC _ _ Hs) as (f & I' & Hf & _ & _ & E'). simpl in E'. inversion E'; subst. now apply (Hdis f).
Qed.

Lemma halo_frame (m : mem T) r f a : 0 <= r < n -> ~ In f (map fst k) -> halo_post m (r, (f, a)) = run_copies C m (r, (f, a)).
Proof.
  intros Hr Hf. rewrite halo_run by auto. rewrite run_sets_frame by auto. now rewrite run_cells_frame by auto.
Qed.

Lemma copies_frame (m : mem T) r f a : ~ In f F -> run_copies C m (r, (f, a)) = m (r, (f, a)).
Proof.
  intros Hf. apply run_copies_frame. intros s Hs.
  destruct (ef_dst _ _ _ _ _ _ HC _ _ Hs) as (f' & I' & Hf' & _ & _ & E'). simpl in E'. inversion E'; subst. contradiction.
Qed.
Lemma copies_inner (m : mem T) r f I : inner g loc I -> run_copies C m (r, (f, ravel sizes I)) = m (r, (f, ravel sizes I)).
Proof.
  intros Hf. apply run_copies_frame. intros s Hs.
  destruct (ef_dst _ _ _ _ _ _ HC _ _ Hs) as (f' & I' & Hf' & HI' & Hn & E'). simpl in E'. inversion E' as [[E1 E2]].
  apply ravel_inj in E2; auto; [subst; contradiction|]. apply inner_inb; auto. lia.
Qed.

(** Reading the star of an inner cell after the exchange. *)
Lemma read_star (m : mem T) r f I d : 0 <= r < n -> inner g loc I -> In f F -> star (length loc) ks d ->
  field (run_copies C m) sizes r f (vadd I d) = refreshed m per dims loc g r f (vadd I d).
Proof.
  intros Hr HI Hf Hd. destruct (star_cell g loc ks I d Hks HI Hd). apply (ef_ref _ _ _ _ _ _ HC); auto.
Qed.

Lemma read_global (m : mem T) u r x K o old rd : 0 <= r < n -> inb loc x -> represents dims loc g F m u -> In (o, K) k ->
  reads_global per (global_size dims loc) u F ks (vadd (block_start dims loc r) x) rd ->
  K (fun f d => field (run_copies C m) sizes r f (vadd (map (fun i => i + g) x) d)) old = K rd old.
Proof.
  intros Hr Hx Hrep Hin Hrd. apply (Hloc o K Hin). intros f d Hf Hd.
  assert (HI : inner g loc (map (fun i => i + g) x)).
  { clear - Hx. unfold inner. induction Hx; simpl; constructor; auto; lia. }
  rewrite read_star by auto.
  assert (Hgl : length (global_size dims loc) = length loc).
  { destruct Hok as [H _ _]. unfold global_size. rewrite vmul_length; lia. }
  destruct (Hrd f d Hf) as (q & Hq & ->); [now rewrite Hgl|].
  pose proof (star_len _ _ _ Hd) as Hdl. pose proof (inb_length _ _ Hx).
  apply (refreshed_global per dims loc g F m u); auto.
  - rewrite vadd_length; rewrite ?map_length; lia.
  - rewrite ghost_pos_shift; auto. destruct Hok; auto.
Qed.
End Halo.
