(** Proofs about gather/scatter of Eulerian fields. *)
From Coq Require Import FunctionalExtensionality.
From Verif Require Import Base SpecGrid Cart CartFacts Comm Ghost3D GhostGeo Blocking SpecBlocking BlockFacts FieldComm SpecFields.

Lemma map_const_zero (loc c : list Z) : length c = length loc -> vadd c (map (fun _ => 0) loc) = c.
Proof. revert c. induction loc; intros [|x c]; simpl; intros; try discriminate; auto. f_equal; [lia|]. apply IHloc. lia. Qed.

Lemma vadd_comm a b : length a = length b -> vadd a b = vadd b a.
Proof. revert b. induction a; intros [|y b]; simpl; intros; try discriminate; auto. f_equal; [lia|]. apply IHa. lia. Qed.

Lemma vadd_zeros_l (loc d : list Z) : length d = length loc -> vadd (map (fun _ => 0) loc) d = d.
Proof. intros. rewrite vadd_comm by (rewrite map_length; auto). now apply map_const_zero. Qed.

Lemma vadd_const (g : Z) (loc c : list Z) : length c = length loc -> vadd c (map (fun _ => g) loc) = map (fun i => i + g) c.
Proof. revert c. induction loc; intros [|x c]; simpl; intros; try discriminate; auto. f_equal. apply IHloc. lia. Qed.

Lemma inb_box0 loc x : inb loc x <-> in_box (map (fun _ => 0) loc) loc x.
Proof.
  split.
  - induction 1; simpl; constructor; [lia|assumption].
  - revert x. induction loc; simpl; intros x H; inversion H; subst; constructor; [lia|apply IHloc; assumption].
Qed.

Lemma inb_box_In loc x : In x (box (map (fun _ => 0) loc) loc) <-> inb loc x.
Proof. rewrite box_In by now rewrite map_length. symmetry. apply inb_box0. Qed.

Lemma add_g_inner (loc : list Z) g x : inb loc x -> inner g loc (map (fun i => i + g) x).
Proof.
  unfold inner. induction 1; simpl; constructor; auto. lia.
Qed.

Lemma sub_g_inb (loc : list Z) g I : inner g loc I -> inb loc (map (fun i => i - g) I).
Proof.
  unfold inner. revert I. induction loc; intros I H; inversion H; subst; simpl; constructor; auto. lia.
Qed.

Lemma map_add_inj g x y : map (fun i => i + g) x = map (fun i => i + g) y -> x = y.
Proof.
  revert y. induction x; intros [|b y] E; simpl in *; try discriminate; auto. injection E as E1 E2.
  f_equal; [lia|auto].
Qed.

Lemma bsteps_eq_l {T} ea (c x d : @config T) : c = x -> bsteps ea x d -> bsteps ea c d.
Proof. now intros ->. Qed.

Section P.
Context {T : Type}.
Variables (dims loc : list Z) (g : Z) (master : Z) (order : list Z).
Hypothesis Hok : grid_ok dims loc.
Hypothesis Hg : 0 <= g.
Hypothesis Hm : 0 <= master < zprod dims.
Hypothesis Hord : slave_order dims master order.

Notation n := (zprod dims).
Notation B := (box (map (fun _ => 0) loc) loc).
Notation gcell r x := (ravel (global_size dims loc) (vadd x (block_start dims loc r))).
Notation lcell x := (ravel (ghosted g loc) (map (fun i => i + g) x)).

Let Hlen : length loc = length dims. Proof. now destruct Hok. Qed.

Lemma bs_len r : length (block_start dims loc r) = length loc.
Proof. unfold block_start. rewrite vmul_length; rewrite unravel_length; auto. Qed.
Lemma B_len x : In x B -> length x = length loc.
Proof. rewrite inb_box_In. apply inb_length. Qed.
Lemma glob_len : length (vmul dims loc) = length loc.
Proof. rewrite vmul_length; auto. Qed.

Lemma chunk_eq (gid : nat) r : map (fun c => (gid, ravel (fc_global dims loc) c)) (box (vmul (cart_coords dims r) loc) loc)
  = map (fun x => (gid, gcell r x)) B.
Proof.
  change (vmul (cart_coords dims r) loc) with (block_start dims loc r).
  rewrite <- (vadd_zeros_l loc (block_start dims loc r)) at 1 by apply bs_len.
  rewrite box_shift by (rewrite ?map_length, ?bs_len; auto). rewrite map_map. reflexivity.
Qed.

Lemma master_buf_eq (gid : nat) r : master_buf dims loc gid r = map (fun x => (gid, gcell r x)) B.
Proof.
  unfold master_buf, master_type, mpi_subarray. rewrite map_map. apply map_ext_in. intros x Hx.
  f_equal. unfold fc_global, global_size, cart_coords. fold (block_start dims loc r).
  rewrite ravel_add; [lia| |]; rewrite glob_len; [now apply B_len|apply bs_len].
Qed.

Lemma inner_eq (lid : nat) : inner_cells loc g lid = map (fun x => (lid, lcell x)) B.
Proof.
  unfold inner_cells. rewrite <- (vadd_zeros_l loc (map (fun _ => g) loc)) at 1 by (now rewrite map_length).
  rewrite box_shift by (rewrite ?map_length; auto). rewrite map_map. apply map_ext_in. intros x Hx.
  unfold fc_local, ghosted. rewrite vadd_const; auto. now apply B_len.
Qed.

Lemma slave_buf_eq (lid : nat) : slave_buf loc g lid = map (fun x => (lid, lcell x)) B.
Proof. rewrite <- inner_eq. unfold slave_buf, slave_type, mpi_subarray, inner_cells. rewrite map_map. reflexivity. Qed.

Lemma lcell_inb x : inb loc x -> inb (ghosted g loc) (map (fun i => i + g) x).
Proof. intros. apply inner_inb; auto. now apply add_g_inner. Qed.


Lemma lcell_NoDup (lid : nat) : NoDup (map (fun x => (lid, lcell x)) B).
Proof.
  assert (G : forall L, NoDup L -> (forall x, In x L -> inb loc x) -> NoDup (map (fun x => (lid, lcell x)) L)).
  { induction L as [|x L IH]; simpl; intros Hn Hi; constructor; inversion Hn; subst; auto.
    intros H. apply in_map_iff in H as (y & E & Hy). injection E as E.
    apply ravel_inj in E; [|apply lcell_inb; auto..]. apply map_add_inj in E. subst. contradiction. }
  apply G; [apply box_NoDup|]. intros x. apply inb_box_In.
Qed.

Lemma gcell_inb r x : 0 <= r < n -> inb loc x -> inb (global_size dims loc) (vadd x (block_start dims loc r)).
Proof.
  intros Hr Hx. pose proof (inb_length _ _ Hx). rewrite vadd_comm by (rewrite bs_len; auto). destruct Hok. apply block_inside; auto.
Qed.

Lemma gcell_inj r s x y : 0 <= r < n -> 0 <= s < n -> inb loc x -> inb loc y -> gcell r x = gcell s y -> r = s /\ x = y.
Proof.
  intros Hr Hs Hx Hy E. pose proof (inb_length _ _ Hx). pose proof (inb_length _ _ Hy).
  apply ravel_inj in E; [|apply gcell_inb; auto..].
  rewrite (vadd_comm x), (vadd_comm y) in E by (rewrite bs_len; auto).
  destruct Hok as [K1 K2 K3].
  assert (O : forall r x, 0 <= r < n -> inb loc x -> owner false dims loc (vadd (block_start dims loc r) x) = Some (r, x)).
  { intros r0 x0 Hr0 Hx0. unfold block_start. rewrite owner_block; auto; [|now rewrite unravel_length].
    rewrite wrapv_in by (apply unravel_inb; auto). simpl. now rewrite ravel_unravel. }
  pose proof (O r x Hr Hx) as E1. pose proof (O s y Hs Hy) as E2. rewrite E in E1. rewrite E1 in E2. now injection E2.
Qed.

Lemma owner_gcell r x : 0 <= r < n -> inb loc x -> owner false dims loc (vadd x (block_start dims loc r)) = Some (r, x).
Proof.
  intros Hr0 Hx0. pose proof (inb_length _ _ Hx0). rewrite (vadd_comm x) by (rewrite bs_len; auto). destruct Hok as [K1 K2 K3].
  unfold block_start. rewrite owner_block; auto; [|now rewrite unravel_length].
  rewrite wrapv_in by (apply unravel_inb; auto). simpl. now rewrite ravel_unravel.
Qed.

Lemma tile p : inb (global_size dims loc) p -> exists r x, 0 <= r < n /\ inb loc x /\ p = vadd x (block_start dims loc r).
Proof.
  intros Hp. destruct Hok as [K1 K2 K3].
  destruct (tiling dims loc p) as (r & x & (Hr & Hx & E) & _); auto.
  exists r, x. pose proof (inb_length _ _ Hx). rewrite (vadd_comm x) by (rewrite bs_len; auto). repeat split; auto; lia.
Qed.

Lemma gcell_NoDup (gid : nat) r : 0 <= r < n -> NoDup (map (fun x => (gid, gcell r x)) B).
Proof.
  intros Hr.
  assert (G : forall L, NoDup L -> (forall x, In x L -> inb loc x) -> NoDup (map (fun x => (gid, gcell r x)) L)).
  { induction L as [|x L IH]; simpl; intros Hn Hi; constructor; inversion Hn; subst; auto.
    intros H. apply in_map_iff in H as (y & E & Hy). injection E as E.
    apply gcell_inj in E as [_ ->]; auto. }
  apply G; [apply box_NoDup|]. intros x. apply inb_box_In.
Qed.

(** *** ranks *)
Lemma order_In s : In s order <-> (0 <= s < n /\ s <> master).
Proof.
  split.
  - intros H. apply (Permutation_in _ Hord) in H. apply filter_In in H as [H1 H2].
    apply zrange_In in H1. destruct (Z.eqb_spec s master); simpl in *; [discriminate|]. lia.
  - intros [H1 H2]. apply (Permutation_in _ (Permutation_sym Hord)). apply filter_In. split.
    + apply zrange_In. lia.
    + destruct (Z.eqb_spec s master); simpl; congruence.
Qed.
Lemma order_NoDup : NoDup order.
Proof.
  eapply Permutation_NoDup; [apply Permutation_sym, Hord|]. apply NoDup_filter, zrange_NoDup.
Qed.
Lemma order_master : ~ In master order.
Proof. rewrite order_In. tauto. Qed.

(** *** One component *)
Definition gather_mem (gid lid : nat) (m : Z -> @lmem T) (M : @lmem T) (s : Z) : @lmem T :=
  write (map (fun x => (gid, gcell s x)) B) (map (m s) (map (fun x => (lid, lcell x)) B)) M.

Definition gather1 (gid lid : nat) (m : Z -> @lmem T) : Z -> @lmem T :=
  upd m master (fold_left (gather_mem gid lid (upd m master (gather_mem gid lid m (m master) master))) order
    (gather_mem gid lid m (m master) master)).

Lemma in_ranks r : (0 <=? r) && (r <? zprod dims) = true <-> 0 <= r < n.
Proof. rewrite andb_true_iff, Z.leb_le, Z.ltb_lt. tauto. Qed.

Lemma gather1_sync gid lid (rest : Z -> list bop) m :
  bsteps false (start n (fun r => gather_scalar dims loc g master order r gid lid ++ rest r) m)
               (start n rest (gather1 gid lid m)).
Proof.
  pose proof order_master as Om. pose proof order_NoDup as On. pose proof order_In as Oi.
  unfold start. eapply bs_step.
  - eapply (st_local false master); simpl. rewrite (proj2 (in_ranks master) Hm).
    unfold gather_scalar. rewrite Z.eqb_refl. reflexivity.
  - eapply bsteps_eq; [apply (sync_gather master (fun _ => slave_buf loc g lid) (master_buf dims loc gid) (rest master) rest order)|]; simpl; auto.
    + rewrite upd_eq. reflexivity.
    + intros s Hs. rewrite upd_neq by (intros ->; auto). apply Oi in Hs as [Hs1 Hs2].
      rewrite (proj2 (in_ranks s) Hs1). unfold gather_scalar. destruct (Z.eqb_spec s master); [congruence|]. reflexivity.
    + intros s Hs. rewrite slave_buf_eq, master_buf_eq, !map_length. reflexivity.
    + apply config_eq; auto.
      * apply functional_extensionality. intros r. destruct (Z.eqb_spec r master).
        -- subst. now rewrite (proj2 (in_ranks master) Hm).
        -- destruct (mem_dec r order) eqn:E.
           ++ apply mem_dec_spec, Oi in E as [E _]. now rewrite (proj2 (in_ranks r) E).
           ++ rewrite upd_neq by auto. destruct ((0 <=? r) && (r <? zprod dims)) eqn:F; auto.
              apply in_ranks in F. assert (In r order) by (apply Oi; auto). apply mem_dec_spec in H. congruence.
      * unfold gather1. rewrite upd_eq, upd_over. f_equal. unfold assign.
        unfold chunk_cells. rewrite chunk_eq, inner_eq.
        fold (gather_mem gid lid m (m master) master).
        generalize (gather_mem gid lid m (m master) master) at 2 4. intros M0. revert M0.
        generalize order. intros L. induction L as [|s L IH]; intros M0; simpl; auto. rewrite IH. f_equal.
        unfold gather_mem at 2. rewrite slave_buf_eq, master_buf_eq. reflexivity.
Qed.

Lemma gather_fold gid lid m : forall L M, NoDup L -> (forall s, In s L -> 0 <= s < n) ->
  (forall s x, In s L -> inb loc x -> fold_left (gather_mem gid lid m) L M (gid, gcell s x) = m s (lid, lcell x)) /\
  (forall f i, (forall s x, In s L -> inb loc x -> (f, i) <> (gid, gcell s x)) -> fold_left (gather_mem gid lid m) L M (f, i) = M (f, i)).
Proof.
  induction L as [|s L IH]; simpl; intros M HL Hr; [split; [tauto|auto]|]. inversion HL; subst.
  destruct (IH (gather_mem gid lid m M s) H2 ltac:(auto)) as [I1 I2]. split.
  - intros s' x [->|Hs] Hx; [|now apply I1]. rewrite I2.
    + unfold gather_mem. rewrite map_map.
      apply (write_in (fun x => (gid, gcell s' x)) (fun x => m s' (lid, lcell x)) B M x); auto.
      * apply gcell_NoDup; auto.
      * now apply inb_box_In.
    + intros s x' Hs Hx' E. injection E as E. apply gcell_inj in E as [-> _]; auto.
  - intros f i Hn. rewrite I2 by (intros; apply Hn; auto). unfold gather_mem. apply write_other.
    intros Hi. apply in_map_iff in Hi as (x & E & Hx). apply inb_box_In in Hx. apply (Hn s x); auto.
Qed.

Lemma gather1_spec gid lid m : gid <> lid -> 
  (forall s x, 0 <= s < n -> inb loc x -> gather1 gid lid m master (gid, gcell s x) = m s (lid, lcell x)) /\
  (forall r a, r <> master -> gather1 gid lid m r a = m r a) /\
  (forall f i, (f <> gid \/ forall s x, 0 <= s < n -> inb loc x -> i <> gcell s x) -> gather1 gid lid m master (f, i) = m master (f, i)).
Proof.
  intros Hd. unfold gather1. rewrite upd_eq.
  assert (E : fold_left (gather_mem gid lid (upd m master (gather_mem gid lid m (m master) master))) order (gather_mem gid lid m (m master) master)
     = fold_left (gather_mem gid lid m) (master :: order) (m master)).
  { simpl. generalize (gather_mem gid lid m (m master) master) at 2 3. intros M0.
    pose proof order_master as Om. clear - Om. revert M0 Om. generalize order. intros L. induction L as [|s L IH]; intros M0 HL; simpl in *; auto.
    rewrite IH by tauto. unfold gather_mem at 2 4. rewrite upd_neq; auto. }
  rewrite E.
  destruct (gather_fold gid lid m (master :: order) (m master)) as [G1 G2].
  - constructor; [apply order_master|apply order_NoDup].
  - intros s [<-|Hs]; auto. now apply order_In in Hs.
  - split; [|split].
    + intros s x Hs Hx. apply G1; auto. simpl. destruct (Z.eq_dec s master); auto. right. apply order_In; auto.
    + intros r a Hr. rewrite upd_neq; auto.
    + intros f i Hn. apply G2. intros s x Hs Hx E'. injection E' as -> ->. destruct Hn as [Hn|Hn]; [congruence|].
      apply (Hn s x); auto. destruct Hs as [<-|Hs]; auto. now apply order_In in Hs.
Qed.

Lemma gather_all comps (m : Z -> @lmem T) (rest : Z -> list bop) : distinct_arrays comps ->
  exists m', bsteps false (start n (fun r => gather_fields dims loc g master order comps r ++ rest r) m) (start n rest m') /\ gathered dims loc g master comps m m'.
Proof.
  intros Hd.
  revert m. induction comps as [|[gid lid] comps IH]; intros m.
    - exists m. split.
      + constructor.
      + constructor; simpl; auto; tauto.
    - destruct Hd as [Hd1 Hd2 Hd3]. simpl in *. inversion Hd1; subst. inversion Hd2; subst.
      assert (Hgl : gid <> lid) by (intros ->; apply (Hd3 lid); auto).
      destruct (gather1_spec gid lid m Hgl) as (S1 & S2 & S3).
      destruct (IH ltac:(constructor; auto; intros a Ha Ha'; apply (Hd3 a); auto) (gather1 gid lid m)) as (m' & R & [A1 A2 A3]).
      exists m'. split.
      { eapply bsteps_trans; [|exact R]. eapply bsteps_eq_l; [|apply (gather1_sync gid lid (fun r => gather_fields dims loc g master order comps r ++ rest r))].
        unfold start. apply config_eq; auto. apply functional_extensionality. intros r.
        destruct ((0 <=? r) && (r <? zprod dims)); auto. unfold gather_fields. simpl. now rewrite app_assoc. }
      constructor.
      + intros gid' lid' p [E|Hin] Hp.
        * injection E as <- <-.
          rewrite A3 by (intros [Hin _]; contradiction).
          destruct (tile p Hp) as (r & x & Hr & Hx & ->). exists r, x. split; [now apply owner_gcell|]. now apply S1.
        * destruct (A1 gid' lid' p Hin Hp) as (s & x & E & V). exists s, x. split; auto. rewrite V.
          assert (Hx : In lid' (map snd comps)) by (apply in_map_iff; exists (gid', lid'); auto).
          destruct (Z.eq_dec s master); [|now apply S2]. subst s. apply S3. left. intros ->. apply (Hd3 gid); auto.
      + intros r a Hr. rewrite A2 by auto. now apply S2.
      + intros f i Hn. rewrite A3.
        * apply S3. destruct (Nat.eq_dec f gid); auto. right. intros s x Hs Hx E. subst f. apply Hn. split; [now left|].
          eexists. split; [|exact E]. now apply gcell_inb.
        * intros [K1 K2]. apply Hn. split; [now right|assumption].
Qed.

(** *** Scatter *)
Definition scatter1 (gid lid : nat) (m : Z -> @lmem T) : Z -> @lmem T :=
  fun r => if (0 <=? r) && (r <? zprod dims) then
    write (map (fun x => (lid, lcell x)) B) (map (m master) (map (fun x => (gid, gcell r x)) B)) (m r) else m r.

Lemma scatter1_sync gid lid (rest : Z -> list bop) m : gid <> lid ->
  bsteps false (start n (fun r => scatter_scalar dims loc g master order r gid lid ++ rest r) m)
               (start n rest (scatter1 gid lid m)).
Proof.
  intros Hgl.
  pose proof order_master as Om. pose proof order_NoDup as On. pose proof order_In as Oi.
  unfold start. eapply bs_step.
  - eapply (st_local false master); simpl. rewrite (proj2 (in_ranks master) Hm).
    unfold scatter_scalar. rewrite Z.eqb_refl. reflexivity.
  - eapply bsteps_eq; [apply (sync_scatter master (master_buf dims loc gid) (fun _ => slave_buf loc g lid) (rest master) rest order)|]; simpl; auto.
    + rewrite upd_eq. reflexivity.
    + intros s Hs. rewrite upd_neq by (intros ->; auto). apply Oi in Hs as [Hs1 Hs2].
      rewrite (proj2 (in_ranks s) Hs1). unfold scatter_scalar. destruct (Z.eqb_spec s master); [congruence|]. reflexivity.
    + intros s Hs. rewrite slave_buf_eq, master_buf_eq, !map_length. reflexivity.
    + apply config_eq; auto.
      * apply functional_extensionality. intros r. destruct (Z.eqb_spec r master).
        -- subst. now rewrite (proj2 (in_ranks master) Hm).
        -- destruct (mem_dec r order) eqn:E.
           ++ apply mem_dec_spec, Oi in E as [E _]. now rewrite (proj2 (in_ranks r) E).
           ++ rewrite upd_neq by auto. destruct ((0 <=? r) && (r <? zprod dims)) eqn:F; auto.
              apply in_ranks in F. assert (In r order) by (apply Oi; auto). apply mem_dec_spec in H. congruence.
      * apply functional_extensionality. intros r. unfold scatter1. rewrite upd_eq.
        destruct (mem_dec r order) eqn:E.
        -- apply mem_dec_spec, Oi in E as [E E']. rewrite (proj2 (in_ranks r) E). rewrite upd_neq by auto.
           rewrite slave_buf_eq, master_buf_eq. f_equal. rewrite !map_map. apply map_ext. intros x.
           unfold assign. rewrite inner_eq. apply write_other. intros Hi. apply in_map_iff in Hi as (y & Ey & _). congruence.
        -- destruct (Z.eq_dec r master).
           ++ subst. rewrite upd_eq, (proj2 (in_ranks master) Hm). unfold assign, chunk_cells. now rewrite chunk_eq, inner_eq.
           ++ rewrite upd_neq by auto. destruct ((0 <=? r) && (r <? zprod dims)) eqn:F; auto.
              apply in_ranks in F. assert (In r order) by (apply Oi; auto). apply mem_dec_spec in H. congruence.
Qed.

Lemma scatter1_spec gid lid m :
  (forall r x, 0 <= r < n -> inb loc x -> scatter1 gid lid m r (lid, lcell x) = m master (gid, gcell r x)) /\
  (forall r f i, (~ 0 <= r < n \/ f <> lid \/ forall x, inb loc x -> i <> lcell x) -> scatter1 gid lid m r (f, i) = m r (f, i)).
Proof.
  split.
  - intros r x Hr Hx. unfold scatter1. rewrite (proj2 (in_ranks r) Hr). rewrite map_map.
    apply (write_in (fun x => (lid, lcell x)) (fun x => m master (gid, gcell r x)) B (m r) x); auto.
    + apply lcell_NoDup.
    + now apply inb_box_In.
  - intros r f i H. unfold scatter1. destruct ((0 <=? r) && (r <? zprod dims)) eqn:F; auto. apply in_ranks in F.
    apply write_other. intros Hi. apply in_map_iff in Hi as (y & Ey & Hy). apply inb_box_In in Hy. injection Ey as <- <-.
    destruct H as [H|[H|H]]; [tauto|congruence|]. eapply H; eauto.
Qed.

Lemma inner_split r I : inner g loc I -> exists x, inb loc x /\ I = map (fun i => i + g) x /\
  ghost_pos dims loc g r I = vadd x (block_start dims loc r).
Proof.
  intros HI. exists (map (fun i => i - g) I). split; [now apply sub_g_inb|]. split; [now rewrite add_sub_g|].
  unfold ghost_pos. apply vadd_comm. rewrite bs_len, map_length. apply in_box_length in HI as [-> _]. reflexivity.
Qed.

Lemma scatter_all comps (m : Z -> @lmem T) (rest : Z -> list bop) : distinct_arrays comps ->
  exists m', bsteps false (start n (fun r => scatter_fields dims loc g master order comps r ++ rest r) m) (start n rest m') /\ scattered dims loc g master comps m m'.
Proof.
  intros Hd.
  revert m. induction comps as [|[gid lid] comps IH]; intros m.
    - exists m. split.
      + constructor.
      + constructor; simpl; auto; tauto.
    - destruct Hd as [Hd1 Hd2 Hd3]. simpl in *. inversion Hd1; subst. inversion Hd2; subst.
      assert (Hgl : gid <> lid) by (intros ->; apply (Hd3 lid); auto).
      destruct (scatter1_spec gid lid m) as (S1 & S3).
      destruct (IH ltac:(constructor; auto; intros a Ha Ha'; apply (Hd3 a); auto) (scatter1 gid lid m)) as (m' & R & [A1 A3]).
      exists m'. split.
      { eapply bsteps_trans; [|exact R]. eapply bsteps_eq_l; [|apply (scatter1_sync gid lid (fun r => scatter_fields dims loc g master order comps r ++ rest r) m Hgl)].
        unfold start. apply config_eq; auto. apply functional_extensionality. intros r.
        destruct ((0 <=? r) && (r <? zprod dims)); auto. unfold scatter_fields. simpl. now rewrite app_assoc. }
      constructor.
      + intros gid' lid' r I [E|Hin] Hr HI.
        * injection E as <- <-.
          rewrite A3 by (intros (_ & Hin & _); contradiction).
          destruct (inner_split r I HI) as (x & Hx & -> & ->). now apply S1.
        * rewrite (A1 gid' lid' r I Hin Hr HI). apply S3. right. left. intros ->. apply (Hd3 lid); auto.
          right. apply in_map_iff. exists (lid, lid'). auto.
      + intros r f i Hn. rewrite A3.
        * apply S3. destruct (Z_le_dec 0 r); [|left; lia]. destruct (Z_lt_dec r n); [|left; lia].
          destruct (Nat.eq_dec f lid); auto. right. right. intros x Hx E. subst f. apply Hn. split; [lia|]. split; [now left|].
          eexists. split; [|exact E]. now apply add_g_inner.
        * intros (K1 & K2 & K3). apply Hn. split; [assumption|]. split; [now right|assumption].
Qed.

Lemma gather_runs comps (m : Z -> @lmem T) : distinct_arrays comps ->
  exists m', runs_to n (gather_fields dims loc g master order comps) m m' /\ gathered dims loc g master comps m m'.
Proof.
  intros Hd. destruct (gather_all comps m (fun _ => []) Hd) as (m' & R & S). exists m'. split; auto.
  apply runs_to_intro. eapply bsteps_eq_l; [|eapply bsteps_eq; [exact R|]]; unfold start, stop; apply config_eq; auto;
    apply functional_extensionality; intros r; rewrite ?app_nil_r; destruct ((0 <=? r) && (r <? zprod dims)); auto.
Qed.
Lemma scatter_runs comps (m : Z -> @lmem T) : distinct_arrays comps ->
  exists m', runs_to n (scatter_fields dims loc g master order comps) m m' /\ scattered dims loc g master comps m m'.
Proof.
  intros Hd. destruct (scatter_all comps m (fun _ => []) Hd) as (m' & R & S). exists m'. split; auto.
  apply runs_to_intro. eapply bsteps_eq_l; [|eapply bsteps_eq; [exact R|]]; unfold start, stop; apply config_eq; auto;
    apply functional_extensionality; intros r; rewrite ?app_nil_r; destruct ((0 <=? r) && (r <? zprod dims)); auto.
Qed.

(** Any sequence of calls, with no barrier in between. *)
Lemma calls_run (calls : list (bool * list (nat * nat))) (m : Z -> @lmem T) :
  Forall (fun c => distinct_arrays (snd c)) calls ->
  exists m', runs_to n (calls_prog dims loc g master order calls) m m' /\ calls_effect dims loc g master calls m m'.
Proof.
  intros Hc.
  assert (G : exists m', bsteps false (start n (calls_prog dims loc g master order calls) m) (stop m') /\ calls_effect dims loc g master calls m m').
  { revert m. induction Hc as [|[b comps] calls Hd Hc IH]; intros m.
    - exists m. split; [|constructor].
      eapply bsteps_eq; [constructor|]. unfold start, stop. apply config_eq; auto.
      apply functional_extensionality. intros r. simpl. destruct ((0 <=? r) && (r <? zprod dims)); auto.
    - simpl in Hd. destruct b.
      + destruct (gather_all comps m (calls_prog dims loc g master order calls) Hd) as (m1 & R1 & S1).
        destruct (IH m1) as (m2 & R2 & S2). exists m2. split; [eapply bsteps_trans; [exact R1|exact R2]|]. econstructor; eauto.
      + destruct (scatter_all comps m (calls_prog dims loc g master order calls) Hd) as (m1 & R1 & S1).
        destruct (IH m1) as (m2 & R2 & S2). exists m2. split; [eapply bsteps_trans; [exact R1|exact R2]|]. econstructor; eauto. }
  destruct G as (m' & R & S). exists m'. split; auto. now apply runs_to_intro.
Qed.
End P.

(** *** Round trips (at the level of the specification) *)
Section RT.
Context {T : Type}.
Variables (dims loc : list Z) (g : Z) (master : Z) (comps : list (nat * nat)).
Hypothesis Hok : grid_ok dims loc.
Hypothesis Hg : 0 <= g.
Hypothesis Hm : 0 <= master < zprod dims.
Hypothesis Hd : distinct_arrays comps.

Lemma gather_scatter_id (m m1 m2 : Z -> @lmem T) : scattered dims loc g master comps m m1 -> gathered dims loc g master comps m1 m2 ->
  forall gid lid p, In (gid, lid) comps -> inb (global_size dims loc) p ->
    m2 master (gid, ravel (global_size dims loc) p) = m master (gid, ravel (global_size dims loc) p).
Proof.
  intros [S1 S2] [G1 G2 G3] gid lid p Hin Hp.
  destruct (G1 gid lid p Hin Hp) as (s & x & E & ->).
  destruct (tile dims loc Hok p Hp) as (r & y & Hr & Hy & ->).
  rewrite (owner_gcell dims loc Hok) in E by auto. injection E as <- <-.
  rewrite (S1 gid lid r) by (eauto using add_g_inner). do 3 f_equal.
  destruct (inner_split dims loc g Hok r _ (add_g_inner loc g y Hy)) as (z & Hz & E & ->).
  apply map_add_inj in E. now subst.
Qed.

Lemma scatter_gather_id (m m1 m2 : Z -> @lmem T) : gathered dims loc g master comps m m1 -> scattered dims loc g master comps m1 m2 ->
  forall r f i, ~ (r = master /\ In f (map fst comps)) -> m2 r (f, i) = m r (f, i).
Proof.
  intros [G1 G2 G3] [S1 S2] r f i Hn.
  assert (Hm1 : m1 r (f, i) = m r (f, i)).
  { destruct (Z.eq_dec r master); [|now apply G2]. subst. apply G3. intros [K _]. apply Hn; auto. }
  destruct (in_dec Nat.eq_dec f (map snd comps)) as [Hf|Hf].
  - apply in_map_iff in Hf as ([gid lid] & E & Hin). simpl in E. subst lid.
    destruct (Z_le_dec 0 r); [|rewrite S2; auto; lia]. destruct (Z_lt_dec r (zprod dims)); [|rewrite S2; auto; lia].
    destruct (in_dec Z.eq_dec i (map (fun x => ravel (ghosted g loc) (map (fun k => k + g) x)) (box (map (fun _ => 0) loc) loc))) as [Hi|Hi].
    + apply in_map_iff in Hi as (x & <- & Hx). apply inb_box_In in Hx.
      rewrite (S1 gid f r) by (eauto using add_g_inner).
      destruct (inner_split dims loc g Hok r _ (add_g_inner loc g x Hx)) as (z & Hz & E & ->).
      apply map_add_inj in E. subst z.
      destruct (G1 gid f (vadd x (block_start dims loc r)) Hin) as (s & y & E & ->); [apply gcell_inb; auto|].
      rewrite (owner_gcell dims loc Hok) in E by auto. now injection E as <- <-.
    + rewrite S2; auto. intros (_ & _ & I & HI & ->). apply Hi. apply in_map_iff.
      destruct (inner_split dims loc g Hok r _ HI) as (z & Hz & -> & _). exists z. split; auto. now apply inb_box_In.
  - rewrite S2; auto. tauto.
Qed.
End RT.
