(** Exact effect of the adding kernels, for every block size and at every cell. *)
From Verif Require Import Base SpecGrid SpecGhost SpecStencil SpecAdd Cart CartFacts Comm Spmd GhostGeo Ghost2D Ghost3D GhostProofs Stencil StencilProofs HaloProofs HaloKernels HaloThms KernelList KernelProofs.
Arguments run_lops : simpl never.
Arguments addr_eq : simpl never.
Arguments place_dec : simpl never.

Lemma updates2 ny nx g ks x : 0 <= ks <= g -> 1 <= g -> g <= ny /\ g <= nx -> inb [ny; nx] x ->
  passes [ny; nx] g ks (strips2 g ks (shape0 ny g) (shape1 nx g)) (map (fun i => i + g) x) = updates ks [ny; nx] x.
Proof.
  intros Hk Hg [Hy Hx] HI. inversion HI as [|? ? x0 X0 H0 HX0]; subst. inversion HX0 as [|? ? x1 X1 H1 HX1]; subst. inversion HX1; subst.
  unfold passes, strips2, shape0, shape1, updates. cbn [map view_in fold_right ghosted rev app updates_rev near_ends]. unfold near_ends. axes. cases3; reflexivity.
Qed.
Lemma updates3 n0 n1 n2 g ks x : 0 <= ks <= g -> 1 <= g -> g <= n0 /\ g <= n1 /\ g <= n2 -> inb [n0; n1; n2] x ->
  passes [n0; n1; n2] g ks (strips3 g ks (s0 n0 g) (s1 n1 g) (s2 n2 g)) (map (fun i => i + g) x) = updates ks [n0; n1; n2] x.
Proof.
  intros Hk Hg (Hz & Hy & Hx) HI. inversion HI as [|? ? x0 X0 H0 HX0]; subst. inversion HX0 as [|? ? x1 X1 H1 HX1]; subst. inversion HX1 as [|? ? x2 X2 H2 HX2]; subst. inversion HX2; subst.
  unfold passes, strips3, s0, s1, s2, updates. cbn [map view_in fold_right ghosted rev app updates_rev]. unfold near_ends. axes. cases3; reflexivity.
Qed.
(** Blocks at least two radii thick: exactly once. *)
Lemma updates_rev_once ks : forall loc x, Forall (fun n => 2 * ks <= n) loc -> inb loc x -> updates_rev ks loc x = 1%nat.
Proof.
  induction loc as [|n loc IH]; intros x Hl Hx; inversion Hx as [|? ? i x' Hi Hx']; subst; [reflexivity|]. inversion Hl; subst. cbn [updates_rev]. unfold near_ends.
  destruct (Z.ltb_spec i ks), (Z.leb_spec (n - ks) i); try lia; auto. cbn. now apply IH.
Qed.
Lemma inb_rev loc x : inb loc x -> inb (rev loc) (rev x).
Proof.
  intros H. assert (G : forall a b c d, inb a b -> inb c d -> inb (a ++ c) (b ++ d)) by (induction 1; intros; cbn; auto; constructor; auto).
  induction H; cbn; [constructor|]. apply G; auto. constructor; [lia|constructor].
Qed.
Lemma updates_once ks loc x : Forall (fun n => 2 * ks <= n) loc -> inb loc x -> updates ks loc x = 1%nat.
Proof. intros Hl Hx. unfold updates. apply updates_rev_once; [now apply Forall_rev|now apply inb_rev]. Qed.
Lemma updates_rev_bound ks : 0 <= ks -> forall loc x, (1 <= updates_rev ks loc x <= 2)%nat.
Proof.
  intros Hk. induction loc as [|n loc IH]; intros [|i x]; cbn [updates_rev]; try lia. unfold near_ends.
  destruct (Z.ltb_spec i ks), (Z.leb_spec (n - ks) i); cbn; try lia. apply IH.
Qed.

Section E.
Context {T : Type}.
Variables (per : bool) (dims loc : list Z) (g ks : Z) (F : list nat) (C : list (place * place)) (k : @kern T) (strips : list (list pslice)) (z : T).
Hypothesis Hok : grid_ok dims loc.
Hypothesis Hks : 0 <= ks <= g.
Hypothesis Hg : 1 <= g.
Hypothesis HC : exch_facts per dims loc g F C.
Hypothesis Hnd : NoDup (map fst k).
Hypothesis Hdis : forall f, In f F -> ~ In f (map fst k).
Hypothesis Hloc : forall o K, In (o, K) k -> star_local (length loc) F ks K.
Hypothesis Hstrips : Forall (fun v => length v = length (ghosted g loc)) strips.
Hypothesis Hp : forall x, inb loc x -> passes loc g ks strips (map (fun i => i + g) x) = updates ks loc x.

Lemma iter_ext {A} (f h : A -> A) c a : (forall b, f b = h b) -> Nat.iter c f a = Nat.iter c h a.
Proof. intros E. induction c as [|c IH]; [reflexivity|]. change (f (Nat.iter c f a) = h (Nat.iter c h a)). now rewrite IH, E. Qed.

Lemma exact_den (m : mem T) : added_exactly per dims loc g ks F k m (den (zprod dims) (halo loc g ks C k strips (fun _ => []) z) m).
Proof.
  split.
  - intros r x o K Hr Hx Hin. assert (HI : inner g loc (map (fun i => i + g) x)) by (now apply add_inner).
    change (den (zprod dims) (halo loc g ks C k strips (fun _ => []) z) m) with (halo_post dims loc g ks C k strips (fun _ => []) z m).
    rewrite (halo_value per dims loc g ks F C k strips (fun _ => []) z) with (K := K); auto; [|apply inner_inb; auto; lia].
    cbn [zeroed existsb]. change (zeroed loc g (fun _ : Z => []) r (map (fun i => i + g) x)) with false. cbv iota. rewrite Hp by exact Hx.
    apply iter_ext. intros old. apply (Hloc o K Hin). intros f d Hf Hd.
    rewrite (read_star per dims loc g ks F C Hks HC m r f _ d) by auto.
    pose proof (star_len _ _ _ Hd) as Hdl. pose proof (inb_length _ _ Hx) as Hxl. destruct Hok as [Hl ? ?].
    unfold refreshed, seen. rewrite ghost_pos_shift; auto. destruct (owner _ _ _ _) as [[s y]|]; [reflexivity|]. f_equal.
    assert (G : forall a b : list Z, vadd (map (fun i => i + g) a) b = map (fun i => i + g) (vadd a b)).
    { unfold vadd. induction a as [|i a IH]; intros [|j b]; cbn; auto. rewrite IH. f_equal. lia. }
    apply G.
  - intros r f x Hr Hx Hf. unfold field. change (den (zprod dims) (halo loc g ks C k strips (fun _ => []) z) m) with (halo_post dims loc g ks C k strips (fun _ => []) z m).
    rewrite (halo_frame dims loc g ks C k strips (fun _ => []) z); auto. apply (copies_inner per dims loc g F); auto. now apply add_inner.
  - intros r f a Hr Hf HF. change (den (zprod dims) (halo loc g ks C k strips (fun _ => []) z) m) with (halo_post dims loc g ks C k strips (fun _ => []) z m).
    rewrite (halo_frame dims loc g ks C k strips (fun _ => []) z); auto. now apply (copies_frame per dims loc g F).
Qed.
Lemma exact_prog (m : mem T) : exists m', spmd_ends (zprod dims) (halo loc g ks C k strips (fun _ => []) z) m m' /\ added_exactly per dims loc g ks F k m m'.
Proof.
  eexists. split; [apply spmd_safe; now apply (halo_ok per dims loc g ks F C k strips (fun _ => []) z)|apply exact_den].
Qed.
End E.

Section P.
Context {T : Type}.
Lemma exact2 per py px ny nx g full ks F (k : @kern T) (m : mem T) : grid2 py px ny nx g -> 0 <= ks <= g -> NoDup (map fst k) -> (forall f, In f F -> ~ In f (map fst k)) ->
  Forall (fun oK => star_local 2 F ks (snd oK)) k ->
  exists m', spmd_ends (zprod [py; px]) (halo2 per py px ny nx g full ks F k None) m m' /\ added_exactly per [py; px] [ny; nx] g ks F k m m'.
Proof.
  intros H Hks Hnd Hd Hst. pose proof H as (A & B & C & D & E). rewrite Forall_forall in Hst.
  refine (exact_prog per [py; px] [ny; nx] g ks F _ k (strips2 g ks (shape0 ny g) (shape1 nx g)) (m (0, (0%nat, 0))) (g2_ok _ _ _ _ _ H) Hks ltac:(lia)
    (exch2_facts per py px ny nx g full F ltac:(lia) ltac:(lia) ltac:(lia)) Hnd Hd _ ltac:(repeat constructor) _ m).
  - intros o K Hin. apply (Hst (o, K) Hin).
  - intros x Hx. apply updates2; auto; lia.
Qed.
Lemma exact3 per pz py px n0 n1 n2 g full ks F (k : @kern T) (m : mem T) : grid3 pz py px n0 n1 n2 g -> 0 <= ks <= g -> NoDup (map fst k) -> (forall f, In f F -> ~ In f (map fst k)) ->
  Forall (fun oK => star_local 3 F ks (snd oK)) k ->
  exists m', spmd_ends (zprod [pz; py; px]) (halo3 per pz py px n0 n1 n2 g full ks F k None) m m' /\ added_exactly per [pz; py; px] [n0; n1; n2] g ks F k m m'.
Proof.
  intros H Hks Hnd Hd Hst. pose proof H as (A & B & C & D & E & G & J). rewrite Forall_forall in Hst.
  refine (exact_prog per [pz; py; px] [n0; n1; n2] g ks F _ k (strips3 g ks (s0 n0 g) (s1 n1 g) (s2 n2 g)) (m (0, (0%nat, 0))) (g3_ok _ _ _ _ _ _ _ H) Hks ltac:(lia)
    (exch3_facts per pz py px n0 n1 n2 g full F ltac:(lia) ltac:(lia) ltac:(lia)) Hnd Hd _ ltac:(repeat constructor) _ m).
  - intros o K Hin. apply (Hst (o, K) Hin).
  - intros x Hx. apply updates3; auto; lia.
Qed.

Theorem adding_kernel_exact per dims loc g ks F k ps (m : mem T) : adding_kernel per dims loc g ks F k ps ->
  exists m', spmd_ends (zprod dims) ps m m' /\ added_exactly per dims loc g ks F k m m'.
Proof.
  intros H. destruct H; pose proof H as G; unfold grid2, grid3 in G.
  - apply exact2; auto; try lia; [repeat constructor; auto|]. simpl in *. intros f Hf [E'|[]]. subst. tauto.
  - apply exact2; auto; try lia; [repeat constructor; auto|]. simpl in *. intros f Hf [E'|[]]. subst. tauto.
  - apply exact3; auto; try lia; [repeat constructor; auto|]. simpl in *. intros f Hf [E'|[]]. subst. tauto.
  - apply exact3; auto; try lia; [intros f Hf Hin; apply (H1 f); auto|]. repeat constructor; apply H2; simpl; auto.
  - apply exact3; auto; try lia; [intros f Hf Hin; apply (H1 f); auto|]. repeat constructor; apply H2; simpl; auto.
Qed.
End P.

(** ** Thin blocks: some cell is updated twice. *)
Lemma updates_rev_twice ks : 1 <= ks -> forall loc, positive loc ->
  ((exists x, inb loc x /\ updates_rev ks loc x = 2%nat) <-> exists a n b, loc = a ++ n :: b /\ n < 2 * ks /\ Forall (fun n' => 2 * ks < n') a).
Proof.
  intros Hk. induction loc as [|n loc IH]; intros Hp.
  - split; [intros (x & H & E); inversion H; subst; discriminate|intros (a & n & b & E & _); destruct a; discriminate].
  - inversion Hp as [|? ? Hn Hp']; subst. specialize (IH Hp'). split.
    + intros (x & Hx & E). inversion Hx as [|? ? i x' Hi Hx']; subst. cbn [updates_rev] in E. unfold near_ends in E.
      destruct (Z.ltb_spec i ks), (Z.leb_spec (n - ks) i); cbn in E; try discriminate.
      * exists [], n, loc. repeat split; [lia|constructor].
      * destruct IH as [IH _]. destruct IH as (a & n' & b & -> & H1 & H2); [eauto|]. exists (n :: a), n', b. repeat split; auto. constructor; [lia|auto].
    + intros (a & n' & b & E & H1 & H2). destruct a as [|n1 a]; injection E as -> E.
      * subst b. assert (X : exists x, inb loc x) by (exists (map (fun _ => 0) loc); clear -Hp'; induction Hp'; cbn; constructor; auto; lia).
        destruct X as (x & Hx). exists (Z.max 0 (n' - ks) :: x). split; [constructor; [lia|auto]|]. cbn [updates_rev]. unfold near_ends.
        destruct (Z.ltb_spec (Z.max 0 (n' - ks)) ks); [|lia]. destruct (Z.leb_spec (n' - ks) (Z.max 0 (n' - ks))); [reflexivity|lia].
      * inversion H2; subst. destruct IH as [_ IH]. destruct IH as (x & Hx & Ex); [eauto 7|]. exists (ks :: x). split; [constructor; [lia|auto]|].
        cbn [updates_rev]. unfold near_ends. destruct (Z.ltb_spec ks ks); [lia|]. destruct (Z.leb_spec (n1 - ks) ks); [lia|]. exact Ex.
Qed.
Lemma updates_twice ks loc : 1 <= ks -> positive loc ->
  ((exists x, inb loc x /\ updates ks loc x = 2%nat) <-> exists before n after, loc = before ++ n :: after /\ n < 2 * ks /\ Forall (fun n' => 2 * ks < n') after).
Proof.
  intros Hk Hp. assert (Hp' : positive (rev loc)) by (now apply Forall_rev). pose proof (updates_rev_twice ks Hk (rev loc) Hp') as U. split.
  - intros (x & Hx & E). destruct U as [U _]. destruct U as (a & n & b & E1 & H1 & H2); [exists (rev x); split; [now apply inb_rev|exact E]|].
    exists (rev b), n, (rev a). split; [|split; [exact H1|now apply Forall_rev]]. rewrite <- (rev_involutive loc), E1, rev_app_distr. cbn [rev]. rewrite <- app_assoc. reflexivity.
  - intros (b & n & a & -> & H1 & H2). destruct U as [_ U]. destruct U as (x & Hx & E).
    + exists (rev a), n, (rev b). split; [|split; [exact H1|now apply Forall_rev]]. rewrite rev_app_distr. cbn [rev]. rewrite <- app_assoc. reflexivity.
    + exists (rev x). split; [apply inb_rev in Hx; now rewrite rev_involutive in Hx|]. unfold updates. now rewrite rev_involutive.
Qed.

(** ** The only ghost cells that matter *)
Lemma seen_ext {T} per dims loc g F r x (m1 m2 : mem T) ks f d :
  grid_ok dims loc -> 0 <= r < zprod dims -> inb loc x -> In f F -> star (length loc) ks d -> 0 <= ks <= g ->
  same_inner dims loc g F m1 m2 ->
  (forall r f I, 0 <= r < zprod dims -> In f F -> inb (ghosted g loc) I -> owner per dims loc (ghost_pos dims loc g r I) = None ->
     field m1 (ghosted g loc) r f I = field m2 (ghosted g loc) r f I) ->
  seen m1 per dims loc g r x f d = seen m2 per dims loc g r x f d.
Proof.
  intros Hok Hr Hx Hf Hd Hk Hi Ho. pose proof Hok as [K1 K2 K3]. unfold seen. destruct (owner per dims loc (vadd (vadd (block_start dims loc r) x) d)) as [[s y]|] eqn:E.
  - unfold owner in E. destruct (wrapv per (global_size dims loc) (vadd (vadd (block_start dims loc r) x) d)) as [q|] eqn:Eq; [|discriminate]. injection E as <- <-.
    apply wrapv_inb in Eq.
    + destruct (vdivmod_inb dims loc q) as [A B]; auto. apply Hi; auto. now apply ravel_bound.
    + unfold global_size. clear -K1 K2 K3. revert loc K1 K3. induction K2 as [|P ds HP K2 IH]; intros [|n l] K1 K3; cbn in *; try discriminate; constructor; inversion K3; subst; [nia|apply IH; auto].
    + pose proof (inb_length _ _ Hx). pose proof (star_len _ _ _ Hd). unfold block_start, global_size. assert (length (unravel dims r) = length dims) by apply unravel_length.
      rewrite (vmul_length dims) by lia. rewrite vadd_length; rewrite vadd_length; rewrite vmul_length; lia.
  - pose proof (star_len _ _ _ Hd) as Ld. pose proof (inb_length _ _ Hx) as Lx.
    assert (HI : inner g loc (map (fun i => i + g) x)) by (clear -Hx; unfold inner; induction Hx; simpl; constructor; auto; lia).
    assert (Ev : map (fun i => i + g) (vadd x d) = vadd (map (fun i => i + g) x) d).
    { clear. revert d. induction x as [|a x IH]; intros [|b d]; cbn; auto. f_equal; [lia|apply IH]. }
    apply Ho; auto; rewrite Ev.
    + eapply star_cell; eauto.
    + rewrite <- E. f_equal. unfold ghost_pos. rewrite <- Ev. clear -Lx Ld K1.
      assert (Lb : length (block_start dims loc r) = length loc) by (unfold block_start; rewrite vmul_length; rewrite unravel_length; lia).
      assert (Ld' : length d = length x) by lia. assert (Lb' : length (block_start dims loc r) = length x) by lia. generalize dependent (block_start dims loc r). intros b _ Lb'.
      clear -Ld' Lb'. revert d b Ld' Lb'. induction x as [|a x IH]; intros [|e d] [|c b] L1 L2; cbn in *; try discriminate; auto. f_equal; [lia|apply IH; lia].
Qed.

Lemma adding_facts {T} per dims loc g ks F (k : list (nat * ((nat -> list Z -> T) -> T -> T))) ps : adding_kernel per dims loc g ks F k ps ->
  grid_ok dims loc /\ 0 <= ks <= g /\ Forall (fun ok => star_local (length loc) F ks (snd ok)) k.
Proof.
  intros H. destruct H as [? ? ? ? ? ? ? ? ? ? ? G ? ? HK|? ? ? ? ? ? ? ? ? ? G ? HK|? ? ? ? ? ? ? ? ? ? ? ? ? ? G ? ? HK|? ? ? ? ? ? ? ? ? ? ? ? ? ? ? ? ? G ? ? HK|? ? ? ? ? ? ? ? ? ? ? ? ? ? ? ? ? ? ? ? G ? ? HK]; unfold grid2, grid3 in G;
    (split; [constructor; [reflexivity| |]; repeat constructor; lia|]); (split; [lia|]); cbn [length snd]; repeat constructor; cbn [snd]; auto; apply HK; cbn; auto.
Qed.

Lemma outside_ghosts {T} per dims loc g ks F k ps (m1 m2 m1' m2' : mem T) :
  adding_kernel per dims loc g ks F k ps ->
  spmd_ends (zprod dims) ps m1 m1' -> spmd_ends (zprod dims) ps m2 m2' ->
  same_inner dims loc g (F ++ map fst k) m1 m2 ->
  (forall r f I, 0 <= r < zprod dims -> In f F -> inb (ghosted g loc) I -> owner per dims loc (ghost_pos dims loc g r I) = None ->
     field m1 (ghosted g loc) r f I = field m2 (ghosted g loc) r f I) ->
  same_inner dims loc g (map fst k) m1' m2'.
Proof.
  intros H E1 E2 Hi Ho r o x Hr Hin Hx. destruct (adding_facts _ _ _ _ _ _ _ _ H) as (Hok & Hk & Hloc).
  destruct (adding_kernel_exact per dims loc g ks F k ps m1 H) as (n1 & A1 & B1). rewrite (spmd_ends_det _ _ _ _ _ E1 A1).
  destruct (adding_kernel_exact per dims loc g ks F k ps m2 H) as (n2 & A2 & B2). rewrite (spmd_ends_det _ _ _ _ _ E2 A2).
  apply in_map_iff in Hin as ([o' K] & <- & Hin). cbn [fst].
  rewrite (ae_value _ _ _ _ _ _ _ _ _ B1 r x o' K Hr Hx Hin), (ae_value _ _ _ _ _ _ _ _ _ B2 r x o' K Hr Hx Hin).
  rewrite Forall_forall in Hloc. specialize (Hloc _ Hin). cbn [snd] in Hloc.
  assert (Ho' : field m1 (ghosted g loc) r o' (map (fun i => i + g) x) = field m2 (ghosted g loc) r o' (map (fun i => i + g) x)).
  { apply Hi; auto. apply in_app_iff. right. apply in_map_iff. exists (o', K). auto. }
  rewrite Ho'. induction (updates ks loc x) as [|u IH]; [reflexivity|]. cbn [Nat.iter]. change (K (seen m1 per dims loc g r x) (Nat.iter u (K (seen m1 per dims loc g r x)) (field m2 (ghosted g loc) r o' (map (fun i => i + g) x))) = K (seen m2 per dims loc g r x) (Nat.iter u (K (seen m2 per dims loc g r x)) (field m2 (ghosted g loc) r o' (map (fun i => i + g) x)))).
  rewrite IH. apply Hloc. intros f d Hf Hd. eapply seen_ext; eauto. intros r' f' x' Hr' Hf' Hx'. apply Hi; auto. apply in_app_iff. auto.
Qed.
