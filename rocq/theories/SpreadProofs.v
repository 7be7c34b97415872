(** Spreading followed by the ghost sum = serial spreading on the global grid. *)
From Coq Require Import QArith Qround FunctionalExtensionality.
From Verif Require Import Base SpecGrid SpecPenalise SpecGhost SpecGhostSum SpecStencil SpecIB SpecLag Cart CartFacts Comm Blocking Spmd SpecBlocking BlockFacts Ghost2D
  Stencil StencilProofs HaloProofs FieldProofs KernelList GhostSum GhostSumHops StageRun RunsTo EulLag LagProofs StepProofs SpecStep PenaliseProofs GhostSumThms EulLagProofs EulLagThms.
Open Scope Z_scope.
Arguments run_lops : simpl never.
Arguments addr_eq : simpl never.

Lemma filter_unique {A} (dec : forall x y : A, {x = y} + {x <> y}) (h : A -> bool) L x : NoDup L -> (forall y, In y L -> h y = true <-> y = x) ->
  filter h L = if in_dec dec x L then [x] else [].
Proof.
  induction L as [|a L IH]; intros Hn Hh; [reflexivity|]. inversion Hn as [|? ? Ha Hn']; subst. cbn [filter].
  rewrite IH; [|assumption|intros; apply Hh; now right].
  destruct (h a) eqn:E.
  - apply Hh in E; [|now left]. subst. destruct (in_dec dec x L); [contradiction|]. destruct (in_dec dec x (x :: L)) as [|nn]; [reflexivity|]. exfalso. apply nn. now left.
  - assert (a <> x). { intros ->. assert (h x = true) by (apply Hh; [now left|reflexivity]). congruence. }
    destruct (in_dec dec x L) as [i|n], (in_dec dec x (a :: L)) as [i'|n']; try reflexivity; exfalso; [apply n'; now right|destruct i'; contradiction].
Qed.

Section G.
Context {T : Type}.
Variables (add : T -> T -> T) (z : T) (dims loc : list Z) (g : Z).
Hypothesis Hm : comm_monoid add z.
Hypothesis Hg : grid_ok dims loc.
Notation sizes := (ghosted g loc).
Notation n := (zprod dims).

(** Index on rank r of global position P. *)
Definition lidx (r : Z) (P : list Z) : list Z := map (fun i => i + g) (vsub P (block_start dims loc r)).
Lemma vsub_vadd_inv a b c : length a = length c -> length b = length c -> (vsub c a = b <-> c = vadd a b).
Proof.
  revert b c. induction a as [|x a IH]; intros [|y b] [|k c]; cbn; intros; try discriminate; try tauto.
  specialize (IH b c ltac:(lia) ltac:(lia)). split; intros E; injection E as E1 E2.
  - apply IH in E2. subst. f_equal. lia.
  - apply IH in E2. rewrite E2. f_equal. lia.
Qed.
Lemma lidx_spec r P I : length P = length loc -> length I = length loc -> (ghost_pos dims loc g r I = P <-> I = lidx r P).
Proof.
  intros HP HI. unfold ghost_pos, lidx. pose proof (bs_length dims loc Hg r) as Hb.
  assert (E : I = map (fun i => i + g) (vsub P (block_start dims loc r)) <-> map (fun i => i - g) I = vsub P (block_start dims loc r)).
  { split; intros E.
    - rewrite E, map_map. rewrite <- (map_id (vsub _ _)) at 2. apply map_ext. intros; lia.
    - rewrite <- E, map_map. rewrite <- (map_id I) at 1. apply map_ext. intros; lia. }
  rewrite E. split; intros H; symmetry; [|symmetry in H].
  - apply vsub_vadd_inv; [lia|rewrite map_length; lia|auto].
  - apply vsub_vadd_inv in H; [auto|lia|rewrite map_length; lia].
Qed.
Lemma lidx_len r P : length P = length loc -> length (lidx r P) = length loc.
Proof. intros H. unfold lidx. rewrite map_length, vsub_length; rewrite ?(bs_length dims loc Hg); lia. Qed.

Lemma copies_total (F : Z * list Z -> T) P : length P = length loc ->
  total add z (map F (copies_of dims loc g P)) = total add z (map (fun r => if inbb sizes (lidx r P) then F (r, lidx r P) else z) (zrange 0 n)).
Proof.
  intros HP. unfold copies_of. generalize (zrange 0 n). intros R. induction R as [|r R IH]; [reflexivity|].
  cbn [list_prod]. rewrite filter_app, map_app, total_app by auto. cbn [map]. unfold total at 3. cbn [fold_right]. fold (total add z (map (fun r0 => if inbb sizes (lidx r0 P) then F (r0, lidx r0 P) else z) R)). rewrite IH. f_equal.
  rewrite filter_map'. cbn [fst snd]. rewrite (filter_unique (list_eq_dec Z.eq_dec) _ _ (lidx r P)).
  - destruct (in_dec _ _ _) as [i|ni].
    + assert (inbb sizes (lidx r P) = true) as ->.
      { apply inbb_spec. apply box_In in i; [|unfold ghosted; now rewrite !map_length]. apply inb_box0. unfold ghosted. rewrite map_map. exact i. }
      unfold total. cbn. apply (cm_zero _ _ Hm).
    + destruct (inbb sizes (lidx r P)) eqn:E; [|reflexivity]. exfalso. apply ni. apply inbb_spec in E. apply box_In; [unfold ghosted; now rewrite !map_length|].
      apply inb_box0 in E. unfold ghosted in *. now rewrite map_map in E.
  - apply box_NoDup.
  - intros I HI. unfold cell_eqb. apply box_In in HI; [|unfold ghosted; now rewrite !map_length]. apply in_box_length in HI as [HI _]. unfold ghosted in HI. rewrite map_length in HI.
    rewrite <- lidx_spec by auto. destruct (list_eq_dec _ _ _); split; auto; discriminate.
Qed.

(** The owner of an in-domain position is the only rank that has it as an inner cell. *)
Lemma inner_unique r s I J : 0 <= r < n -> 0 <= s < n -> inner g loc I -> inner g loc J -> ghost_pos dims loc g r I = ghost_pos dims loc g s J -> r = s /\ I = J.
Proof.
  intros Hr Hs HI HJ E. apply sub_g_inb in HI as HI', HJ as HJ'. unfold ghost_pos in E.
  destruct (tiling dims loc (vadd (block_start dims loc r) (map (fun i => i - g) I)) Hg) as (r0 & x0 & _ & U); [now apply block_inside|].
  destruct (U r _ Hr HI' eq_refl) as [-> E1]. destruct (U s _ Hs HJ' (eq_sym E)) as [-> E2]. split; [reflexivity|].
  apply (map_add_inj (- g)). assert (X : forall l, map (fun i => i + - g) l = map (fun i => i - g) l) by (intros; apply map_ext; intros; lia). rewrite !X. congruence.
Qed.

(** A ghost summation of the array f in which the arrays [bufs] are scratch. *)
Definition sums (f : nat) (m m' : Z -> @lmemT T) : Prop :=
  (forall r I, 0 <= r < n -> inner g loc I -> m' r (f, ravel sizes I) = total add z (map (fun rI => m (fst rI) (f, ravel sizes (snd rI))) (copies_of dims loc g (ghost_pos dims loc g r I)))) /\
  (forall r I, 0 <= r < n -> inb sizes I -> ~ inner g loc I -> m' r (f, ravel sizes I) = z).

Lemma sums_seq (bufs : list nat) (Z0 : (Z -> @lmemT T) -> Prop) (gs : nat -> Z -> list (@bop T)) comps :
  (forall f m, In f comps -> Z0 m -> exists m', runs_to n (gs f) m m' /\ sums f m m' /\ Z0 m' /\ forall r x, fst x <> f -> ~ In (fst x) bufs -> m' r x = m r x) ->
  NoDup comps -> (forall f, In f comps -> ~ In f bufs) -> forall m, Z0 m ->
  exists m', runs_to n (fun r => flat_map (fun f => gs f r) comps) m m' /\ (forall f, In f comps -> sums f m m') /\ Z0 m' /\
    forall r x, ~ In (fst x) comps -> ~ In (fst x) bufs -> m' r x = m r x.
Proof.
  intros Hgs Hn Hb. induction comps as [|f comps IH]; intros m Hz.
  - exists m. split; [apply runs_to_nil|]. repeat split; auto; contradiction.
  - inversion Hn as [|? ? Hf Hn']; subst. destruct (Hgs f m (or_introl eq_refl) Hz) as (m1 & R1 & S1 & Z1 & F1).
    destruct (IH (fun f' m' Hf' => Hgs f' m' (or_intror Hf')) Hn' (fun f' Hf' => Hb f' (or_intror Hf')) m1 Z1) as (m2 & R2 & S2 & Z2 & F2).
    exists m2. split; [|split; [|split]].
    + eapply runs_to_ext; [|eapply runs_to_app; [exact R1|exact R2]]. reflexivity.
    + intros f' [<- |Hf'].
      * destruct S1 as [S1 S1']. split; intros r I Hr HI; rewrite F2; cbn [fst]; auto; apply Hb; now left.
      * destruct (S2 f' Hf') as [S2a S2b]. assert (Hne : f' <> f) by congruence. split; [|exact S2b]. intros r I Hr HI. rewrite S2a by auto. f_equal. apply map_ext. intros [s J]. cbn [fst snd]. apply F1; cbn [fst]; auto. apply Hb. now right.
    + exact Z2.
    + intros r x Hx Hx'. cbn [In] in Hx. rewrite F2 by tauto. apply F1; auto.
Qed.
End G.

Section S.
Context {C D T : Type}.
Variables (fdiv : C -> Z) (gdist : Z -> C -> D) (wt : list D -> T) (mul add : T -> T -> T) (z : T).
Variables (dims loc : list Z) (g w : Z).
Hypothesis Hm : comm_monoid add z.
Hypothesis Hg : grid_ok dims loc.
Hypothesis Hw : 1 <= w <= g.
Notation sizes := (ghosted g loc).
Notation n := (zprod dims).
Notation contrib := (contribution fdiv gdist w z mul wt).
Notation inblk := (node_in_block fdiv dims loc).

Lemma total_flat_ranks {A} (F : Z -> list A) (X : A -> T) (R : list Z) : total add z (map (fun r => total add z (map X (F r))) R) = total add z (map X (flat_map F R)).
Proof. induction R as [|r R IH]; [reflexivity|]. cbn [map flat_map]. rewrite map_app, total_app by auto. unfold total at 1. cbn [fold_right]. fold (total add z (map (fun r0 => total add z (map X (F r0))) R)). now rewrite IH. Qed.

Lemma nodes_perm address : Forall (fun r => 0 <= r < n) address -> Permutation (flat_map (nodes_of address) (zrange 0 n)) (zrange 0 (Z.of_nat (length address))).
Proof.
  intros Ha. apply NoDup_Permutation.
  - apply NoDup_flat_map; [apply zrange_NoDup|intros; apply nodes_of_NoDup|]. intros x y j _ _ H1 H2. apply nodes_of_In in H1 as [_ <-], H2 as [_ <-]. reflexivity.
  - apply zrange_NoDup.
  - intros j. rewrite in_flat_map, zrange_In. split.
    + intros (r & _ & H). apply nodes_of_In in H. lia.
    + intros Hj. exists (nth (Z.to_nat j) address (-1)). split; [|apply nodes_of_In; split; [lia|reflexivity]]. apply zrange_In.
      rewrite Forall_forall in Ha. specialize (Ha (nth (Z.to_nat j) address (-1))). assert (In (nth (Z.to_nat j) address (-1)) address) by (apply nth_In; lia). specialize (Ha H). lia.
Qed.

(** An in-support position is in the ghosted array of the node's rank. *)
Lemma support_here r pos P : inblk r pos -> length P = length loc -> in_support fdiv w P pos = true -> inbb sizes (lidx dims loc g r P) = true.
Proof.
  intros Hb HP HS. pose proof (block_pos_len _ _ _ _ _ Hb) as Hl. apply (in_support_box fdiv loc w P pos HP Hl) in HS as (o & Ho & ->).
  destruct (window_eq fdiv dims loc g w Hg Hw r pos Hb) as [_ Hin]. specialize (Hin o Ho). apply inbb_spec.
  assert (E : vadd o (lhome fdiv dims loc g r pos) = lidx dims loc g r (vadd o (home fdiv pos))).
  { pose proof (idx_len loc w o Ho). apply lidx_spec; auto; [|now apply lhome_ghost]. rewrite vadd_length; rewrite ?(lhome_length fdiv dims loc g Hg); auto; lia. }
  rewrite <- E. exact Hin.
Qed.

(** [lpos r]: positions of the local nodes. *)
Lemma spread_generic (lpos : Z -> list (list C)) comps lagf (bufs : list nat) (Z0 : (Z -> @lmemT T) -> Prop) (gs : nat -> Z -> list (@bop T)) (m : Z -> @lmemT T) (u : nat -> list Z -> T) :
  (forall f m, In f comps -> Z0 m -> exists m', runs_to n (gs f) m m' /\ sums add z dims loc g f m m' /\ Z0 m' /\ forall r x, fst x <> f -> ~ In (fst x) bufs -> m' r x = m r x) ->
  (forall m1 m2 : Z -> @lmemT T, (forall r x, In (fst x) bufs -> m1 r x = m2 r x) -> Z0 m1 -> Z0 m2) ->
  NoDup comps -> ~ In lagf comps -> ~ In lagf bufs -> (forall f, In f comps -> ~ In f bufs) -> Z0 m ->
  (forall r, 0 <= r < n -> Forall (inblk r) (lpos r)) ->
  (forall f r I, In f comps -> 0 <= r < n -> inner g loc I -> m r (f, ravel sizes I) = u f (ghost_pos dims loc g r I)) ->
  (forall f r I, In f comps -> 0 <= r < n -> inb sizes I -> ~ inner g loc I -> m r (f, ravel sizes I) = z) ->
  exists m', runs_to n (fun r => BLocal (run_lops (l2e_lops fdiv gdist wt mul add dims loc g w r comps lagf (lpos r))) :: flat_map (fun f => gs f r) comps) m m' /\
    (forall c f r I, 0 <= c -> nth_error comps (Z.to_nat c) = Some f -> 0 <= r < n -> inner g loc I ->
      m' r (f, ravel sizes I) = add (u f (ghost_pos dims loc g r I))
         (total add z (map (fun s => total add z (map (fun ip => contrib (snd ip) (m s (lagf, c * Z.of_nat (length (lpos s)) + fst ip)) (ghost_pos dims loc g r I)) (numbered (lpos s)))) (zrange 0 n)))) /\
    (forall f r I, In f comps -> 0 <= r < n -> inb sizes I -> ~ inner g loc I -> m' r (f, ravel sizes I) = z) /\ Z0 m' /\
    (forall r x, ~ In (fst x) comps -> ~ In (fst x) bufs -> m' r x = m r x).
Proof.
  intros Hgs HZ Hnc Hlc Hlb Hcb Hz Hb Hu H0.
  set (f1 := fun r => run_lops (l2e_lops fdiv gdist wt mul add dims loc g w r comps lagf (lpos r))).
  set (m1 := local_on n f1 m).
  assert (Hin : forall r, 0 <= r < n -> m1 r = f1 r (m r)). { intros r Hr. unfold m1, local_on. now rewrite (proj2 (andb_true_iff _ _)) by (rewrite Z.leb_le, Z.ltb_lt; lia). }
  assert (Hfr : forall r x, ~ In (fst x) comps -> m1 r x = m r x).
  { intros r x Hx. unfold m1, local_on. destruct ((0 <=? r) && (r <? n)) eqn:E; [|reflexivity]. apply andb_true_iff in E. rewrite Z.leb_le, Z.ltb_lt in E. unfold f1.
    apply (l2e_local fdiv gdist wt dims loc g w Hg Hw mul add z Hm r comps lagf (lpos r) (m r) Hnc Hlc (Hb r E)). exact Hx. }
  assert (Hz1 : Z0 m1). { eapply HZ; [|exact Hz]. intros r x Hx. symmetry. apply Hfr. intros Hc. now apply (Hcb _ Hc). }
  destruct (sums_seq add z dims loc g bufs Z0 gs comps Hgs Hnc Hcb m1 Hz1) as (m' & R & S & Z1 & F).
  exists m'. split; [|split; [|split; [|split]]]; auto.
  - eapply runs_to_ext; [|eapply runs_to_app; [apply (runs_to_local n f1 m)|exact R]]. reflexivity.
  - intros c f r I Hc0 Hc Hr HI. assert (Hf : In f comps) by (eapply nth_error_In; eauto). destruct (S f Hf) as [S1 _]. rewrite S1 by auto.
    set (P := ghost_pos dims loc g r I). assert (HlI : length I = length loc) by (apply in_box_length in HI; rewrite map_length in HI; lia).
    assert (HP : length P = length loc). { unfold P. rewrite gp_length; auto; [|apply Hg]. unfold global_size. rewrite vmul_length; destruct Hg; lia. }
    rewrite copies_total by auto. cbn [fst snd].
    set (K := fun s => total add z (map (fun ip => contrib (snd ip) (m s (lagf, c * Z.of_nat (length (lpos s)) + fst ip)) P) (numbered (lpos s)))).
    transitivity (total add z (map (fun s => add (if s =? r then u f P else z) (K s)) (zrange 0 n))).
    + f_equal. apply map_ext_in. intros s Hs. apply zrange_In in Hs. destruct (inbb sizes (lidx dims loc g s P)) eqn:E.
      * apply inbb_spec in E. rewrite Hin by lia. unfold f1. destruct (l2e_local fdiv gdist wt dims loc g w Hg Hw mul add z Hm s comps lagf (lpos s) (m s) Hnc Hlc (Hb s ltac:(lia))) as [L _].
        rewrite (L c f _ Hc0 Hc E). assert (EP : ghost_pos dims loc g s (lidx dims loc g s P) = P) by (apply lidx_spec; auto; now apply lidx_len). rewrite EP. fold (K s). f_equal.
        destruct (Z.eqb_spec s r) as [-> |Hsr].
        -- assert (lidx dims loc g r P = I) as -> by (symmetry; apply lidx_spec; auto). now apply Hu.
        -- apply (H0 f s _ Hf); auto. intros Hi. apply Hsr. apply (inner_unique dims loc g Hg s r (lidx dims loc g s P) I); auto; lia.
      * destruct (Z.eqb_spec s r) as [-> |Hsr].
        -- exfalso. assert (lidx dims loc g r P = I) as E2 by (symmetry; apply lidx_spec; auto). rewrite E2 in E. assert (inbb sizes I = true); [|congruence]. apply inbb_spec.
           apply sub_ok in HI as (x & Hx & ->). now apply lcell_inb; try lia.
        -- symmetry. rewrite (cm_comm _ _ Hm), (cm_zero _ _ Hm). unfold K. apply total_zeros; auto. intros [i pos] Hi. cbn [fst snd]. unfold contribution. destruct (in_support fdiv w P pos) eqn:ES; [|reflexivity].
           exfalso. rewrite (support_here s pos P) in E; auto; [discriminate|]. apply numbered_In in Hi as [_ Hi]. pose proof (Hb s ltac:(lia)) as Hbs. rewrite Forall_forall in Hbs. apply Hbs. eapply nth_error_In; eauto.
    + rewrite total_add by auto. f_equal. rewrite (total_one add z Hm _ _ r); [now rewrite Z.eqb_refl|apply zrange_NoDup|apply zrange_In; lia|]. intros y _ Hy. destruct (Z.eqb_spec y r); [contradiction|reflexivity].
  - intros f r I Hf. destruct (S f Hf) as [_ S2]. apply S2.
  - intros r x Hx Hx'. rewrite F by auto. now apply Hfr.
Qed.

(** The nodes of all ranks are the global nodes. *)
Lemma all_nodes (address : list Z) (X : Z -> T) (lpos : Z -> list (list C)) (posn : Z -> list C) (G : Z -> Z -> list C -> T) :
  Forall (fun r => 0 <= r < n) address -> (forall r, 0 <= r < n -> lpos r = map posn (nodes_of address r)) ->
  (forall r i j, 0 <= r < n -> ith_node address r i j -> G r i (posn j) = X j) ->
  total add z (map (fun s => total add z (map (fun ip => G s (fst ip) (snd ip)) (numbered (lpos s)))) (zrange 0 n)) = total add z (map X (zrange 0 (Z.of_nat (length address)))).
Proof.
  intros Ha Hl HX. rewrite <- (total_perm add z Hm _ _ (Permutation_map X (nodes_perm address Ha))). rewrite <- total_flat_ranks. f_equal. apply map_ext_in. intros s Hs. apply zrange_In in Hs. f_equal.
  rewrite Hl by lia. set (js := nodes_of address s).
  transitivity (map (fun ip : Z * Z => G s (fst ip) (posn (snd ip))) (numbered js)).
  - unfold numbered. rewrite map_length. generalize (zrange 0 (Z.of_nat (length js))). intros k. revert k. generalize js. clear. induction js as [|j js IH]; intros [|a k]; cbn; auto. f_equal. apply IH.
  - apply (numbered_map js (fun i j => G s i (posn j)) X). intros i j Hi Hj. apply HX; [lia|]. split; auto.
Qed.
End S.
