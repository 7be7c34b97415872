(** Interpolation and spreading: main lemmas. *)
From Coq Require Import QArith Qround FunctionalExtensionality.
From Verif Require Import Base SpecGrid SpecPenalise SpecGhost SpecGhostSum SpecStencil SpecIB SpecLag Cart CartFacts Comm Blocking Spmd SpecBlocking BlockFacts Ghost2D
  Stencil StencilProofs HaloProofs FieldProofs KernelList GhostSum GhostSumHops StageRun RunsTo EulLag LagProofs StepProofs SpecStep PenaliseProofs GhostSumThms EulLagProofs.
Open Scope Z_scope.
Arguments run_lops : simpl never.
Arguments addr_eq : simpl never.

Section G.
Context {C D T : Type}.
Variables (fdiv : C -> Z) (gdist : Z -> C -> D) (wt : list D -> T) (dims loc : list Z) (g w : Z).
Hypothesis Hg : grid_ok dims loc.
Hypothesis Hw : 1 <= w <= g.
Notation sizes := (ghosted g loc).
Notation inblk := (node_in_block fdiv dims loc).

Section E2L.
Variables (scale : T -> T) (sum : list T -> T) (mul : T -> T -> T).
Notation e2l := (e2l_lops fdiv gdist wt scale sum mul dims loc g w).

Lemma e2l_la r comps lagf nodes v : In v (e2l r comps lagf nodes) -> exists c f i pos,
  In (i, pos) (numbered nodes) /\ In (c, f) (numbered comps) /\ la v = (lagf, c * Z.of_nat (length nodes) + i) /\
  lf v = fun m => scale (sum (zip mul (map (fun I => m (f, ravel sizes I)) (window_cells fdiv dims loc g w r pos)) (weights fdiv gdist wt dims loc g w r pos))).
Proof.
  unfold e2l_lops. rewrite in_flat_map. intros ([i pos] & H1 & H2). apply in_map_iff in H2 as ([c f] & <- & H2). exists c, f, i, pos. cbn. auto.
Qed.
Lemma numbered_lt {A} (l : list A) i a : In (i, a) (numbered l) -> 0 <= i < Z.of_nat (length l).
Proof. intros H. apply numbered_In in H as [H1 H2]. assert (H3 : (Z.to_nat i < length l)%nat) by (apply nth_error_Some; congruence). lia. Qed.
Lemma numbered_fun {A} (l : list A) i a b : In (i, a) (numbered l) -> In (i, b) (numbered l) -> a = b.
Proof. rewrite !numbered_In. intros [_ H] [_ H']. congruence. Qed.

Lemma NoDup_map_fst_inj {A B} (l : list (A * B)) : NoDup (map fst l) -> NoDup l.
Proof. apply NoDup_map_inv. Qed.
Lemma NoDup_map_on {A B} (f : A -> B) l : (forall x y, In x l -> In y l -> f x = f y -> x = y) -> NoDup l -> NoDup (map f l).
Proof.
  intros Hf Hn. induction Hn as [|a l Ha Hn IH]; cbn; constructor.
  - intros H. apply in_map_iff in H as (x & E & Hx). assert (x = a) by (apply Hf; auto; [now right|now left]). subst. contradiction.
  - apply IH. intros x y Hx Hy. apply Hf; now right.
Qed.

Lemma e2l_NoDup r comps lagf nodes : NoDup (map la (e2l r comps lagf nodes)).
Proof.
  unfold e2l_lops. rewrite map_flat_map'. apply NoDup_flat_map.
  - apply NoDup_map_fst_inj, numbered_NoDup.
  - intros [i pos] Hi. rewrite map_map. apply NoDup_map_on; [|apply NoDup_map_fst_inj, numbered_NoDup].
    intros [c f] [c' f'] Hc Hc'. cbn. intros [= E]. pose proof (numbered_lt _ _ _ Hi). assert (c = c') by nia. subst. now rewrite (numbered_fun _ _ _ _ Hc Hc').
  - intros [i pos] [i' pos'] a Hi Hi' Ha Ha'. rewrite map_map in Ha, Ha'. apply in_map_iff in Ha as ([c f] & <- & Hc), Ha' as ([c' f'] & E & Hc'). cbn in E. injection E as E.
    pose proof (numbered_lt _ _ _ Hi). pose proof (numbered_lt _ _ _ Hi').
    assert (i = i'). { assert (c = c') by nia. lia. } subst. now rewrite (numbered_fun _ _ _ _ Hi Hi').
Qed.

Lemma e2l_frame r comps lagf nodes (lm : @lmemT T) a : fst a <> lagf -> run_lops (e2l r comps lagf nodes) lm a = lm a.
Proof. intros H. apply run_other. intros v Hv E. apply e2l_la in Hv as (c & f & i & p & _ & _ & E2 & _). rewrite E2 in E. subst. now apply H. Qed.

Lemma e2l_correct r comps lagf nodes (lm : @lmemT T) (u : list Z -> T) c f i pos :
  ~ In lagf comps -> 0 <= c -> nth_error comps (Z.to_nat c) = Some f -> 0 <= i -> nth_error nodes (Z.to_nat i) = Some pos -> inblk r pos ->
  (forall J, inb sizes J -> In (ghost_pos dims loc g r J) (support_points fdiv w pos) -> lm (f, ravel sizes J) = u (ghost_pos dims loc g r J)) ->
  run_lops (e2l r comps lagf nodes) lm (lagf, c * Z.of_nat (length nodes) + i) = interpolated fdiv gdist w scale sum mul wt u pos.
Proof.
  intros Hlag H0 Hc H1 Hi Hb Hu.
  set (v := {| la := (lagf, c * Z.of_nat (length nodes) + i);
               lf := fun m : @lmemT T => scale (sum (zip mul (map (fun I => m (f, ravel sizes I)) (window_cells fdiv dims loc g w r pos)) (weights fdiv gdist wt dims loc g w r pos))) |}).
  change (lagf, c * Z.of_nat (length nodes) + i) with (la v). rewrite run_indep.
  - cbn [lf v]. unfold interpolated. do 2 f_equal. pose proof (block_pos_len _ _ _ _ _ Hb) as Hl.
    destruct (window_eq fdiv dims loc g w Hg Hw r pos Hb) as [E Hin]. rewrite E. unfold weights. rewrite map_map, zip_maps.
    rewrite (points_eq fdiv loc w pos Hl). rewrite map_map. apply map_ext_in. intros o Ho. pose proof (idx_len loc w o Ho) as Hlo.
    rewrite (support_eq fdiv gdist dims loc g Hg) by auto. f_equal. rewrite Hu; [|now apply Hin|].
    + now rewrite (lhome_ghost fdiv dims loc g Hg) by auto.
    + rewrite (lhome_ghost fdiv dims loc g Hg) by auto. rewrite (points_eq fdiv loc w pos Hl). now apply (in_map (fun o => vadd o (home fdiv pos))).
  - apply e2l_NoDup.
  - intros x m1 m2 Hx Hm. apply e2l_la in Hx as (c' & f' & i' & p' & _ & Hc' & _ & ->). do 3 f_equal. apply map_ext_in. intros I _. apply Hm.
    intros Ha. apply in_map_iff in Ha as (y & E & Hy). apply e2l_la in Hy as (? & ? & ? & ? & _ & _ & E2 & _). rewrite E2 in E. injection E as E _. apply Hlag. rewrite E.
    apply numbered_In in Hc' as [_ Hc']. eapply nth_error_In; eauto.
  - unfold e2l_lops. apply in_flat_map. exists (i, pos). split; [now apply numbered_In|]. apply in_map_iff. exists (c, f). split; [reflexivity|]. now apply numbered_In.
Qed.
End E2L.

Section L2E.
Variables (mul add : T -> T -> T) (z : T).
Hypothesis Hm : comm_monoid add z.
Notation l2e := (l2e_lops fdiv gdist wt mul add dims loc g w).
Notation contrib := (contribution fdiv gdist w z mul wt).

(** The l2e operations as accumulations. *)
Definition l2e_acc (r : Z) (comps : list nat) (lagf : nat) (nodes : list (list C)) : list (addr * (@lmemT T -> T)) :=
  flat_map (fun ip : Z * list C => flat_map (fun cf : Z * nat =>
     zip (fun I wk => ((snd cf, ravel sizes I), fun m : @lmemT T => mul (m (lagf, fst cf * Z.of_nat (length nodes) + fst ip)) wk))
      (window_cells fdiv dims loc g w r (snd ip)) (weights fdiv gdist wt dims loc g w r (snd ip))) (numbered comps)) (numbered nodes).
Lemma map_zip {A B X Y} (h : X -> Y) (f : A -> B -> X) a b : map h (zip f a b) = zip (fun x y => h (f x y)) a b.
Proof. revert b. induction a as [|x a IH]; intros [|y b]; cbn; auto; now rewrite IH. Qed.
Lemma l2e_is_acc r comps lagf nodes : l2e r comps lagf nodes = map (aop add) (l2e_acc r comps lagf nodes).
Proof.
  unfold l2e_lops, l2e_acc. rewrite map_flat_map'. apply flat_map_ext'. intros [i pos] _. rewrite map_flat_map'. apply flat_map_ext'. intros [c f] _. cbn [fst snd]. now rewrite map_zip.
Qed.
Lemma zip_In {A B X} (f : A -> B -> X) a b x : In x (zip f a b) -> exists p q, In p a /\ In q b /\ x = f p q.
Proof.
  revert b. induction a as [|y a IH]; intros [|y' b]; cbn; try tauto. intros [<-|H]; [exists y, y'; auto|]. apply IH in H as (p & q & H1 & H2 & H3). exists p, q. auto.
Qed.
Lemma acc_In r comps lagf nodes p : In p (l2e_acc r comps lagf nodes) -> exists c f k wk I, In (c, f) (numbered comps) /\ p = ((f, ravel sizes I), fun m : @lmemT T => mul (m (lagf, k)) wk).
Proof.
  unfold l2e_acc. rewrite in_flat_map. intros ([i pos] & _ & H). apply in_flat_map in H as ([c f] & Hc & H). apply zip_In in H as (I & wk & _ & _ & ->). cbn [fst snd]. exists c, f. do 3 eexists. split; [exact Hc|reflexivity].
Qed.

Lemma in_support_box P pos : length P = length loc -> length pos = length loc ->
  (in_support fdiv w P pos = true <-> exists o, In o (support_idx loc w) /\ P = vadd o (home fdiv pos)).
Proof.
  intros HP Hl. unfold in_support, support_idx. rewrite <- (home_length fdiv) in Hl. revert HP Hl. generalize (home fdiv pos). clear. intros h. revert P h.
  induction loc as [|n l IH]; intros [|p P] [|x h] HP Hl; cbn in *; try discriminate.
  - split; [exists []; split; [now left|reflexivity]|auto].
  - rewrite andb_true_iff, (IH P h) by lia. rewrite andb_true_iff, Z.ltb_lt, Z.leb_le. split.
    + intros [Hx (o & Ho & ->)]. exists ((p - x) :: o). split; [|cbn; f_equal; lia]. apply in_flat_map. exists (p - x). split; [apply zrange_In; lia|]. now apply in_map.
    + intros (o & Ho & E). apply in_flat_map in Ho as (k & Hk & Ho). apply in_map_iff in Ho as (o' & <- & Ho). apply zrange_In in Hk. cbn in E. injection E as E1 E2. split; [lia|]. exists o'. auto.
Qed.

Lemma node_total r pos (X : T) J : inblk r pos -> inb sizes J ->
  total add z (map (fun o => if list_eq_dec Z.eq_dec (vadd o (lhome fdiv dims loc g r pos)) J then mul X (wt (distances gdist (vadd o (home fdiv pos)) pos)) else z) (support_idx loc w))
  = contrib pos X (ghost_pos dims loc g r J).
Proof.
  intros Hb HJ. pose proof (block_pos_len _ _ _ _ _ Hb) as Hl. pose proof (inb_length _ _ HJ) as HlJ. unfold ghosted in HlJ. rewrite map_length in HlJ. unfold contribution.
  assert (HlP : length (ghost_pos dims loc g r J) = length loc). { rewrite gp_length; auto; [|apply Hg]. unfold global_size. rewrite vmul_length; destruct Hg; lia. }
  pose proof (in_support_box (ghost_pos dims loc g r J) pos HlP Hl) as HS.
  destruct (in_support fdiv w (ghost_pos dims loc g r J) pos) eqn:E.
  - destruct (proj1 HS eq_refl) as (o & Ho & EP). pose proof (idx_len loc w o Ho) as Hlo.
    assert (Ho' : vadd o (lhome fdiv dims loc g r pos) = J).
    { rewrite <- (lhome_ghost fdiv dims loc g Hg r pos o Hl Hlo) in EP. unfold ghost_pos in EP. pose proof (lhome_length fdiv dims loc g Hg r pos Hl) as HL.
      assert (HV : length (vadd o (lhome fdiv dims loc g r pos)) = length loc) by (rewrite vadd_length; lia).
      rewrite (vadd_comm (block_start dims loc r) (map _ J)), (vadd_comm (block_start dims loc r) (map _ (vadd _ _))) in EP by (rewrite map_length, (bs_length dims loc Hg); lia).
      apply vadd_inj in EP; [|rewrite map_length, (bs_length dims loc Hg); lia|rewrite map_length, (bs_length dims loc Hg); lia].
      symmetry. apply (map_add_inj (- g)). rewrite (map_ext (fun i => i + - g) (fun i => i - g)) by (intros; lia). exact EP. }
    rewrite (total_one add z Hm _ _ o).
    + destruct (list_eq_dec _ _ _); [|contradiction]. now rewrite EP.
    + apply box_NoDup.
    + exact Ho.
    + intros y Hy Hne. destruct (list_eq_dec _ _ _) as [Ey|]; [|reflexivity]. exfalso. apply Hne. rewrite <- Ho' in Ey.
      apply vadd_inj in Ey; auto; rewrite (lhome_length fdiv dims loc g Hg) by auto; auto. now apply idx_len with w.
  - apply total_zeros; auto. intros o Ho. destruct (list_eq_dec _ _ _) as [Ey|]; [|reflexivity]. exfalso. pose proof (idx_len loc w o Ho) as Hlo.
    assert (false = true); [|discriminate]. apply HS. exists o. split; auto. rewrite <- Ey. now apply lhome_ghost.
Qed.

Lemma acc_total r comps lagf nodes (m : @lmemT T) c f J : NoDup comps -> 0 <= c -> nth_error comps (Z.to_nat c) = Some f -> Forall (inblk r) nodes -> inb sizes J ->
  total add z (map (fun p => snd p m) (filter (here (f, ravel sizes J)) (l2e_acc r comps lagf nodes))) =
  total add z (map (fun ip => contrib (snd ip) (m (lagf, c * Z.of_nat (length nodes) + fst ip)) (ghost_pos dims loc g r J)) (numbered nodes)).
Proof.
  intros Hnc H0 Hc Hb HJ. unfold l2e_acc. rewrite filter_flat, map_flat_map', total_flat by auto. f_equal. apply map_ext_in. intros [i pos] Hi. cbn [fst snd].
  assert (Hbp : inblk r pos). { apply numbered_In in Hi as [_ Hi]. eapply Forall_forall; [exact Hb|]. eapply nth_error_In; eauto. }
  pose proof (block_pos_len _ _ _ _ _ Hbp) as Hl. destruct (window_eq fdiv dims loc g w Hg Hw r pos Hbp) as [E Hin].
  rewrite filter_flat, map_flat_map', total_flat by auto.
  rewrite (total_one add z Hm _ _ (c, f)).
  - cbn [fst snd]. rewrite E. unfold weights. rewrite zip_maps, filter_map', map_map. cbn [snd].
    rewrite <- (node_total r pos _ J Hbp HJ). clear Hi.
    assert (G : forall L, incl L (support_idx loc w) -> total add z (map (fun x => mul (m (lagf, c * Z.of_nat (length nodes) + i)) (wt (support fdiv gdist dims loc g r pos x)))
         (filter (fun x => here (f, ravel sizes J) ((f, ravel sizes (vadd x (lhome fdiv dims loc g r pos))), fun m0 : @lmemT T => mul (m0 (lagf, c * Z.of_nat (length nodes) + i)) (wt (support fdiv gdist dims loc g r pos x)))) L)) =
       total add z (map (fun o => if list_eq_dec Z.eq_dec (vadd o (lhome fdiv dims loc g r pos)) J then mul (m (lagf, c * Z.of_nat (length nodes) + i)) (wt (distances gdist (vadd o (home fdiv pos)) pos)) else z) L)).
    { induction L as [|o L IH]; intros HL; [reflexivity|]. cbn [filter]. assert (Ho : In o (support_idx loc w)) by (apply HL; now left).
      specialize (IH (fun x Hx => HL x (or_intror Hx))). unfold here at 1. cbn [fst]. 
      destruct (addr_eq _ _) as [Ea|Ea]; destruct (list_eq_dec Z.eq_dec (vadd o (lhome fdiv dims loc g r pos)) J) as [Ej|Ej].
      - cbn [map]. unfold total in *. cbn [fold_right]. rewrite IH. destruct (list_eq_dec _ _ _); [|contradiction]. f_equal. rewrite (support_eq fdiv gdist dims loc g Hg) by (auto; now apply idx_len with w). reflexivity.
      - exfalso. apply Ej. injection Ea as Ea. apply (ravel_inj sizes); auto.
      - exfalso. apply Ea. now rewrite Ej.
      - cbn [map]. unfold total in *. cbn [fold_right]. rewrite IH. destruct (list_eq_dec _ _ _); [contradiction|]. rewrite (cm_comm _ _ Hm), (cm_zero _ _ Hm). reflexivity. }
    apply G. apply incl_refl.
  - apply NoDup_map_fst_inj, numbered_NoDup.
  - now apply numbered_In.
  - intros [c' f'] Hc' Hne. cbn [fst snd]. assert (Hf : f' <> f).
    { intros ->. apply Hne. apply numbered_In in Hc' as [H1 H2]. f_equal. assert (Z.to_nat c' = Z.to_nat c); [|lia]. eapply NoDup_nth_error; eauto; [|congruence]. apply nth_error_Some. congruence. }
    match goal with |- total _ _ (map _ (filter ?h ?L)) = _ => replace (filter h L) with (@nil (addr * (@lmemT T -> T))) end; [reflexivity|].
    symmetry. match goal with |- filter ?h ?L = _ => assert (Hh : forall x, In x L -> h x = false) end.
    { intros x Hx. apply zip_In in Hx as (I & wk & _ & _ & ->). unfold here. cbn [fst]. destruct (addr_eq _ _) as [Ea|]; [|reflexivity]. exfalso. injection Ea as Ea _. contradiction. }
    revert Hh. match goal with |- (forall x, In x ?L -> _) -> _ => generalize L end. intros L. induction L as [|x L IH]; intros Hh; [reflexivity|]. cbn [filter]. rewrite Hh by now left. apply IH. intros; apply Hh; now right.
Qed.

(** The local spreading kernel. *)
Lemma l2e_local r comps lagf nodes (m : @lmemT T) : NoDup comps -> ~ In lagf comps -> Forall (inblk r) nodes ->
  (forall c f J, 0 <= c -> nth_error comps (Z.to_nat c) = Some f -> inb sizes J ->
    run_lops (l2e r comps lagf nodes) m (f, ravel sizes J) =
    add (m (f, ravel sizes J)) (total add z (map (fun ip => contrib (snd ip) (m (lagf, c * Z.of_nat (length nodes) + fst ip)) (ghost_pos dims loc g r J)) (numbered nodes)))) /\
  (forall a, ~ In (fst a) comps -> run_lops (l2e r comps lagf nodes) m a = m a).
Proof.
  intros Hnc Hlag Hb. rewrite l2e_is_acc. split.
  - intros c f J H0 Hc HJ. rewrite (run_acc add z Hm lagf).
    + f_equal. now apply acc_total.
    + intros p Hp. apply acc_In in Hp as (c' & f' & k & wk & I & Hc' & ->). cbn [fst]. intros ->. apply Hlag. apply numbered_In in Hc' as [_ Hc']. eapply nth_error_In; eauto.
    + intros p m1 m2 Hp Hx. apply acc_In in Hp as (c' & f' & k & wk & I & Hc' & ->). cbn [snd]. now rewrite Hx.
  - intros a Ha. apply run_other. intros v Hv E. apply in_map_iff in Hv as (p & <- & Hp). apply acc_In in Hp as (c' & f' & k & wk & I & Hc' & ->). cbn in E. subst a. apply Ha. cbn.
    apply numbered_In in Hc' as [_ Hc']. eapply nth_error_In; eauto.
Qed.
End L2E.
End G.
