(** Proofs about interpolation and spreading. *)
From Coq Require Import QArith Qround FunctionalExtensionality.
From Verif Require Import Base SpecGrid SpecPenalise SpecGhost SpecGhostSum SpecStencil SpecIB SpecLag Cart CartFacts Comm Blocking Spmd SpecBlocking BlockFacts Ghost2D
  Stencil StencilProofs HaloProofs FieldProofs GhostSum GhostSumHops StageRun RunsTo EulLag LagProofs StepProofs SpecStep PenaliseProofs GhostSumThms.
Open Scope Z_scope.
Arguments run_lops : simpl never.
Arguments addr_eq : simpl never.

Lemma zip_app {A B C} (f : A -> B -> C) a a' b b' : length a = length b -> zip f (a ++ a') (b ++ b') = zip f a b ++ zip f a' b'.
Proof. revert b. induction a as [|x a IH]; intros [|y b] H; cbn in *; try discriminate; [reflexivity|]. f_equal. apply IH. lia. Qed.
Lemma zip_rev {A B C} (f : A -> B -> C) a b : length a = length b -> zip f (rev a) (rev b) = rev (zip f a b).
Proof.
  revert b. induction a as [|x a IH]; intros [|y b] H; cbn in *; try discriminate; [reflexivity|].
  rewrite zip_app by (rewrite !rev_length; lia). rewrite IH by lia. reflexivity.
Qed.
Lemma zip_with_zip {A B C} (f : A -> B -> C) a b : zip_with f a b = zip f a b.
Proof. revert b. induction a as [|x a IH]; intros [|y b]; cbn; auto; now rewrite IH. Qed.
Lemma zip_maps {X A B C} (f : A -> B -> C) (p : X -> A) (q : X -> B) l : zip f (map p l) (map q l) = map (fun x => f (p x) (q x)) l.
Proof. induction l; cbn; congruence. Qed.
Lemma zip_length {A B C} (f : A -> B -> C) a b : length a = length b -> length (zip f a b) = length a.
Proof. revert b. induction a as [|x a IH]; intros [|y b] H; cbn in *; try discriminate; auto. Qed.
Lemma vadd_zip a b : vadd a b = zip Z.add a b.
Proof. revert b. induction a as [|x a IH]; intros [|y b]; cbn; auto; now rewrite IH. Qed.
Lemma vadd_rev a b : length a = length b -> rev (vadd a b) = vadd (rev a) (rev b).
Proof. intros H. rewrite !vadd_zip. symmetry. now apply zip_rev. Qed.

Section G.
Context {C D : Type}.
Variables (fdiv : C -> Z) (gdist : Z -> C -> D) (dims loc : list Z) (g w : Z).
Hypothesis Hg : grid_ok dims loc.
Hypothesis Hw : 1 <= w <= g.

Notation home := (home fdiv).
(** local index (zyx) of the node's home cell *)
Definition lhome (r : Z) (pos : list C) : list Z := zip (fun h s => h - (s - g)) (home pos) (block_start dims loc r).

Lemma bs_length r : length (block_start dims loc r) = length loc.
Proof. destruct Hg. unfold block_start. rewrite vmul_length; rewrite unravel_length; lia. Qed.
Lemma home_length pos : length (home pos) = length pos.
Proof. unfold SpecIB.home. now rewrite map_length, rev_length. Qed.

Lemma sh_eq r : substart_shift dims loc g r = rev (map (fun s => s - g) (block_start dims loc r)).
Proof. unfold substart_shift, cart_coords. now rewrite map_rev. Qed.
Lemma rev_nearest r pos : length pos = length loc -> rev (nearest fdiv dims loc g r pos) = lhome r pos.
Proof.
  intros Hl. unfold nearest. rewrite sh_eq.
  rewrite <- (rev_involutive pos) at 1. rewrite zip_rev by (rewrite rev_length, map_length, bs_length; lia). rewrite rev_involutive.
  unfold lhome, SpecIB.home. generalize (rev pos), (block_start dims loc r). induction l as [|x l IH]; intros [|s ss]; cbn; auto; now rewrite IH.
Qed.

Lemma support_eq r pos o : length pos = length loc -> length o = length loc ->
  support fdiv gdist dims loc g r pos o = distances gdist (vadd o (home pos)) pos.
Proof.
  intros Hl Ho. unfold support, distances. change (@zip_with Z C D) with (@zip Z C D). f_equal.
  rewrite vadd_rev by (rewrite home_length; lia). unfold SpecIB.home. rewrite <- map_rev, rev_involutive.
  unfold nearest. assert (Hs : length (substart_shift dims loc g r) = length pos) by (rewrite sh_eq, rev_length, map_length, bs_length; lia).
  assert (Hr : length (rev o) = length pos) by (rewrite rev_length; lia). revert Hs Hr. generalize (substart_shift dims loc g r), (rev o). clear. induction pos as [|x pos IH]; intros [|s ss] [|k ks]; cbn; intros; try discriminate; auto.
  f_equal; [lia|]. apply IH; lia.
Qed.

Lemma points_eq pos : length pos = length loc -> support_points fdiv w pos = map (fun o => vadd o (home pos)) (support_idx loc w).
Proof.
  intros Hl. unfold support_points, support_idx.
  rewrite <- box_shift by (rewrite ?home_length, ?map_length; lia). f_equal.
  - rewrite <- home_length in Hl. revert Hl. generalize (home pos). clear. intros h. revert h. induction loc as [|n l IH]; intros [|x h]; cbn; intros; try discriminate; auto. f_equal; [lia|]. apply IH. lia.
  - revert Hl. clear. revert pos. induction loc as [|n l IH]; intros [|x p]; cbn; intros; try discriminate; auto. f_equal. apply IH. lia.
Qed.

Lemma idx_len o : In o (support_idx loc w) -> length o = length loc.
Proof.
  unfold support_idx. intros H. apply box_In in H; [|now rewrite !map_length]. apply in_box_length in H. rewrite map_length in H. lia.
Qed.

Lemma lhome_ghost r pos o : length pos = length loc -> length o = length loc ->
  ghost_pos dims loc g r (vadd o (lhome r pos)) = vadd o (home pos).
Proof.
  intros Hl Ho. unfold ghost_pos, lhome. pose proof (bs_length r) as Hb. rewrite <- home_length in Hl.
  revert Hb Hl Ho. generalize (block_start dims loc r), (home pos). clear. revert o. induction loc as [|n l IH]; intros [|k o] [|s ss] [|h hs]; cbn; intros; try discriminate; auto.
  f_equal; [lia|]. apply IH; lia.
Qed.
Lemma lhome_length r pos : length pos = length loc -> length (lhome r pos) = length loc.
Proof. intros. unfold lhome. rewrite zip_length; rewrite home_length; rewrite ?bs_length; lia. Qed.

Lemma block_pos_len r pos : node_in_block fdiv dims loc r pos -> length pos = length loc.
Proof. intros H. unfold node_in_block in H. apply in_box_length in H. rewrite home_length in H. lia. Qed.

(** The window is the shifted offset box and fits in the local array. *)
Lemma window_eq r pos : node_in_block fdiv dims loc r pos ->
  window_cells fdiv dims loc g w r pos = map (fun o => vadd o (lhome r pos)) (support_idx loc w) /\
  forall o, In o (support_idx loc w) -> inb (ghosted g loc) (vadd o (lhome r pos)).
Proof.
  intros H. pose proof (block_pos_len _ _ H) as Hl.
  assert (Hin : Forall2 (fun n x => g <= x < g + n) loc (lhome r pos)).
  { unfold lhome. unfold node_in_block in H. clear Hl. revert H. generalize (block_start dims loc r), (home pos). clear -Hw.
    intros ss hs H. induction H; cbn; constructor; auto. lia. }
  unfold window_cells, window, view_cells. rewrite rev_nearest by auto.
  assert (Hv : view_starts (ghosted g loc) (map (fun n => SBetween (n - w + 1) (n + w + 1)) (lhome r pos)) = vadd (map (fun _ => - w + 1) loc) (lhome r pos)
            /\ view_lens (ghosted g loc) (map (fun n => SBetween (n - w + 1) (n + w + 1)) (lhome r pos)) = map (fun _ => 2 * w) loc).
  { revert Hin. generalize (lhome r pos). clear -Hw. intros h Hin. unfold ghosted in *. induction Hin as [|n x l h Hx Hin [IH1 IH2]]; cbn; auto.
    rewrite IH1, IH2. cbn. unfold py_start. split; f_equal; repeat match goal with |- context [?a <? ?b] => destruct (Z.ltb_spec a b) end; lia. }
  destruct Hv as [-> ->]. unfold support_idx. split.
  - rewrite box_shift; [reflexivity|now rewrite !map_length|rewrite lhome_length, map_length; auto].
  - intros o Ho. apply box_In in Ho; [|now rewrite !map_length]. revert o Ho. clear -Hin Hw. induction Hin as [|n x l h Hx Hin IH]; intros o Ho; inversion Ho; subst; cbn; constructor; [lia|].
    apply IH. assumption.
Qed.

(** C29 *)
Lemma support_local r pos : node_in_block fdiv dims loc r pos ->
  length (window_cells fdiv dims loc g w r pos) = length (support_points fdiv w pos) /\
  forall k J P, nth_error (window_cells fdiv dims loc g w r pos) k = Some J -> nth_error (support_points fdiv w pos) k = Some P ->
    inb (ghosted g loc) J /\ ghost_pos dims loc g r J = P.
Proof.
  intros H. pose proof (block_pos_len _ _ H) as Hl. destruct (window_eq r pos H) as [E Hin]. rewrite E, points_eq by auto. rewrite !map_length. split; auto.
  intros k J P. rewrite !nth_error_map. destruct (nth_error (support_idx loc w) k) as [o|] eqn:Ho; cbn; [|discriminate]. intros [= <-] [= <-].
  apply nth_error_In in Ho. split; auto. apply lhome_ghost; auto. now apply idx_len.
Qed.
End G.

(** ** Runs of local operations *)
Section Runs.
Context {T : Type}.
Notation lmem := (@lmemT T).

(** Operations writing distinct places and reading only places none of them writes. *)
Lemma run_indep (us : list (@lop T)) (m : lmem) u :
  NoDup (map la us) ->
  (forall v m1 m2, In v us -> (forall a, ~ In a (map la us) -> m1 a = m2 a) -> lf v m1 = lf v m2) ->
  In u us -> run_lops us m (la u) = lf u m.
Proof.
  intros Hn Hs. assert (G : forall vs m', incl vs us -> NoDup (map la vs) -> (forall a, ~ In a (map la us) -> m' a = m a) -> In u vs -> run_lops vs m' (la u) = lf u m).
  { induction vs as [|v vs IH]; intros m' Hi Hnv Hm Hu; [destruct Hu|]. inversion Hnv as [|? ? Hv Hnv']; subst. rewrite run_cons.
    destruct Hu as [-> |Hu].
    - rewrite run_other.
      + unfold lop1. destruct (addr_eq _ _); [|congruence]. apply Hs; [apply Hi; now left|exact Hm].
      + intros x Hx E. apply Hv. rewrite <- E. now apply in_map.
    - apply IH; auto.
      + intros x Hx. apply Hi. now right.
      + intros a Ha. unfold lop1. destruct (addr_eq _ _) as [-> |]; [|now apply Hm]. exfalso. apply Ha. apply in_map. apply Hi. now left. }
  intros Hu. apply G; auto. apply incl_refl.
Qed.

Variables (add : T -> T -> T) (z : T).
Hypothesis Hm : comm_monoid add z.

(** Accumulating operations a += v, v reading only the array lagf. *)
Definition aop (p : addr * (lmem -> T)) : @lop T := {| la := fst p; lf := fun m => add (m (fst p)) (snd p m) |}.
Definition here (a : addr) (p : addr * (lmem -> T)) : bool := if addr_eq (fst p) a then true else false.

Lemma run_acc (lagf : nat) (L : list (addr * (lmem -> T))) : forall m a,
  (forall p, In p L -> fst (fst p) <> lagf) ->
  (forall p m1 m2, In p L -> (forall x, fst x = lagf -> m1 x = m2 x) -> snd p m1 = snd p m2) ->
  run_lops (map aop L) m a = add (m a) (total add z (map (fun p => snd p m) (filter (here a) L))).
Proof.
  induction L as [|p L IH]; intros m a H1 H2.
  - cbn. unfold total. cbn. now rewrite (cm_zero _ _ Hm).
  - change (map aop (p :: L)) with (aop p :: map aop L). rewrite run_cons, IH; [|intros; apply H1; now right|intros; apply H2; auto; now right].
    assert (E : map (fun p0 => snd p0 (lop1 m (aop p))) (filter (here a) L) = map (fun p0 => snd p0 m) (filter (here a) L)).
    { apply map_ext_in. intros q Hq. apply filter_In in Hq as [Hq _]. apply H2; [now right|]. intros x Hx. unfold lop1. destruct (addr_eq _ _) as [-> |]; [|reflexivity].
      exfalso. revert Hx. cbn. apply H1. now left. }
    rewrite E. cbn [filter]. unfold here at 2. unfold lop1, aop. cbn [la lf]. destruct (addr_eq a (fst p)) as [-> |Ha].
    + destruct (addr_eq _ _); [|congruence]. cbn [map]. unfold total. cbn [fold_right]. now rewrite <- (cm_assoc _ _ Hm).
    + destruct (addr_eq (fst p) a); [congruence|]. reflexivity.
Qed.

Lemma filter_flat {A B} (h : B -> bool) (F : A -> list B) L : filter h (flat_map F L) = flat_map (fun x => filter h (F x)) L.
Proof. induction L; cbn; [auto|]. now rewrite filter_app, IHL. Qed.
Lemma filter_map' {A B} (h : B -> bool) (F : A -> B) L : filter h (map F L) = map F (filter (fun x => h (F x)) L).
Proof. induction L; cbn; [auto|]. destruct (h (F a)); cbn; now rewrite IHL. Qed.
Lemma total_zeros {A} (F : A -> T) L : (forall x, In x L -> F x = z) -> total add z (map F L) = z.
Proof.
  induction L as [|a L IH]; intros H; [reflexivity|]. unfold total in *. cbn [map fold_right]. rewrite H by now left. rewrite IH; [apply (cm_zero _ _ Hm)|]. intros; apply H; now right.
Qed.
Lemma total_one {A} (F : A -> T) L x : NoDup L -> In x L -> (forall y, In y L -> y <> x -> F y = z) -> total add z (map F L) = F x.
Proof.
  induction L as [|a L IH]; intros Hn Hx H; [destruct Hx|]. inversion Hn as [|? ? Ha Hn']; subst. unfold total. cbn [map fold_right]. fold (total add z (map F L)).
  destruct Hx as [-> |Hx].
  - rewrite total_zeros; [apply (cm_zero _ _ Hm)|]. intros y Hy. apply H; [now right|]. congruence.
  - rewrite (H a); [|now left|congruence]. rewrite IH; auto; [|intros; apply H; auto; now right]. rewrite (cm_comm _ _ Hm). apply (cm_zero _ _ Hm).
Qed.
Lemma total_add {A} (F G : A -> T) L : total add z (map (fun x => add (F x) (G x)) L) = add (total add z (map F L)) (total add z (map G L)).
Proof.
  induction L as [|a L IH]; unfold total in *; cbn [map fold_right]; [symmetry; apply (cm_zero _ _ Hm)|]. rewrite IH.
  rewrite !(cm_assoc _ _ Hm). f_equal. rewrite <- !(cm_assoc _ _ Hm). f_equal. apply (cm_comm _ _ Hm).
Qed.
End Runs.

Lemma numbered_map {A B} (l : list A) (F : Z -> A -> B) (G : A -> B) :
  (forall i a, 0 <= i -> nth_error l (Z.to_nat i) = Some a -> F i a = G a) ->
  map (fun ip => F (fst ip) (snd ip)) (numbered l) = map G l.
Proof.
  unfold numbered. intros H.
  assert (E : forall l s F, (forall i a, s <= i -> nth_error l (Z.to_nat (i - s)) = Some a -> F i a = G a) ->
     map (fun ip => F (fst ip) (snd ip)) (combine (zrange s (Z.of_nat (length l))) l) = map G l).
  { clear. induction l as [|x l IH]; intros s F H; [reflexivity|].
    replace (Z.of_nat (length (x :: l))) with (Z.of_nat (length l) + 1) by (cbn [length]; lia). rewrite zrange_succ by lia. cbn [combine map fst snd]. f_equal.
    - apply H; [lia|]. now rewrite Z.sub_diag.
    - apply IH. intros i a Hi Ha. apply H; [lia|]. replace (Z.to_nat (i - s)) with (S (Z.to_nat (i - (s + 1)))) by lia. exact Ha. }
  apply E. intros i a Hi Ha. apply H; [lia|]. now rewrite Z.sub_0_r in Ha.
Qed.
Lemma numbered_In {A} (l : list A) i a : In (i, a) (numbered l) <-> 0 <= i /\ nth_error l (Z.to_nat i) = Some a.
Proof.
  unfold numbered. assert (E : forall l s, In (i, a) (combine (zrange s (Z.of_nat (length l))) l) <-> s <= i /\ nth_error l (Z.to_nat (i - s)) = Some a).
  { clear. induction l as [|x l IH]; intros s.
    - cbn. split; [tauto|]. intros [_ H]. now destruct (Z.to_nat (i - s)).
    - replace (Z.of_nat (length (x :: l))) with (Z.of_nat (length l) + 1) by (cbn [length]; lia). rewrite zrange_succ by lia. cbn [combine In]. rewrite IH. split.
      + intros [[= <- <-]|[H1 H2]]; [rewrite Z.sub_diag; cbn; split; [lia|reflexivity]|]. split; [lia|]. replace (Z.to_nat (i - s)) with (S (Z.to_nat (i - (s + 1)))) by lia. exact H2.
      + intros [H1 H2]. destruct (Z.eq_dec i s) as [-> |Hn]; [rewrite Z.sub_diag in H2; cbn in H2; left; congruence|]. right. split; [lia|].
        replace (Z.to_nat (i - s)) with (S (Z.to_nat (i - (s + 1)))) in H2 by lia. exact H2. }
  rewrite E. now rewrite Z.sub_0_r.
Qed.
Lemma numbered_NoDup {A} (l : list A) : NoDup (map fst (numbered l)).
Proof.
  unfold numbered. assert (E : forall (k : list Z) (l : list A), map fst (combine k l) = firstn (length l) k).
  { clear. induction k as [|a k IH]; intros [|x l]; cbn; auto. now rewrite IH. }
  rewrite E. rewrite firstn_all2; [apply zrange_NoDup|]. rewrite zrange_length. lia.
Qed.
