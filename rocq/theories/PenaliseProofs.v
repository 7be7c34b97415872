(** Proofs about the boundary penalisation. *)
From Coq Require Import FunctionalExtensionality.
From Verif Require Import Base SpecGrid SpecGhost SpecStencil SpecStep SpecPenalise Ghost2D Cart CartFacts Comm Spmd GhostGeo GhostProofs FieldProofs Stencil StencilProofs HaloProofs HaloKernels HaloThms KernelList KernelProofs StepProofs StepHistory PyNum Penalise.
Arguments run_lops : simpl never.
Arguments addr_eq : simpl never.
Arguments place_dec : simpl never.

(** ** setn *)
Lemma setn_len P a v : length (setn P a v) = length P.
Proof. revert a. induction P; intros [|a']; simpl; auto. Qed.
Lemma nth_setn_eq P a v d : (a < length P)%nat -> nth a (setn P a v) d = v.
Proof. revert a. induction P; intros [|a'] H; simpl in *; auto; try lia. apply IHP. lia. Qed.
Lemma nth_setn_neq P a b v d : a <> b -> nth b (setn P a v) d = nth b P d.
Proof. revert a b. induction P; intros [|a'] [|b'] H; simpl; auto; congruence. Qed.
Lemma setn_setn P a v v' : setn (setn P a v) a v' = setn P a v'.
Proof. revert a. induction P; intros [|a']; simpl; auto. now rewrite IHP. Qed.
Lemma setn_same P a : setn P a (nth a P 0) = P.
Proof. revert a. induction P; intros [|a']; simpl; auto. now rewrite IHP. Qed.
Lemma setn_inb N P a v : inb N P -> 0 <= v < nth a N 0 -> inb N (setn P a v).
Proof.
  intros H. revert a. induction H; intros [|a] Hv; simpl in *; try lia; constructor; auto.
Qed.

(** ** Cell updates *)
Section Run.
Context {T : Type}.
Variables (sizes : list Z) (fld : nat).
Implicit Types (m : @lmemT T).

Lemma run_gather (S : list Z -> list Z) L : forall m J,
  (forall I, In I L -> inb sizes I /\ inb sizes (S I) /\ S (S I) = S I) -> inb sizes J ->
  run_lops (map (fun I => {| la := (fld, ravel sizes I); lf := fun m : lmemT => m (fld, ravel sizes (S I)) |}) L) m (fld, ravel sizes J) =
  if in_dec ldec J L then m (fld, ravel sizes (S J)) else m (fld, ravel sizes J).
Proof.
  induction L as [|I L IH]; intros m J HL HJ; [reflexivity|]. cbn [map].
  change (run_lops (?u :: ?us) m) with (run_lops us (lop1 m u)). rewrite IH by (auto; intros; apply HL; now right).
  destruct (HL I (or_introl eq_refl)) as (HI & HSI & HS).
  assert (R : forall X, inb sizes X -> lop1 m {| la := (fld, ravel sizes I); lf := fun m : lmemT => m (fld, ravel sizes (S I)) |} (fld, ravel sizes X) =
     if ldec X I then m (fld, ravel sizes (S I)) else m (fld, ravel sizes X)).
  { intros X HX. unfold lop1. cbn [la lf]. destruct (addr_eq _ _) as [E|E], (ldec X I) as [E'|E']; subst; auto; try congruence.
    exfalso. apply E'. apply (f_equal snd) in E. simpl in E. now apply ravel_inj in E. }
  destruct (in_dec ldec J L) as [Hin|Hin].
  - destruct (HL J (or_intror Hin)) as (_ & HSJ & HSS). rewrite R by auto.
    destruct (in_dec ldec J (I :: L)) as [_|Hn]; [|exfalso; apply Hn; now right].
    destruct (ldec (S J) I) as [E|E]; auto. rewrite <- E, HSS. reflexivity.
  - rewrite R by auto. destruct (ldec J I) as [->|Hne]; destruct (in_dec ldec _ (_ :: L)) as [Hi|Hi]; auto.
    + exfalso. apply Hi. now left.
    + exfalso. destruct Hi as [E|Hi]; congruence.
Qed.

Lemma run_map_own (h : list Z -> T -> T) L : forall m J, NoDup L -> (forall I, In I L -> inb sizes I) -> inb sizes J ->
  run_lops (map (fun I => {| la := (fld, ravel sizes I); lf := fun m : lmemT => h I (m (fld, ravel sizes I)) |}) L) m (fld, ravel sizes J) =
  if in_dec ldec J L then h J (m (fld, ravel sizes J)) else m (fld, ravel sizes J).
Proof.
  induction L as [|I L IH]; intros m J Hn HL HJ; [reflexivity|]. inversion Hn as [|? ? Hni Hn']; subst. cbn [map].
  change (run_lops (?u :: ?us) m) with (run_lops us (lop1 m u)). rewrite IH by (auto; intros; apply HL; now right).
  assert (HI := HL I (or_introl eq_refl)).
  assert (R : lop1 m {| la := (fld, ravel sizes I); lf := fun m : lmemT => h I (m (fld, ravel sizes I)) |} (fld, ravel sizes J) =
     if ldec J I then h I (m (fld, ravel sizes I)) else m (fld, ravel sizes J)).
  { unfold lop1. cbn [la lf]. destruct (addr_eq _ _) as [E|E], (ldec J I) as [E'|E']; subst; auto; try congruence.
    exfalso. apply E'. apply (f_equal snd) in E. simpl in E. now apply ravel_inj in E. }
  rewrite R. destruct (in_dec ldec J L) as [Hin|Hin], (ldec J I) as [->|Hne]; destruct (in_dec ldec _ (_ :: L)) as [Hi|Hi]; auto; try contradiction.
  - exfalso. apply Hi. now right.
  - exfalso. apply Hi. now left.
  - exfalso. destruct Hi as [E|Hi]; congruence.
Qed.

Lemma run_map_frame (l : list Z -> @lmemT T -> T) L m a : fst a <> fld ->
  run_lops (map (fun I => {| la := (fld, ravel sizes I); lf := l I |}) L) m a = m a.
Proof. intros H. apply run_other. intros u Hu. apply in_map_iff in Hu as (I & <- & _). simpl. intros <-. now apply H. Qed.
End Run.

(** ** Slab views *)
Lemma slab_len d a s : length (slab d a s) = d.
Proof. unfold slab. now rewrite map_length, seq_length. Qed.
Lemma slab_S d a s : slab (S d) (S a) s = SAll :: slab d a s.
Proof. unfold slab. simpl. f_equal. rewrite <- seq_shift, map_map. reflexivity. Qed.
Lemma slab_O d s : slab (S d) 0 s = s :: repeat SAll d.
Proof.
  unfold slab. simpl. f_equal. rewrite <- seq_shift, map_map. simpl. induction d; simpl; auto. f_equal.
  rewrite <- seq_shift, map_map. exact IHd.
Qed.
Lemma all_view sizes I : inb sizes I -> view_in 0 sizes (repeat SAll (length sizes)) I = true.
Proof.
  induction 1; simpl; auto. rewrite IHinb. unfold slice_in. simpl. rewrite !andb_true_iff, Z.leb_le, Z.ltb_lt. lia.
Qed.
Lemma slab_in sizes a s I : inb sizes I -> (a < length sizes)%nat ->
  view_in 0 sizes (slab (length sizes) a s) I = slice_in 0 (nth a sizes 0) s (nth a I 0).
Proof.
  intros H. revert a. induction H as [|n sizes i I Hi H IH]; intros a Ha; [simpl in *; lia|]. cbn [length] in *. destruct a as [|a].
  - rewrite slab_O. cbn [view_in nth]. rewrite all_view by auto. now rewrite andb_true_r.
  - rewrite slab_S. cbn [view_in nth]. rewrite IH by lia. rewrite SAll_out by lia. reflexivity.
Qed.

(** ** One side *)
Section Side.
Context {T C : Type}.
Variables (damp : C -> C -> T -> T).

Lemma side_value sizes a s src fld (h : list Z -> T -> T) (m : @lmemT T) J :
  Forall (fun n => 0 <= n) sizes -> (a < length sizes)%nat -> 0 <= src < nth a sizes 0 -> inb sizes J ->
  run_lops (pen_copy sizes (slab (length sizes) a s) a src fld ++ pen_damp sizes (slab (length sizes) a s) fld h) m (fld, ravel sizes J) =
  if slice_in 0 (nth a sizes 0) s (nth a J 0) then h J (m (fld, ravel sizes (setn J a src))) else m (fld, ravel sizes J).
Proof.
  intros Hs Ha Hsrc HJ. rewrite run_lops_app.
  assert (HL : forall I, In I (view_cells sizes (slab (length sizes) a s)) <-> view_in 0 sizes (slab (length sizes) a s) I = true).
  { intros I. rewrite view_cells_kernel. apply kernel_cells_In. apply slab_len. }
  assert (HLi : forall I, In I (view_cells sizes (slab (length sizes) a s)) -> inb sizes I).
  { intros I HI. apply HL in HI. eapply view_in_inb; [|exact Hs|exact HI]. lia. }
  unfold pen_damp. rewrite run_map_own; auto.
  2:{ unfold view_cells. apply box_NoDup. }
  unfold pen_copy. rewrite (run_gather sizes fld (fun I => setn I a src)); auto.
  2:{ intros I HI. split; [auto|]. split; [apply setn_inb; auto|apply setn_setn]. }
  destruct (in_dec ldec J _) as [Hi|Hi].
  - apply HL in Hi. rewrite slab_in in Hi by auto. now rewrite Hi.
  - rewrite HL, slab_in in Hi by auto. now destruct (slice_in _ _ _ _).
Qed.
Lemma side_frame sizes v a src fld (h : list Z -> T -> T) (m : @lmemT T) x : fst x <> fld ->
  run_lops (pen_copy sizes v a src fld ++ pen_damp sizes v fld h) m x = m x.
Proof.
  intros H. rewrite run_lops_app. unfold pen_damp. rewrite run_map_frame by auto. unfold pen_copy.
  now rewrite (run_map_frame sizes fld (fun I m => m (fld, ravel sizes (setn I a src)))).
Qed.
End Side.

(** ** Cells whose values are tracked *)
Definition axis_inner (g : Z) (loc I : list Z) (a : nat) : Prop := g <= nth a I 0 < g + nth a loc 0.
Definition axis_outside (dims loc : list Z) (g r : Z) (I : list Z) (a : nat) : Prop :=
  nth a (ghost_pos dims loc g r I) 0 < 0 \/ nth a (global_size dims loc) 0 <= nth a (ghost_pos dims loc g r I) 0.

Record tracked (per : bool) (dims loc : list Z) (g : Z) (Q : Z -> list Z -> Prop) : Prop := {
  tr_axis : forall r I a, 0 <= r < zprod dims -> inb (ghosted g loc) I -> Q r I -> (a < length loc)%nat ->
    axis_inner g loc I a \/ (per = false /\ axis_outside dims loc g r I a);
  tr_set : forall r I a v, 0 <= r < zprod dims -> inb (ghosted g loc) I -> Q r I -> (a < length loc)%nat ->
    g <= v < g + nth a loc 0 -> Q r (setn I a v) }.

Definition Qinner (g : Z) (loc : list Z) (r : Z) (I : list Z) : Prop := inner g loc I.
Definition Qext (per : bool) (dims loc : list Z) (g r : Z) (I : list Z) : Prop :=
  inner g loc I \/ ((ghost_axes g loc I <= 1)%nat /\ owner per dims loc (ghost_pos dims loc g r I) = None).

Definition rep_on {T} (Q : Z -> list Z -> Prop) (dims loc : list Z) (g : Z) (Fs : list nat) (m : mem T) (u : nat -> list Z -> T) : Prop :=
  forall r f I, 0 <= r < zprod dims -> In f Fs -> inb (ghosted g loc) I -> Q r I ->
    field m (ghosted g loc) r f I = u f (ghost_pos dims loc g r I).

Lemma rep_ext {T} per dims loc g Fs (m : mem T) u : represents_ext per dims loc g Fs m u <-> rep_on (Qext per dims loc g) dims loc g Fs m u.
Proof. reflexivity. Qed.
Lemma rep_inner {T} dims loc g Fs (m : mem T) u : 0 <= g -> represents dims loc g Fs m u <-> rep_on (Qinner g loc) dims loc g Fs m u.
Proof.
  intros Hg.
  assert (E : forall r x, ghost_pos dims loc g r (map (fun i => i + g) x) = vadd (block_start dims loc r) x).
  { intros. unfold ghost_pos. rewrite map_map. rewrite (map_ext _ (fun x => x)) by (intros; lia). now rewrite map_id. }
  split.
  - intros H r f I Hr Hf HIb HI. destruct (sub_ok g loc I HI) as (x & Hx & ->). rewrite E. now apply H.
  - intros H r f x Hr Hf Hx. rewrite <- E. apply H; auto; [apply inner_inb; auto|]; now apply add_inner.
Qed.

Lemma inner_axes g loc I : length I = length loc -> (inner g loc I <-> forall a, (a < length loc)%nat -> axis_inner g loc I a).
Proof.
  unfold inner, axis_inner. revert I. induction loc as [|n loc IH]; intros [|i I] Hl; simpl in *; try discriminate.
  - split; [intros _ a; lia|constructor].
  - split.
    + intros H. inversion H; subst. intros [|a] Ha; [auto|]. apply (IH I ltac:(lia)); auto. lia.
    + intros H. constructor; [apply (H 0%nat); lia|]. apply IH; [lia|]. intros a Ha. apply (H (S a)). lia.
Qed.
Lemma inner_setn g loc I a v : inner g loc I -> (a < length loc)%nat -> g <= v < g + nth a loc 0 -> inner g loc (setn I a v).
Proof.
  intros H Ha Hv. assert (Hl : length I = length loc) by (apply in_box_length in H; tauto).
  apply inner_axes; [now rewrite setn_len|]. intros b Hb. unfold axis_inner. destruct (Nat.eq_dec a b) as [->|Hne].
  - rewrite nth_setn_eq by lia. auto.
  - rewrite nth_setn_neq by auto. apply (proj1 (inner_axes g loc I Hl) H); auto.
Qed.

Lemma tracked_inner per dims loc g : tracked per dims loc g (Qinner g loc).
Proof.
  split.
  - intros r I a Hr HI HQ Ha. left. apply inner_axes; auto. apply in_box_length in HQ. tauto.
  - intros r I a v Hr HI HQ Ha Hv. now apply inner_setn.
Qed.

Lemma ga_setn_out g loc I a v : length I = length loc -> (a < length loc)%nat -> g <= v < g + nth a loc 0 -> ~ axis_inner g loc I a ->
  S (ghost_axes g loc (setn I a v)) = ghost_axes g loc I.
Proof.
  unfold axis_inner. revert I a. induction loc as [|n loc IH]; intros [|i I] [|a] Hl Ha Hv Hn; simpl in *; try lia.
  - replace ((i <? g) || (g + n <=? i)) with true by (symmetry; apply orb_true_iff; rewrite Z.ltb_lt, Z.leb_le; lia).
    replace ((v <? g) || (g + n <=? v)) with false by (symmetry; apply orb_false_iff; rewrite Z.ltb_ge, Z.leb_gt; lia). reflexivity.
  - rewrite <- (IH I a) by (auto; lia). lia.
Qed.
Lemma ga_setn_le g loc I a v : length I = length loc -> (a < length loc)%nat -> g <= v < g + nth a loc 0 ->
  (ghost_axes g loc (setn I a v) <= ghost_axes g loc I)%nat.
Proof.
  revert I a. induction loc as [|n loc IH]; intros [|i I] [|a] Hl Ha Hv; simpl in *; try lia.
  - replace ((v <? g) || (g + n <=? v)) with false by (symmetry; apply orb_false_iff; rewrite Z.ltb_ge, Z.leb_gt; lia). lia.
  - specialize (IH I a ltac:(lia) ltac:(lia) Hv). lia.
Qed.
Lemma ga0_inner g loc I : length I = length loc -> ghost_axes g loc I = 0%nat -> inner g loc I.
Proof.
  unfold inner. revert I. induction loc as [|n loc IH]; intros [|i I] Hl H; simpl in *; try discriminate; [constructor|].
  destruct ((i <? g) || (g + n <=? i)) eqn:E; [discriminate|]. apply orb_false_iff in E. rewrite Z.ltb_ge, Z.leb_gt in E.
  constructor; [lia|]. apply IH; [lia|auto].
Qed.

Lemma nth_vadd a b i : length a = length b -> (i < length a)%nat -> nth i (vadd a b) 0 = nth i a 0 + nth i b 0.
Proof. revert b i. induction a; intros [|y b] [|i] Hl Hi; simpl in *; try lia. apply IHa; lia. Qed.
Lemma nth_vmul a b i : length a = length b -> (i < length a)%nat -> nth i (vmul a b) 0 = nth i a 0 * nth i b 0.
Proof. revert b i. induction a; intros [|y b] [|i] Hl Hi; simpl in *; try lia. apply IHa; lia. Qed.
Lemma nth_gp dims loc g r I i : length loc = length dims -> length I = length loc -> (i < length loc)%nat ->
  nth i (ghost_pos dims loc g r I) 0 = nth i (unravel dims r) 0 * nth i loc 0 + (nth i I 0 - g).
Proof.
  intros H1 H2 Hi. unfold ghost_pos, block_start.
  rewrite nth_vadd, nth_vmul; rewrite ?vmul_length; rewrite ?unravel_length, ?map_length; try lia.
  f_equal. rewrite (nth_indep _ 0 (0 - g)) by (rewrite map_length; lia). apply (map_nth (fun i => i - g)).
Qed.
Lemma nth_gs dims loc i : length loc = length dims -> (i < length loc)%nat -> nth i (global_size dims loc) 0 = nth i dims 0 * nth i loc 0.
Proof. intros. unfold global_size. apply nth_vmul; lia. Qed.
Lemma gp_setn dims loc g r I a v : length loc = length dims -> length I = length loc -> (a < length loc)%nat ->
  ghost_pos dims loc g r (setn I a v) = setn (ghost_pos dims loc g r I) a (nth a (unravel dims r) 0 * nth a loc 0 + (v - g)).
Proof.
  intros H1 H2 Ha. apply (nth_ext _ _ 0 0).
  - rewrite setn_len. unfold ghost_pos, block_start. rewrite !vadd_length; rewrite ?vmul_length; rewrite ?unravel_length, ?map_length, ?setn_len; lia.
  - intros i Hi. assert (Hi' : (i < length loc)%nat).
    { revert Hi. unfold ghost_pos, block_start. rewrite !vadd_length; rewrite ?vmul_length; rewrite ?unravel_length, ?map_length, ?setn_len; lia. }
    rewrite nth_gp by (rewrite ?setn_len; auto). destruct (Nat.eq_dec a i) as [<-|Hne].
    + rewrite !nth_setn_eq; auto; try lia. unfold ghost_pos, block_start. rewrite vadd_length; rewrite ?vmul_length; rewrite ?unravel_length, ?map_length; lia.
    + rewrite !nth_setn_neq by auto. now rewrite nth_gp.
Qed.

(** Being outside the domain, axis by axis. *)
Lemma wrapv_none_iff N P : length P = length N -> (wrapv false N P = None <-> exists a, (a < length N)%nat /\ (nth a P 0 < 0 \/ nth a N 0 <= nth a P 0)).
Proof.
  revert P. induction N as [|n N IH]; intros [|p P] Hl; simpl in *; try discriminate.
  - split; [discriminate|intros (a & H & _); lia].
  - unfold wrap. destruct ((0 <=? p) && (p <? n)) eqn:E.
    + apply andb_true_iff in E. rewrite Z.leb_le, Z.ltb_lt in E. destruct (wrapv false N P) eqn:E2.
      * split; [discriminate|]. intros ([|a] & Ha & H); [lia|]. exfalso.
        assert (@Some (list Z) l = None); [|discriminate]. rewrite <- E2. apply (IH P ltac:(lia)). exists a. split; [lia|auto].
      * split; auto. intros _. destruct (proj1 (IH P ltac:(lia)) E2) as (a & Ha & H). exists (S a). split; [lia|auto].
    + apply andb_false_iff in E. rewrite Z.leb_gt, Z.ltb_ge in E. split; auto. intros _. exists 0%nat. split; [lia|auto].
Qed.
Lemma gp_length dims loc g r I : length loc = length dims -> length I = length loc -> length (ghost_pos dims loc g r I) = length (global_size dims loc).
Proof. intros. unfold ghost_pos, block_start, global_size. rewrite !vadd_length; rewrite ?vmul_length; rewrite ?unravel_length, ?map_length; lia. Qed.
Lemma owner_none_iff per dims loc g r I : length loc = length dims -> length I = length loc ->
  (owner per dims loc (ghost_pos dims loc g r I) = None <-> per = false /\ exists a, (a < length loc)%nat /\ axis_outside dims loc g r I a).
Proof.
  intros H1 H2. unfold owner.
  assert (Hg : length (global_size dims loc) = length loc) by (unfold global_size; rewrite vmul_length; lia).
  destruct (wrapv per _ _) eqn:E.
  - split; [discriminate|]. intros [-> (a & Ha & Ho)]. exfalso. assert (@Some (list Z) l = None); [|discriminate]. rewrite <- E.
    apply wrapv_none_iff; [now apply gp_length|]. exists a. rewrite Hg. auto.
  - split; auto. intros _. pose proof (wrapv_none_per _ _ _ E). subst. split; auto.
    apply wrapv_none_iff in E; [|now apply gp_length]. destruct E as (a & Ha & Ho). exists a. rewrite <- Hg. auto.
Qed.

Lemma inner_not_outside dims loc g r I a : grid_ok dims loc -> 0 <= r < zprod dims -> length I = length loc -> (a < length loc)%nat -> axis_inner g loc I a -> ~ axis_outside dims loc g r I a.
Proof.
  intros [H1 H2 H3] Hr Hl Ha Hi Ho. unfold axis_outside in Ho. rewrite nth_gp, nth_gs in Ho by auto. unfold axis_inner in Hi.
  pose proof (inb_nth _ _ a (unravel_inb dims r H2 Hr) ltac:(rewrite <- ?H1; lia)) as Hc. cbn beta in Hc. remember (nth a (unravel dims r) 0) as c. remember (nth a dims 0) as d. remember (nth a loc 0) as n. remember (nth a I 0) as i.
  assert (0 <= c * n) by nia. assert (c * n + n <= d * n) by nia. lia.
Qed.

Lemma tracked_ext per dims loc g : grid_ok dims loc -> tracked per dims loc g (Qext per dims loc g).
Proof.
  intros Hok. pose proof Hok as [H1 H2 H3].
  assert (Hdec : forall I a, axis_inner g loc I a \/ ~ axis_inner g loc I a) by (intros; unfold axis_inner; lia).
  assert (KEY : forall r I, 0 <= r < zprod dims -> length I = length loc -> Qext per dims loc g r I -> inner g loc I \/
     (per = false /\ exists b, (b < length loc)%nat /\ axis_outside dims loc g r I b /\ forall a, (a < length loc)%nat -> a <> b -> axis_inner g loc I a)).
  { intros r I Hr Hl [H|[Hga Ho]]; [now left|right]. apply owner_none_iff in Ho as [-> (b & Hb & Hob)]; auto. split; auto.
    exists b. split; auto. split; auto. intros a Ha Hne. destruct (Hdec I a) as [|Hn]; auto. exfalso.
    assert (Hnb : ~ axis_inner g loc I b) by (intros H; apply (inner_not_outside dims loc g r I b); auto).
    assert (Hpos : 1 <= nth a loc 0) by (unfold positive in H3; rewrite Forall_forall in H3; apply H3; now apply nth_In).
    pose proof (ga_setn_out g loc I a g Hl Ha ltac:(lia) Hn) as E.
    assert (E0 : ghost_axes g loc (setn I a g) = 0%nat) by lia.
    apply ga0_inner in E0; [|now rewrite setn_len]. apply Hnb.
    pose proof (proj1 (inner_axes g loc (setn I a g) ltac:(now rewrite setn_len)) E0 b Hb) as Hx. unfold axis_inner in *. now rewrite nth_setn_neq in Hx by auto. }
  split.
  - intros r I a Hr HI HQ Ha. assert (Hl : length I = length loc) by (apply inb_length in HI; unfold ghosted in HI; now rewrite map_length in HI).
    destruct (KEY r I Hr Hl HQ) as [H|(Hp & b & Hb & Ho & Hin)].
    + left. now apply (proj1 (inner_axes g loc I Hl)).
    + destruct (Nat.eq_dec a b) as [->|Hne]; auto.
  - intros r I a v Hr HI HQ Ha Hv. assert (Hl : length I = length loc) by (apply inb_length in HI; unfold ghosted in HI; now rewrite map_length in HI).
    destruct (KEY r I Hr Hl HQ) as [H|(Hp & b & Hb & Ho & Hin)].
    + left. now apply inner_setn.
    + destruct (Nat.eq_dec a b) as [->|Hne].
      * left. apply inner_axes; [now rewrite setn_len|]. intros a Ha'. unfold axis_inner. destruct (Nat.eq_dec b a) as [->|Hne'].
        -- rewrite nth_setn_eq by lia. auto.
        -- rewrite nth_setn_neq by auto. apply Hin; auto.
      * right. split.
        -- destruct HQ as [H|[H _]]; [rewrite (inner_ghost_axes g loc (setn I a v)); [lia|now apply inner_setn]|].
           etransitivity; [apply ga_setn_le; auto|auto].
        -- apply owner_none_iff; auto; [now rewrite setn_len|]. split; auto. exists b. split; auto.
           unfold axis_outside in *. rewrite nth_gp in * by (rewrite ?setn_len; auto). rewrite nth_setn_neq by auto. exact Ho.
Qed.

(** ** Sweeps over the axes *)
Section Sweep.
Context {T C : Type}.
Variables (damp : C -> C -> T -> T) (coord : nat -> Z -> C) (per : bool) (dims loc : list Z) (g w : Z) (xg : Z -> nat -> Z -> C).
Variable Q : Z -> list Z -> Prop.
Hypotheses (Hok : grid_ok dims loc) (Hg : 0 <= g) (Hgl : Forall (fun n => g <= n) loc)
  (Hw : 1 <= w) (Hwl : Forall (fun n => w <= n) loc) (HQ : tracked per dims loc g Q)
  (Hx : coords_ok dims loc g xg coord).
Notation sizes := (ghosted g loc).
Notation N := (global_size dims loc).

Definition lrep (r : Z) (fld : nat) (lm : @lmemT T) (u : list Z -> T) : Prop :=
  forall I, inb sizes I -> Q r I -> lm (fld, ravel sizes I) = u (ghost_pos dims loc g r I).

Lemma sizes_nth a : (a < length loc)%nat -> nth a sizes 0 = nth a loc 0 + 2 * g.
Proof. intros Ha. unfold ghosted. rewrite (nth_indep _ 0 (0 + 2 * g)) by (rewrite map_length; lia). apply (map_nth (fun n => n + 2 * g)). Qed.
Lemma sizes_len : length sizes = length loc.
Proof. unfold ghosted. apply map_length. Qed.
Lemma sizes_nonneg : Forall (fun n => 0 <= n) sizes.
Proof.
  unfold ghosted. apply Forall_map. destruct Hok as [_ _ H]. unfold positive in H. eapply Forall_impl; [|exact H]. simpl. intros; lia.
Qed.

Lemma axis_facts r I a : 0 <= r < zprod dims -> inb sizes I -> Q r I -> (a < length loc)%nat ->
  exists c d n i, nth a (unravel dims r) 0 = c /\ nth a dims 0 = d /\ nth a loc 0 = n /\ nth a I 0 = i /\
    length I = length loc /\
    0 <= c < d /\ g <= n /\ 1 <= n /\ w <= n /\ 0 <= i < n + 2 * g /\
    nth a (ghost_pos dims loc g r I) 0 = c * n + (i - g) /\ nth a N 0 = d * n /\
    (g <= i < g + n \/ (per = false /\ (c * n + (i - g) < 0 \/ d * n <= c * n + (i - g)))).
Proof.
  intros Hr HI HQI Ha. destruct Hok as [H1 H2 H3].
  assert (Hl : length I = length loc) by (apply inb_length in HI; now rewrite sizes_len in HI).
  exists (nth a (unravel dims r) 0), (nth a dims 0), (nth a loc 0), (nth a I 0).
  pose proof (inb_nth _ _ a (unravel_inb dims r H2 Hr) ltac:(lia)) as Hc.
  pose proof (inb_nth _ _ a HI ltac:(rewrite sizes_len; lia)) as Hi. rewrite sizes_nth in Hi by auto.
  assert (Hn : In (nth a loc 0) loc) by now apply nth_In.
  unfold positive in H3. rewrite Forall_forall in H3, Hgl, Hwl. specialize (H3 _ Hn). specialize (Hgl _ Hn). specialize (Hwl _ Hn).
  pose proof (tr_axis _ _ _ _ _ HQ r I a Hr HI HQI Ha) as Ht. unfold axis_inner, axis_outside in Ht.
  rewrite nth_gp, nth_gs in Ht by auto. rewrite nth_gp, nth_gs by auto. repeat split; auto; lia.
Qed.

Lemma block_nth r a : (a < length loc)%nat -> nth a (block_start dims loc r) 0 = nth a (unravel dims r) 0 * nth a loc 0.
Proof. intros. destruct Hok as [H1 _ _]. unfold block_start. apply nth_vmul; rewrite unravel_length; lia. Qed.

Lemma front_rep r a fld lm u : 0 <= r < zprod dims -> (a < length loc)%nat -> lrep r fld lm u ->
  lrep r fld (run_lops (if isnone (previous_grid_along per dims r a) then pen_front damp sizes g w a (xg r) fld else []) lm)
    (if per then u else sponge_front damp coord w a u).
Proof.
  intros Hr Ha HL I HI HQI. pose proof Hok as [H1 H2 H3].
  destruct (axis_facts r I a Hr HI HQI Ha) as (c & d & n & i & Ec & Ed & En & Ei & Hl & Hc & Hgn & Hn & Hwn & Hi & EP & EN & Ht).
  destruct (axis_none per dims r a H2 ltac:(lia) Hr) as [A1 _]. rewrite Ec in A1.
  destruct (previous_grid_along per dims r a) as [p|] eqn:Ep; cbn [isnone].
  - assert (~ (per = false /\ c = 0)) by (intros X; apply A1 in X; discriminate).
    change (run_lops [] lm) with lm. rewrite (HL I HI HQI). destruct per; auto. unfold sponge_front.
    destruct (Z.ltb_spec (nth a (ghost_pos dims loc g r I) 0) w) as [Hlt|]; auto. exfalso. rewrite EP in Hlt.
    assert (1 <= c) by lia. assert (n <= c * n) by nia. assert (n <= d * n) by nia.
    destruct Ht as [Ht|[_ [Ht|Ht]]]; lia.
  - destruct (proj1 A1 eq_refl) as [-> E0]. cbn iota. unfold pen_front. rewrite side_value; rewrite ?sizes_nth, ?sizes_len, ?En, ?Ei; auto using sizes_nonneg; try lia.
    unfold sponge_front. rewrite EP, E0. replace (0 * n + (i - g)) with (i - g) by lia.
    assert (Es : slice_in 0 (n + 2 * g) (STo (g + w)) i = (i - g <? w)).
    { unfold slice_in. cbn [slice_start slice_stop]. unfold py_start. replace (g + w <? 0) with false by (symmetry; apply Z.ltb_ge; lia).
      apply Bool.eq_true_iff_eq. rewrite andb_true_iff, Z.leb_le, !Z.ltb_lt. lia. }
    rewrite Es. destruct (i - g <? w) eqn:Elt; [|apply HL; auto].
    rewrite (Hx r a g), (Hx r a i) by (rewrite ?En; auto; lia). rewrite block_nth, Ec, E0, En by auto.
    replace (0 * n + (g - g)) with 0 by lia. replace (0 * n + (i - g)) with (i - g) by lia.
    rewrite (HL (setn I a (g + w - 1))).
    + rewrite gp_setn, Ec, E0, En by auto. do 2 f_equal. f_equal. lia.
    + apply setn_inb; auto. rewrite sizes_nth, En; auto. lia.
    + apply (tr_set _ _ _ _ _ HQ); auto. rewrite En. lia.
Qed.

Lemma back_rep r a fld lm u : 0 <= r < zprod dims -> (a < length loc)%nat -> lrep r fld lm u ->
  lrep r fld (run_lops (if isnone (next_grid_along per dims r a) then pen_back damp sizes g w a (xg r) fld else []) lm)
    (if per then u else sponge_back damp coord N w a u).
Proof.
  intros Hr Ha HL I HI HQI. pose proof Hok as [H1 H2 H3].
  destruct (axis_facts r I a Hr HI HQI Ha) as (c & d & n & i & Ec & Ed & En & Ei & Hl & Hc & Hgn & Hn & Hwn & Hi & EP & EN & Ht).
  destruct (axis_none per dims r a H2 ltac:(lia) Hr) as [_ A1]. rewrite Ec, Ed in A1.
  destruct (next_grid_along per dims r a) as [p|] eqn:Ep; cbn [isnone].
  - assert (~ (per = false /\ c = d - 1)) by (intros X; apply A1 in X; discriminate).
    change (run_lops [] lm) with lm. rewrite (HL I HI HQI). destruct per; auto. unfold sponge_back.
    destruct (Z.leb_spec (nth a N 0 - w) (nth a (ghost_pos dims loc g r I) 0)) as [Hlt|]; auto. exfalso. rewrite EP, EN in Hlt.
    assert (c + 2 <= d) by lia. assert (c * n + 2 * n <= d * n) by nia. assert (0 <= c * n) by nia.
    destruct Ht as [Ht|[_ [Ht|Ht]]]; lia.
  - destruct (proj1 A1 eq_refl) as [-> E0]. cbn iota. unfold pen_back. rewrite side_value; rewrite ?sizes_nth, ?sizes_len, ?En, ?Ei; auto using sizes_nonneg; try lia.
    unfold sponge_back. rewrite EP, EN. assert (Ecn : c * n = d * n - n) by (rewrite E0; lia).
    assert (Es : slice_in 0 (n + 2 * g) (SFrom (- (g + w))) i = (d * n - w <=? c * n + (i - g))).
    { unfold slice_in. cbn [slice_start slice_stop]. unfold py_start. replace (- (g + w) <? 0) with true by (symmetry; apply Z.ltb_lt; lia).
      apply Bool.eq_true_iff_eq. rewrite andb_true_iff, !Z.leb_le, !Z.ltb_lt. lia. }
    rewrite Es. destruct (d * n - w <=? c * n + (i - g)) eqn:Elt; [|apply HL; auto].
    rewrite (Hx r a i), (Hx r a (n + 2 * g - (g + 1))) by (rewrite ?En; auto; lia). rewrite block_nth, Ec, En by auto.
    replace (c * n + (n + 2 * g - (g + 1) - g)) with (d * n - 1) by lia.
    rewrite (HL (setn I a (n + 2 * g - (g + w)))).
    + rewrite gp_setn, Ec, En by auto. do 2 f_equal. f_equal. lia.
    + apply setn_inb; auto. rewrite sizes_nth, En; auto. lia.
    + apply (tr_set _ _ _ _ _ HQ); auto. rewrite En. lia.
Qed.

Definition axis_sponge (a : nat) (u : list Z -> T) : list Z -> T := if per then u else sponge_back damp coord N w a (sponge_front damp coord w a u).
Lemma axis_rep r a fld lm u : 0 <= r < zprod dims -> (a < length loc)%nat -> lrep r fld lm u ->
  lrep r fld (run_lops (pen_axis damp per dims sizes g w xg fld r a) lm) (axis_sponge a u).
Proof.
  intros Hr Ha HL. unfold pen_axis. rewrite run_lops_app. unfold axis_sponge.
  pose proof (back_rep r a fld _ _ Hr Ha (front_rep r a fld lm u Hr Ha HL)) as H. destruct per; exact H.
Qed.

Definition pen_axes (fld : nat) (r : Z) (axes : list nat) : list (@lop T) := flat_map (pen_axis damp per dims sizes g w xg fld r) axes.
Lemma axes_rep r fld axes : 0 <= r < zprod dims -> Forall (fun a => (a < length loc)%nat) axes -> forall lm u, lrep r fld lm u ->
  lrep r fld (run_lops (pen_axes fld r axes) lm) (sponge damp coord N w per axes u).
Proof.
  intros Hr Hax lm u HL.
  assert (H : lrep r fld (run_lops (pen_axes fld r axes) lm) (fold_left (fun u a => axis_sponge a u) axes u)).
  { revert lm u HL. induction Hax as [|a axes Ha Hax IH]; intros lm u HL; [exact HL|].
    unfold pen_axes. cbn [flat_map fold_left]. rewrite run_lops_app. apply IH. now apply axis_rep. }
  intros I HI HQI. rewrite (H I HI HQI). f_equal. unfold sponge. replace (w =? 0) with false by (symmetry; apply Z.eqb_neq; lia).
  rewrite orb_false_r. unfold axis_sponge. destruct per; auto. clear. induction axes; auto.
Qed.
Lemma pen_axis_frame fld r a lm x : fst x <> fld -> run_lops (pen_axis damp per dims sizes g w xg fld r a) lm x = lm x.
Proof.
  intros H. unfold pen_axis. rewrite run_lops_app.
  destruct (isnone (next_grid_along per dims r a)), (isnone (previous_grid_along per dims r a));
    unfold pen_front, pen_back; rewrite ?side_frame by auto; auto; change (@run_lops T [] ?m x) with (m x); rewrite ?side_frame by auto; reflexivity.
Qed.
Lemma pen_axes_frame fld r axes : forall lm x, fst x <> fld -> run_lops (pen_axes fld r axes) lm x = lm x.
Proof.
  induction axes as [|a axes IH]; intros lm x H; [reflexivity|]. unfold pen_axes. cbn [flat_map]. rewrite run_lops_app.
  fold (pen_axes fld r axes). rewrite IH by auto. now apply pen_axis_frame.
Qed.

Lemma pass_rep fld axes Fs (m : mem T) u : Forall (fun a => (a < length loc)%nat) axes ->
  rep_on Q dims loc g Fs m u ->
  rep_on Q dims loc g Fs (den (zprod dims) [PLoc (fun r => pen_axes fld r axes)] m) (on_fields [fld] (sponge damp coord N w per axes) u).
Proof.
  intros Hax HR r f I Hr Hf HI HQI. unfold field. cbn [den fold_left den1]. unfold den_loc. cbn [fst snd].
  replace ((0 <=? r) && (r <? zprod dims)) with true by (symmetry; rewrite andb_true_iff, Z.leb_le, Z.ltb_lt; lia).
  unfold on_fields. destruct (in_dec Nat.eq_dec f [fld]) as [Hin|Hn].
  - destruct Hin as [<-|[]]. apply (axes_rep r fld axes Hr Hax); auto. intros J HJ HQJ. apply (HR r fld J); auto.
  - rewrite pen_axes_frame by (simpl; intros <-; apply Hn; now left). now apply HR.
Qed.
End Sweep.

(** ** The kernels *)
Section Kernels.
Context {T C : Type}.
Variables (damp : C -> C -> T -> T) (coord : nat -> Z -> C) (per : bool).

Lemma on_fields_nil {U} (h : (list Z -> U) -> list Z -> U) u f P : on_fields [] h u f P = u f P.
Proof. reflexivity. Qed.
Lemma rep_on_ext Q dims loc g Fs (m : mem T) u u' : (forall f P, u f P = u' f P) -> rep_on Q dims loc g Fs m u -> rep_on Q dims loc g Fs m u'.
Proof. intros E H r f I Hr Hf HI HQ. rewrite <- E. now apply H. Qed.
Lemma sponge_w0 N w axes (u : list Z -> T) : w = 0 -> sponge damp coord N w per axes u = u.
Proof. intros ->. unfold sponge. now rewrite orb_true_r. Qed.

Lemma penalise_2d_rep Q py px ny nx g w xg fld Fs (m : mem T) u : grid2 py px ny nx g -> 0 <= w -> w <= ny -> w <= nx ->
  tracked per [py; px] [ny; nx] g Q -> coords_ok [py; px] [ny; nx] g xg coord -> rep_on Q [py; px] [ny; nx] g Fs m u ->
  rep_on Q [py; px] [ny; nx] g Fs (den (zprod [py; px]) (penalise_2d damp per py px ny nx g w xg fld) m)
    (on_fields [fld] (sponge damp coord (global_size [py; px] [ny; nx]) w per [1; 0]%nat) u).
Proof.
  intros G H0 Hy Hx HQ Hc HR. unfold penalise_2d. destruct (Z.eqb_spec w 0) as [->|Hw].
  - eapply rep_on_ext; [|exact HR]. intros f P. unfold on_fields. destruct (in_dec _ _ _); auto. now rewrite sponge_w0.
  - pose proof (pass_rep damp coord per [py; px] [ny; nx] g w xg Q) as H. destruct G as (A & B & D & E & F).
    match goal with |- rep_on _ _ _ _ _ (den _ [PLoc ?l] _) _ => replace l with (fun r => pen_axes damp per [py; px] [ny; nx] g w xg fld r [1; 0]%nat) end.
    2:{ apply functional_extensionality. intros r. unfold pen_axes. cbn [flat_map]. now rewrite app_nil_r. }
    apply H; auto; try lia; repeat constructor; simpl; lia.
Qed.
Lemma penalise_3d_rep Q pz py px n0 n1 n2 g w xg fld Fs (m : mem T) u : grid3 pz py px n0 n1 n2 g -> 0 <= w -> w <= n0 -> w <= n1 -> w <= n2 ->
  tracked per [pz; py; px] [n0; n1; n2] g Q -> coords_ok [pz; py; px] [n0; n1; n2] g xg coord -> rep_on Q [pz; py; px] [n0; n1; n2] g Fs m u ->
  rep_on Q [pz; py; px] [n0; n1; n2] g Fs (den (zprod [pz; py; px]) (penalise_3d damp per pz py px n0 n1 n2 g w xg fld) m)
    (on_fields [fld] (sponge damp coord (global_size [pz; py; px] [n0; n1; n2]) w per [2; 1; 0]%nat) u).
Proof.
  intros G H0 Hz Hy Hx HQ Hc HR. unfold penalise_3d. destruct (Z.eqb_spec w 0) as [->|Hw].
  - eapply rep_on_ext; [|exact HR]. intros f P. unfold on_fields. destruct (in_dec _ _ _); auto. now rewrite sponge_w0.
  - pose proof (pass_rep damp coord per [pz; py; px] [n0; n1; n2] g w xg Q) as H. destruct G as (A & B & D & E & F & F' & F'').
    match goal with |- rep_on _ _ _ _ _ (den _ [PLoc ?l] _) _ => replace l with (fun r => pen_axes damp per [pz; py; px] [n0; n1; n2] g w xg fld r [2; 1; 0]%nat) end.
    2:{ apply functional_extensionality. intros r. unfold pen_axes. cbn [flat_map]. now rewrite app_nil_r. }
    apply H; auto; try lia; repeat constructor; simpl; lia.
Qed.
Lemma on_fields_cons {U} f0 flds (h : (list Z -> U) -> list Z -> U) u f P : ~ In f0 flds ->
  on_fields flds h (on_fields [f0] h u) f P = on_fields (f0 :: flds) h u f P.
Proof.
  intros Hn. unfold on_fields. destruct (in_dec Nat.eq_dec f flds) as [Hi|Hi].
  - destruct (in_dec Nat.eq_dec f [f0]) as [[<-|[]]|_]; [contradiction|]. destruct (in_dec Nat.eq_dec f (f0 :: flds)) as [_|Hx]; auto. exfalso. apply Hx. now right.
  - destruct (in_dec Nat.eq_dec f [f0]) as [Hj|Hj], (in_dec Nat.eq_dec f (f0 :: flds)) as [Hk|Hk]; auto; exfalso.
    + apply Hk. destruct Hj as [<-|[]]. now left.
    + destruct Hk as [<-|Hk]; [|contradiction]. apply Hj. now left.
Qed.
Lemma penalise_vector_3d_rep Q pz py px n0 n1 n2 g w xg flds Fs : grid3 pz py px n0 n1 n2 g -> 0 <= w -> w <= n0 -> w <= n1 -> w <= n2 ->
  tracked per [pz; py; px] [n0; n1; n2] g Q -> coords_ok [pz; py; px] [n0; n1; n2] g xg coord -> NoDup flds -> forall (m : mem T) u, rep_on Q [pz; py; px] [n0; n1; n2] g Fs m u ->
  rep_on Q [pz; py; px] [n0; n1; n2] g Fs (den (zprod [pz; py; px]) (penalise_vector_3d damp per pz py px n0 n1 n2 g w xg flds) m)
    (on_fields flds (sponge damp coord (global_size [pz; py; px] [n0; n1; n2]) w per [2; 1; 0]%nat) u).
Proof.
  intros G H0 Hz Hy Hx HQ Hc Hn. induction Hn as [|f flds Hf Hn IH]; intros m u HR; [exact HR|].
  unfold penalise_vector_3d. cbn [flat_map]. rewrite den_app.
  eapply rep_on_ext; [intros; apply on_fields_cons; exact Hf|]. apply IH. now apply penalise_3d_rep.
Qed.
Lemma penalise_ok n ps : (forall p, In p ps -> exists u, p = @PLoc T u) -> Forall (phase_ok n) ps.
Proof. intros H. apply Forall_forall. intros p Hp. destruct (H p Hp) as (u & ->). exact I. Qed.
Lemma penalise_2d_local py px ny nx g w xg fld n : Forall (phase_ok n) (penalise_2d damp per py px ny nx g w xg fld).
Proof. apply penalise_ok. unfold penalise_2d. destruct (w =? 0); intros p Hp; [destruct Hp|destruct Hp as [<-|[]]; eauto]. Qed.
Lemma penalise_3d_local pz py px n0 n1 n2 g w xg fld n : Forall (phase_ok n) (penalise_3d damp per pz py px n0 n1 n2 g w xg fld).
Proof. apply penalise_ok. unfold penalise_3d. destruct (w =? 0); intros p Hp; [destruct Hp|destruct Hp as [<-|[]]; eauto]. Qed.
Lemma penalise_vector_3d_local pz py px n0 n1 n2 g w xg flds n : Forall (phase_ok n) (penalise_vector_3d damp per pz py px n0 n1 n2 g w xg flds).
Proof. unfold penalise_vector_3d. induction flds; simpl; [constructor|]. apply Forall_app. split; auto. apply penalise_3d_local. Qed.

(** The serial sponge changes nothing away from the boundary. *)
Lemma sponge_away N w axes u P : Forall (fun a => w <= nth a P 0 < nth a N 0 - w) axes -> sponge damp coord N w per axes u P = u P :> T.
Proof.
  intros H. unfold sponge. destruct (per || (w =? 0)); auto.
  revert u. induction H as [|a axes Ha H IH]; intros u; [reflexivity|]. cbn [fold_left]. rewrite IH.
  unfold sponge_back. replace (nth a N 0 - w <=? nth a P 0) with false by (symmetry; apply Z.leb_gt; lia).
  unfold sponge_front. now replace (nth a P 0 <? w) with false by (symmetry; apply Z.ltb_ge; lia).
Qed.
End Kernels.

Section Results.
Context {T C : Type}.
Variables (damp : C -> C -> T -> T) (coord : nat -> Z -> C) (per : bool).

Lemma penalise_2d_serial py px ny nx g w xg fld Fs (m : mem T) u : grid2 py px ny nx g -> 0 <= w -> w <= ny -> w <= nx ->
  coords_ok [py; px] [ny; nx] g xg coord ->
  exists m', spmd_ends (zprod [py; px]) (penalise_2d damp per py px ny nx g w xg fld) m m' /\
    let u' := on_fields [fld] (sponge damp coord (global_size [py; px] [ny; nx]) w per [1; 0]%nat) u in
    (represents [py; px] [ny; nx] g Fs m u -> represents [py; px] [ny; nx] g Fs m' u') /\
    (represents_ext per [py; px] [ny; nx] g Fs m u -> represents_ext per [py; px] [ny; nx] g Fs m' u').
Proof.
  intros G H0 H1 H2 Hc. exists (den (zprod [py; px]) (penalise_2d damp per py px ny nx g w xg fld) m).
  split; [apply spmd_safe, penalise_2d_local|]. pose proof (g2_ok _ _ _ _ _ G) as Hok. assert (Hg : 0 <= g) by (unfold grid2 in G; lia). split; intros HR.
  - apply rep_inner; auto. apply rep_inner in HR; auto. apply (penalise_2d_rep damp coord per); auto. apply tracked_inner.
  - apply rep_ext. apply rep_ext in HR. apply (penalise_2d_rep damp coord per); auto. now apply tracked_ext.
Qed.
Lemma penalise_3d_serial pz py px n0 n1 n2 g w xg fld Fs (m : mem T) u : grid3 pz py px n0 n1 n2 g -> 0 <= w -> w <= n0 -> w <= n1 -> w <= n2 ->
  coords_ok [pz; py; px] [n0; n1; n2] g xg coord ->
  exists m', spmd_ends (zprod [pz; py; px]) (penalise_3d damp per pz py px n0 n1 n2 g w xg fld) m m' /\
    let u' := on_fields [fld] (sponge damp coord (global_size [pz; py; px] [n0; n1; n2]) w per [2; 1; 0]%nat) u in
    (represents [pz; py; px] [n0; n1; n2] g Fs m u -> represents [pz; py; px] [n0; n1; n2] g Fs m' u') /\
    (represents_ext per [pz; py; px] [n0; n1; n2] g Fs m u -> represents_ext per [pz; py; px] [n0; n1; n2] g Fs m' u').
Proof.
  intros G H0 H1 H2 H3 Hc. exists (den (zprod [pz; py; px]) (penalise_3d damp per pz py px n0 n1 n2 g w xg fld) m).
  split; [apply spmd_safe, penalise_3d_local|]. pose proof (g3_ok _ _ _ _ _ _ _ G) as Hok. assert (Hg : 0 <= g) by (unfold grid3 in G; lia). split; intros HR.
  - apply rep_inner; auto. apply rep_inner in HR; auto. apply (penalise_3d_rep damp coord per); auto. apply tracked_inner.
  - apply rep_ext. apply rep_ext in HR. apply (penalise_3d_rep damp coord per); auto. now apply tracked_ext.
Qed.
Lemma penalise_vector_3d_serial pz py px n0 n1 n2 g w xg flds Fs (m : mem T) u : grid3 pz py px n0 n1 n2 g -> 0 <= w -> w <= n0 -> w <= n1 -> w <= n2 ->
  coords_ok [pz; py; px] [n0; n1; n2] g xg coord -> NoDup flds ->
  exists m', spmd_ends (zprod [pz; py; px]) (penalise_vector_3d damp per pz py px n0 n1 n2 g w xg flds) m m' /\
    let u' := on_fields flds (sponge damp coord (global_size [pz; py; px] [n0; n1; n2]) w per [2; 1; 0]%nat) u in
    (represents [pz; py; px] [n0; n1; n2] g Fs m u -> represents [pz; py; px] [n0; n1; n2] g Fs m' u') /\
    (represents_ext per [pz; py; px] [n0; n1; n2] g Fs m u -> represents_ext per [pz; py; px] [n0; n1; n2] g Fs m' u').
Proof.
  intros G H0 H1 H2 H3 Hc Hn. exists (den (zprod [pz; py; px]) (penalise_vector_3d damp per pz py px n0 n1 n2 g w xg flds) m).
  split; [apply spmd_safe, penalise_vector_3d_local|]. pose proof (g3_ok _ _ _ _ _ _ _ G) as Hok. assert (Hg : 0 <= g) by (unfold grid3 in G; lia). split; intros HR.
  - apply rep_inner; auto. apply rep_inner in HR; auto. apply (penalise_vector_3d_rep damp coord per); auto. apply tracked_inner.
  - apply rep_ext. apply rep_ext in HR. apply (penalise_vector_3d_rep damp coord per); auto. now apply tracked_ext.
Qed.
End Results.

Lemma penalise_width_spec width :
  (penalise_width width = ValueError <-> py_lt0 width = true \/ is_int width = false) /\
  (forall w, penalise_width width = Ok w <-> width = PyInt w /\ 0 <= w).
Proof.
  unfold penalise_width. destruct width as [z|q]; simpl.
  - rewrite orb_false_r. destruct (Z.ltb_spec z 0); split; try (intros w); split; intros Hx; try discriminate; auto.
    + destruct Hx as [E Hx]. injection E as ->. lia.
    + destruct Hx; discriminate.
    + injection Hx as ->. split; auto.
    + destruct Hx as [E Hx]. now injection E as ->.
  - rewrite orb_true_r. split; [split; auto|]. intros w. split; [discriminate|intros [E _]; discriminate].
Qed.

(** ** A sponge wider than the blocks *)
Definition wide_damp (a b v : Z) : Z := 2 * (b - a) * v.
Lemma wide_sponge_refuted :
  ~ (forall (damp : Z -> Z -> Z -> Z) (coord : nat -> Z -> Z) per py px ny nx g w xg fld Fs (m : mem Z) u, grid2 py px ny nx g ->
      0 <= w -> w <= py * ny -> w <= px * nx -> g + w <= ny + 2 * g -> g + w <= nx + 2 * g ->
      coords_ok [py; px] [ny; nx] g xg coord -> represents_ext per [py; px] [ny; nx] g Fs m u ->
      exists m', spmd_ends (zprod [py; px]) (penalise_2d damp per py px ny nx g w xg fld) m m' /\
        represents [py; px] [ny; nx] g Fs m' (on_fields [fld] (sponge damp coord (global_size [py; px] [ny; nx]) w per [1; 0]%nat) u)).
Proof.
  intros H. destruct (H wide_damp (fun _ p => p) false 1 2 6 2 2 3 (fun r a i => nth a (block_start [1; 2] [6; 2] r) 0 + (i - 2)) 0%nat [0%nat] (fun _ => 1) (fun _ _ => 1)) as (m' & E & R); try lia.
  - unfold grid2; lia.
  - intros r a i _ _ _. reflexivity.
  - intros r f I _ _ _ _. reflexivity.
  - assert (m' = den (zprod [1; 2]) (penalise_2d wide_damp false 1 2 6 2 2 3 (fun r a i => nth a (block_start [1; 2] [6; 2] r) 0 + (i - 2)) 0%nat) (fun _ => 1)).
    { eapply spmd_ends_det; [exact E|]. apply spmd_safe, penalise_2d_local. }
    subst. specialize (R 1 0%nat [1; 0] ltac:(cbn [zprod]; lia) (or_introl eq_refl) ltac:(repeat constructor; lia)). vm_compute in R. discriminate.
Qed.

(** ** Consequences *)
Section Consequences.
Context {T C : Type}.
Variables (damp : C -> C -> T -> T) (coord : nat -> Z -> C) (per : bool).

Lemma assembled dims loc g Fs (m : mem T) : grid_ok dims loc -> represents dims loc g Fs m
  (fun f P => field m (ghosted g loc) (ravel dims (vdiv P loc)) f (map (fun i => i + g) (vmod P loc))).
Proof.
  intros [H1 H2 H3] r f x Hr Hf Hx. unfold block_start.
  assert (E : vdiv (vadd (vmul (unravel dims r) loc) x) loc = unravel dims r /\ vmod (vadd (vmul (unravel dims r) loc) x) loc = x).
  { pose proof (inb_length _ _ Hx) as Hl. assert (Hc : length (unravel dims r) = length loc) by (rewrite unravel_length; lia).
    revert Hc. generalize (unravel dims r). clear -Hx. induction Hx as [|n loc i x Hi Hx IH]; intros [|c cs] Hc; simpl in *; try discriminate; [auto|].
    destruct (IH cs ltac:(lia)) as [-> ->]. split; f_equal.
    - rewrite Z.div_add_l by lia. rewrite Z.div_small by lia. lia.
    - rewrite Z.add_comm, Z.mod_add by lia. apply Z.mod_small. lia. }
  destruct E as [-> ->]. now rewrite ravel_unravel.
Qed.

Lemma penalise_2d_unchanged py px ny nx g w xg fld r x (m m' : mem T) :
  grid2 py px ny nx g -> 0 <= w -> w <= ny -> w <= nx -> coords_ok [py; px] [ny; nx] g xg coord ->
  spmd_ends (zprod [py; px]) (penalise_2d damp per py px ny nx g w xg fld) m m' ->
  0 <= r < zprod [py; px] -> inb [ny; nx] x ->
  (forall a, (a < 2)%nat -> w <= nth a (vadd (block_start [py; px] [ny; nx] r) x) 0 < nth a [py * ny; px * nx] 0 - w) ->
  forall f, field m' (ghosted g [ny; nx]) r f (map (fun i => i + g) x) = field m (ghosted g [ny; nx]) r f (map (fun i => i + g) x).
Proof.
  intros G H0 H1 H2 Hc He Hr Hx Ha f. pose proof (g2_ok _ _ _ _ _ G) as Hok.
  pose proof (assembled [py; px] [ny; nx] g [f] m Hok) as HR. set (u := fun f P => _) in HR.
  destruct (penalise_2d_serial damp coord per py px ny nx g w xg fld [f] m u G H0 H1 H2 Hc) as (m2 & E2 & R2 & _).
  assert (m' = m2) by (eapply spmd_ends_det; eauto). subst m2.
  rewrite (R2 HR r f x Hr (or_introl eq_refl) Hx), (HR r f x Hr (or_introl eq_refl) Hx).
  unfold on_fields. destruct (in_dec _ _ _); auto. apply sponge_away. repeat constructor; apply Ha; lia.
Qed.
Lemma penalise_3d_unchanged pz py px n0 n1 n2 g w xg fld r x (m m' : mem T) :
  grid3 pz py px n0 n1 n2 g -> 0 <= w -> w <= n0 -> w <= n1 -> w <= n2 -> coords_ok [pz; py; px] [n0; n1; n2] g xg coord ->
  spmd_ends (zprod [pz; py; px]) (penalise_3d damp per pz py px n0 n1 n2 g w xg fld) m m' ->
  0 <= r < zprod [pz; py; px] -> inb [n0; n1; n2] x ->
  (forall a, (a < 3)%nat -> w <= nth a (vadd (block_start [pz; py; px] [n0; n1; n2] r) x) 0 < nth a [pz * n0; py * n1; px * n2] 0 - w) ->
  forall f, field m' (ghosted g [n0; n1; n2]) r f (map (fun i => i + g) x) = field m (ghosted g [n0; n1; n2]) r f (map (fun i => i + g) x).
Proof.
  intros G H0 H1 H2 H3 Hc He Hr Hx Ha f. pose proof (g3_ok _ _ _ _ _ _ _ G) as Hok.
  pose proof (assembled [pz; py; px] [n0; n1; n2] g [f] m Hok) as HR. set (u := fun f P => _) in HR.
  destruct (penalise_3d_serial damp coord per pz py px n0 n1 n2 g w xg fld [f] m u G H0 H1 H2 H3 Hc) as (m2 & E2 & R2 & _).
  assert (m' = m2) by (eapply spmd_ends_det; eauto). subst m2.
  rewrite (R2 HR r f x Hr (or_introl eq_refl) Hx), (HR r f x Hr (or_introl eq_refl) Hx).
  unfold on_fields. destruct (in_dec _ _ _); auto. apply sponge_away. repeat constructor; apply Ha; lia.
Qed.
Lemma nil_ends n (m m' : mem T) : spmd_ends n [] m m' -> m' = m.
Proof. intros H. eapply spmd_ends_det; [exact H|]. apply (spmd_safe n []). constructor. Qed.
Lemma width_zero py px ny nx pz n0 n1 n2 g xg fld flds (m m' : mem T) :
  (spmd_ends (zprod [py; px]) (penalise_2d damp per py px ny nx g 0 xg fld) m m' -> m' = m) /\
  (spmd_ends (zprod [pz; py; px]) (penalise_3d damp per pz py px n0 n1 n2 g 0 xg fld) m m' -> m' = m) /\
  (spmd_ends (zprod [pz; py; px]) (penalise_vector_3d damp per pz py px n0 n1 n2 g 0 xg flds) m m' -> m' = m).
Proof.
  split; [exact (nil_ends _ m m')|]. split; [exact (nil_ends _ m m')|]. 
  assert (E : penalise_vector_3d damp per pz py px n0 n1 n2 g 0 xg flds = []) by (induction flds; auto). rewrite E. apply nil_ends.
Qed.
End Consequences.
