(** Stencil kernels: what one kernel program computes, for any number of axes. *)
From Verif Require Import Base SpecGrid SpecGhost SpecStencil Cart CartFacts Comm Spmd GhostGeo Ghost2D Ghost3D GhostProofs Stencil.

(** ** Counting the passes that update a cell *)
Definition ldec : forall a b : list Z, {a = b} + {a <> b} := list_eq_dec Z.eq_dec.
Definition b2n (b : bool) : nat := if b then 1%nat else 0%nat.

Fixpoint in_boxb (ss ls c : list Z) : bool :=
  match ss, ls, c with
  | s :: ss', l :: ls', x :: c' => (s <=? x) && (x <? s + l) && in_boxb ss' ls' c'
  | [], [], [] => true
  | _, _, _ => false
  end.
Lemma in_boxb_spec ss ls c : in_boxb ss ls c = true <-> in_box ss ls c.
Proof.
  revert ls c. induction ss as [|s ss IH]; intros [|l ls] [|x c]; simpl;
    try (split; [discriminate|intros H; now inversion H]).
  - split; [constructor|auto].
  - rewrite !andb_true_iff, Z.leb_le, Z.ltb_lt, IH. split.
    + intros [[H1 H2] H3]. constructor; auto.
    + intros H. inversion H; subst. repeat split; auto; lia.
Qed.
Lemma count_box ss ls c : length ss = length ls -> count_occ ldec (box ss ls) c = b2n (in_boxb ss ls c).
Proof.
  intros Hl. destruct (in_boxb ss ls c) eqn:E; simpl.
  - apply NoDup_count_occ'; [apply box_NoDup|]. apply box_In; auto. now apply in_boxb_spec.
  - apply count_occ_not_In. intros H. apply box_In in H; auto. apply in_boxb_spec in H. congruence.
Qed.
Lemma count_app (a b : list (list Z)) c : count_occ ldec (a ++ b) c = (count_occ ldec a c + count_occ ldec b c)%nat.
Proof. apply count_occ_app. Qed.

(** One axis: is index i updated by a kernel of radius ks called on slice s? *)
Definition slice_in (ks n : Z) (s : pslice) (i : Z) : bool :=
  (slice_start n s + ks <=? i) && (i <? slice_stop n s - ks).
Fixpoint view_in (ks : Z) (sizes : list Z) (v : list pslice) (I : list Z) : bool :=
  match sizes, v, I with
  | n :: sizes', s :: v', i :: I' => slice_in ks n s i && view_in ks sizes' v' I'
  | [], [], [] => true
  | _, _, _ => false
  end.

Lemma view_lens_len sizes v : length (view_starts sizes v) = length (view_lens sizes v).
Proof. revert v. induction sizes; intros [|]; simpl; auto. Qed.

Lemma in_view ks sizes v I : length v = length sizes ->
  in_boxb (map (fun s => s + ks) (view_starts sizes v)) (map (fun l => l - 2 * ks) (view_lens sizes v)) I = view_in ks sizes v I.
Proof.
  revert v I. induction sizes as [|n sizes IH]; intros [|s v] [|i I] Hl; simpl in *; try discriminate; auto.
  rewrite IH by lia. unfold slice_in. f_equal. f_equal.
  apply Bool.eq_true_iff_eq. rewrite !Z.ltb_lt. lia.
Qed.
Lemma count_view ks sizes v I : length v = length sizes ->
  count_occ ldec (kernel_cells ks sizes v) I = b2n (view_in ks sizes v I).
Proof.
  intros Hl. unfold kernel_cells. rewrite count_box by (rewrite !map_length; apply view_lens_len).
  now rewrite in_view.
Qed.
Lemma view_cells_kernel sizes v : view_cells sizes v = kernel_cells 0 sizes v.
Proof.
  unfold view_cells, kernel_cells. f_equal.
  - rewrite <- (map_id (view_starts sizes v)) at 1. apply map_ext. intros; lia.
  - rewrite <- (map_id (view_lens sizes v)) at 1. apply map_ext. intros; lia.
Qed.

Lemma slice_bounds n s : 0 <= n -> 0 <= slice_start n s /\ slice_stop n s <= n.
Proof. intros. destruct s; simpl; unfold py_start; cmp. Qed.
Lemma view_in_inb ks sizes v I : 0 <= ks -> Forall (fun n => 0 <= n) sizes -> view_in ks sizes v I = true -> inb sizes I.
Proof.
  intros Hk Hs. revert v I. induction Hs as [|n sizes Hn Hs IH]; intros [|s v] [|i I] H; simpl in *; try discriminate.
  - constructor.
  - apply andb_true_iff in H as [H1 H2]. unfold slice_in in H1. rewrite andb_true_iff, Z.leb_le, Z.ltb_lt in H1.
    pose proof (slice_bounds n s Hn). constructor; [lia|eauto].
Qed.
Lemma kernel_cells_In ks sizes v I : length v = length sizes -> In I (kernel_cells ks sizes v) <-> view_in ks sizes v I = true.
Proof.
  intros Hl. rewrite (count_occ_In ldec), count_view by auto. destruct (view_in ks sizes v I); simpl; split; intros; auto; try lia; discriminate.
Qed.

(** ** Local effect of a list of cell updates *)
Arguments run_lops : simpl never.
Arguments addr_eq : simpl never.
Arguments place_dec : simpl never.
Section Run.
Context {T : Type}.
Notation lmem := (@lmemT T).
Variable (sizes : list Z).
Variable (k : @kern T).
Hypothesis Hk : NoDup (map fst k).

Lemma run_cons (u : @lop T) us (m : lmem) : run_lops (u :: us) m = run_lops us (lop1 m u).
Proof. reflexivity. Qed.

Definition reader (m : lmem) (I : list Z) : nat -> list Z -> T := fun f d => m (f, ravel sizes (vadd I d)).

Definition cell_lops (I : list Z) : list (@lop T) :=
  map (fun oK : nat * kfun =>
     {| la := (fst oK, ravel sizes I); lf := fun m => snd oK (reader m I) (m (fst oK, ravel sizes I)) |}) k.

Lemma kernel_lops_cells ks v : kernel_lops sizes ks k v = flat_map cell_lops (kernel_cells ks sizes v).
Proof. reflexivity. Qed.
Lemma kernel_lops_views ks V : flat_map (kernel_lops sizes ks k) V = flat_map cell_lops (flat_map (kernel_cells ks sizes) V).
Proof. induction V; simpl; auto. now rewrite flat_map_app, IHV, kernel_lops_cells. Qed.

Lemma run_lops_app us vs (m : lmem) : run_lops (us ++ vs) m = run_lops vs (run_lops us m).
Proof. unfold run_lops. apply fold_left_app. Qed.

Lemma run_other us (m : lmem) a : (forall u, In u us -> la u <> a) -> run_lops us m a = m a.
Proof.
  revert m. induction us as [|u us IH]; intros m H; simpl; auto.
  rewrite run_cons, IH by (intros; apply H; now right).
  unfold lop1. destruct (addr_eq a (la u)) as [->|]; auto. exfalso. apply (H u); auto. now left.
Qed.

Variable ins : list nat.
Hypothesis Hdis : forall f, In f ins -> ~ In f (map fst k).
(** updates look only at the arrays [ins] (and their own output cell) *)
Hypothesis Hloc : forall o K, In (o, K) k -> forall rd rd' old,
  (forall f d, In f ins -> rd f d = rd' f d) -> K rd old = K rd' old.

Lemma cells_la u Cs : In u (flat_map cell_lops Cs) -> exists I o, In I Cs /\ In o (map fst k) /\ la u = (o, ravel sizes I).
Proof.
  intros H. apply in_flat_map in H as (I & HI & H). apply in_map_iff in H as ([o K] & <- & H).
  exists I, o. split; auto. split; auto. apply in_map_iff. exists (o, K). auto.
Qed.

Lemma run_cells_frame Cs (m : lmem) f a : ~ In f (map fst k) -> run_lops (flat_map cell_lops Cs) m (f, a) = m (f, a).
Proof.
  intros Hf. apply run_other. intros u Hu. apply cells_la in Hu as (I & o & _ & Ho & E).
  rewrite E. intros X. inversion X; subst. contradiction.
Qed.

Lemma one_cell I (m : lmem) o K : In (o, K) k ->
  run_lops (cell_lops I) m (o, ravel sizes I) = K (reader m I) (m (o, ravel sizes I)).
Proof.
  assert (G : forall k', NoDup (map fst k') -> (forall x, In x k' -> In x k) -> forall mm : lmem,
     (forall f, In f ins -> forall a, mm (f, a) = m (f, a)) ->
     In (o, K) k' -> mm (o, ravel sizes I) = m (o, ravel sizes I) ->
     run_lops (map (fun oK : nat * kfun =>
       {| la := (fst oK, ravel sizes I); lf := fun m => snd oK (reader m I) (m (fst oK, ravel sizes I)) |}) k') mm (o, ravel sizes I)
     = K (reader m I) (m (o, ravel sizes I))).
  { induction k' as [|[o' K'] k' IH]; intros Hn Hsub mm Hmm Hin Heq; simpl in *; [tauto|]. inversion Hn; subst.
    rewrite run_cons. destruct Hin as [E|Hin].
    - inversion E; subst. match goal with |- run_lops ?us ?m1 ?a = _ => rewrite (run_other us m1 a) end.
      + unfold lop1. simpl. destruct (addr_eq _ _); [|congruence]. rewrite Heq.
        apply (Hloc o K); [apply Hsub; now left|]. intros f d Hf. unfold reader. now apply Hmm.
      + intros u Hu. apply in_map_iff in Hu as ([o2 K2] & <- & Hu). simpl. intros X. inversion X; subst.
        apply H1. apply in_map_iff. exists (o, K2). auto.
    - apply IH; auto.
      + intros f Hf a. unfold lop1. simpl. destruct (addr_eq _ _) as [X|]; [|now apply Hmm].
        inversion X; subst. exfalso. apply (Hdis o' Hf). apply in_map_iff. exists (o', K'). split; auto.
      + unfold lop1. simpl. destruct (addr_eq _ _) as [X|]; [|exact Heq].
        inversion X; subst. exfalso. apply H1. apply in_map_iff. exists (o', K). auto. }
  intros Hin. apply (G k); auto.
Qed.

Lemma run_cells Cs : forall (m : lmem) I o K, inb sizes I -> (forall J, In J Cs -> inb sizes J) -> In (o, K) k ->
  run_lops (flat_map cell_lops Cs) m (o, ravel sizes I) =
  Nat.iter (count_occ ldec Cs I) (K (reader m I)) (m (o, ravel sizes I)).
Proof.
  induction Cs as [|J Cs IH]; intros m I o K HI HC Hin; simpl; auto.
  rewrite run_lops_app, (IH _ I o K); auto; [|intros; apply HC; now right].
  assert (Hrd : forall x, K (reader (run_lops (cell_lops J) m) I) x = K (reader m I) x).
  { intros x. apply (Hloc o K); auto. intros f d Hf. unfold reader.
    change (cell_lops J) with ([] ++ cell_lops J). rewrite <- (app_nil_r ([] ++ cell_lops J)).
    change (([] ++ cell_lops J) ++ []) with (flat_map cell_lops [J]). apply run_cells_frame. now apply Hdis. }
  assert (Hit : forall n x, Nat.iter n (K (reader (run_lops (cell_lops J) m) I)) x = Nat.iter n (K (reader m I)) x).
  { induction n; intros x; simpl; auto. now rewrite IHn, Hrd. }
  rewrite Hit. destruct (ldec J I) as [->|Hn].
  - rewrite (one_cell I m o K Hin). simpl. clear. induction (count_occ ldec Cs I); simpl; congruence.
  - rewrite run_other; auto. intros u Hu. apply in_map_iff in Hu as ([o' K'] & <- & _). simpl.
    intros X. inversion X as [[X1 X2]]. apply ravel_inj in X2; auto. apply HC. now left.
Qed.
End Run.

(** Setting cells to a value. *)
Section RunSet.
Context {T : Type}.
Notation lmem := (@lmemT T).
Variables (sizes : list Z) (outs : list nat) (z : T).

Definition set_cell (I : list Z) : list (@lop T) :=
  map (fun o => {| la := (o, ravel sizes I); lf := fun _ => z |}) outs.
Lemma set_lops_views V : flat_map (set_lops sizes outs z) V = flat_map set_cell (flat_map (view_cells sizes) V).
Proof. induction V; simpl; auto. now rewrite flat_map_app, IHV. Qed.

Lemma run_set_list us (m : lmem) a : (forall u, In u us -> lf u = (fun _ => z)) ->
  run_lops us m a = if in_dec addr_eq a (map la us) then z else m a.
Proof.
  revert m. induction us as [|u us IH]; intros m H; simpl; auto.
  rewrite run_cons, IH by (intros; apply H; now right). unfold lop1. rewrite (H u) by now left.
  destruct (in_dec addr_eq a (map la us)); destruct (addr_eq (la u) a), (addr_eq a (la u)); congruence.
Qed.

Lemma run_sets Cs (m : lmem) I o : inb sizes I -> (forall J, In J Cs -> inb sizes J) -> In o outs ->
  run_lops (flat_map set_cell Cs) m (o, ravel sizes I) = if in_dec ldec I Cs then z else m (o, ravel sizes I).
Proof.
  intros HI HC Ho. rewrite run_set_list.
  2:{ intros u Hu. apply in_flat_map in Hu as (J & _ & Hu). apply in_map_iff in Hu as (o' & <- & _). reflexivity. }
  destruct (in_dec addr_eq _ _) as [Hin|Hn]; destruct (in_dec ldec I Cs) as [Hi|Hi]; auto.
  - exfalso. apply in_map_iff in Hin as (u & E & Hu). apply in_flat_map in Hu as (J & HJ & Hu).
    apply in_map_iff in Hu as (o' & <- & _). simpl in E. inversion E as [[E1 E2]].
    apply ravel_inj in E2; auto. now subst.
  - exfalso. apply Hn. apply in_map_iff. exists {| la := (o, ravel sizes I); lf := fun _ => z |}. split; auto.
    apply in_flat_map. exists I. split; auto. apply in_map_iff. exists o. auto.
Qed.
Lemma run_sets_frame Cs (m : lmem) f a : ~ In f outs -> run_lops (flat_map set_cell Cs) m (f, a) = m (f, a).
Proof.
  intros Hf. apply run_other. intros u Hu. apply in_flat_map in Hu as (J & _ & Hu).
  apply in_map_iff in Hu as (o' & <- & Ho). simpl. intros X. inversion X; subst. contradiction.
Qed.
End RunSet.

(** ** Facts about an exchange *)
Record exch_facts (per : bool) (dims loc : list Z) (g : Z) (F : list nat) (C : list (place * place)) : Prop := {
  ef_nrw : no_read_write C;
  ef_ss : single_source C;
  ef_rng : forall s d, In (s, d) C -> 0 <= fst s < zprod dims /\ 0 <= fst d < zprod dims;
  ef_dst : forall s d, In (s, d) C -> exists f I, In f F /\ inb (ghosted g loc) I /\ ~ inner g loc I /\ snd d = (f, ravel (ghosted g loc) I);
  ef_src : forall s d, In (s, d) C -> exists f I, In f F /\ inner g loc I /\ snd s = (f, ravel (ghosted g loc) I);
  ef_ref : forall (T : Type) (m : mem T) r f I, 0 <= r < zprod dims -> inb (ghosted g loc) I -> In f F ->
     (ghost_axes g loc I <= 1)%nat ->
     field (run_copies C m) (ghosted g loc) r f I = refreshed m per dims loc g r f I }.

Lemma gexch_facts per dims loc g D F C : grid_ok dims loc -> 0 <= g -> Forall (fun n => g <= n) loc ->
  (forall dv, In dv D -> is_dir loc dv /\ nonzero dv) ->
  schedule (zprod dims) (steps_prog (nbr per dims) (gsteps g loc D F)) C ->
  (forall (T : Type) (m : mem T) r f I, 0 <= r < zprod dims -> inb (ghosted g loc) I -> In f F ->
     (ghost_axes g loc I <= 1)%nat ->
     field (run_copies C m) (ghosted g loc) r f I = refreshed m per dims loc g r f I) ->
  exch_facts per dims loc g F C.
Proof.
  intros Hok Hg Hgn HD HC Href.
  assert (Hall : forall s d, In (s, d) C -> exists f dv c, In f F /\ In dv D /\ 0 <= fst s < zprod dims /\ 0 <= fst d < zprod dims /\
    nbr per dims (fst s) dv = Some (fst d) /\ in_box (send_start g loc dv) (lens g loc dv) c /\
    snd s = (f, ravel (ghosted g loc) c) /\ snd d = (f, ravel (ghosted g loc) (vadd c (disp dv loc)))).
  { intros s d Hin. apply (Permutation_in _ HC) in Hin. now apply (gcopies_In per dims loc g Hok D F HD) in Hin. }
  split; auto.
  - eapply gno_read_write; eauto.
  - eapply gsingle_source; eauto.
  - intros s d Hin. destruct (Hall s d Hin) as (f & dv & c & H). intuition.
  - intros s d Hin. destruct (Hall s d Hin) as (f & dv & c & Hf & Hdv & _ & _ & _ & Hc & _ & E).
    destruct (HD dv Hdv) as [Hd Hnz].
    exists f, (vadd c (disp dv loc)). split; auto. split; [now apply recv_cell_inb|]. split; auto.
    intros Hin'. apply inner_zone in Hin'. rewrite recv_cell_zone in Hin' by auto.
    apply vneg_eq in Hin'. subst dv. apply Exists_exists in Hnz as (y & Hy & Hnz).
    apply in_map_iff in Hy as (y' & <- & Hy). apply repeat_spec in Hy. lia.
  - intros s d Hin. destruct (Hall s d Hin) as (f & dv & c & Hf & Hdv & _ & _ & _ & Hc & E & _).
    destruct (HD dv Hdv) as [Hd Hnz]. exists f, c. split; auto. split; auto. eapply send_cell_inner; eauto.
Qed.

Lemma exch2_facts per py px ny nx g full F : 1 <= py /\ 1 <= px -> 1 <= g -> g <= ny /\ g <= nx ->
  exch_facts per [py; px] [ny; nx] g F (all_copies (zprod [py; px]) (exchange2 per py px ny nx g full F)).
Proof.
  intros Hp Hg Hn. set (C := all_copies _ _).
  assert (HS : schedule (zprod [py; px]) (exchange2 per py px ny nx g full F) C) by apply Permutation_refl.
  apply (gexch_facts per [py; px] [ny; nx] g (D2 full) F).
  - now apply (ok2 py px ny nx g).
  - lia.
  - now apply gn2.
  - intros dv. apply D2_dirs.
  - now apply schedule2 in HS.
  - intros T m r f I Hr HI Hf Hga. destruct full.
    + rewrite (full2' T per py px ny nx g F C m Hp Hg Hn HS r f I Hr HI).
      destruct (in_dec Nat.eq_dec f F); [reflexivity|contradiction].
    + rewrite (edges2' T per py px ny nx g F C m Hp Hg Hn HS r f I Hr HI).
      destruct (in_dec Nat.eq_dec f F); [|contradiction]. apply Nat.leb_le in Hga. now rewrite Hga.
Qed.

Lemma exch3_facts per pz py px n0 n1 n2 g full F : 1 <= pz /\ 1 <= py /\ 1 <= px -> 1 <= g -> g <= n0 /\ g <= n1 /\ g <= n2 ->
  exch_facts per [pz; py; px] [n0; n1; n2] g F (all_copies (zprod [pz; py; px]) (exchange3 per pz py px n0 n1 n2 g full F)).
Proof.
  intros Hp Hg Hn. set (C := all_copies _ _).
  assert (HS : schedule (zprod [pz; py; px]) (exchange3 per pz py px n0 n1 n2 g full F) C) by apply Permutation_refl.
  apply (gexch_facts per [pz; py; px] [n0; n1; n2] g (D3 full) F).
  - now apply (ok3 pz py px n0 n1 n2 g).
  - lia.
  - now apply gn3.
  - intros dv. apply D3_dirs.
  - now apply schedule3 in HS.
  - intros T m r f I Hr HI Hf Hga. destruct full.
    + rewrite (full3' T per pz py px n0 n1 n2 g F C m Hp Hg Hn HS r f I Hr HI).
      destruct (in_dec Nat.eq_dec f F); [reflexivity|contradiction].
    + rewrite (faces3' T per pz py px n0 n1 n2 g F C m Hp Hg Hn HS r f I Hr HI).
      destruct (in_dec Nat.eq_dec f F); [|contradiction]. apply Nat.leb_le in Hga. now rewrite Hga.
Qed.
