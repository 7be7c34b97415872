(** Proofs about Eulerian save/load. *)
From Coq Require Import String Ascii Permutation.
From Verif Require Import Base SpecGrid SpecGhost SpecStencil SpecIO Comm GhostGeo FieldProofs IoEul.
Open Scope Z_scope.
Open Scope list_scope.

(** ** equality tests *)
Lemma dkey_eqb_eq a b : dkey_eqb a b = true <-> a = b.
Proof. destruct a, b; simpl; rewrite ?String.eqb_eq; split; congruence. Qed.
Lemma cell_eqb_eq a b : cell_eqb a b = true <-> a = b.
Proof. unfold cell_eqb. destruct list_eq_dec; split; congruence. Qed.
Lemma slot_eqb_eq a b : slot_eqb a b = true <-> a = b.
Proof. destruct a, b. unfold slot_eqb. simpl. rewrite andb_true_iff, dkey_eqb_eq, cell_eqb_eq. split; [intros []; congruence|intros [= -> ->]; auto]. Qed.
Lemma place_eqb_eq a b : place_eqb a b = true <-> a = b.
Proof. destruct a, b. unfold place_eqb. simpl. rewrite andb_true_iff, Nat.eqb_eq, Z.eqb_eq. split; [intros []; congruence|intros [= -> ->]; auto]. Qed.

(** ** assignments *)
Section A.
Context {K V : Type}.
Variable eqb : K -> K -> bool.
Hypothesis eqb_eq : forall a b, eqb a b = true <-> a = b.
Lemma assign_out (ws : list (K * V)) : forall f k, ~ In k (map fst ws) -> assign eqb ws f k = f k.
Proof.
  induction ws as [|w ws IH]; intros f k H; [reflexivity|]. cbn [assign fold_left map In] in *. change (assign eqb ws (assign1 eqb f w) k = f k).
  rewrite IH by tauto. unfold assign1. destruct (eqb k (fst w)) eqn:E; [|reflexivity]. apply eqb_eq in E. exfalso. apply H. now left.
Qed.
Lemma assign_in (ws : list (K * V)) : forall f k v, NoDup (map fst ws) -> In (k, v) ws -> assign eqb ws f k = v.
Proof.
  induction ws as [|w ws IH]; intros f k v Hn Hi; [destruct Hi|]. cbn [map] in Hn. inversion Hn as [|? ? H1 H2]; subst.
  change (assign eqb ws (assign1 eqb f w) k = v). destruct Hi as [->|Hi]; [|now apply IH].
  rewrite assign_out by exact H1. unfold assign1. cbn [fst snd]. now rewrite (proj2 (eqb_eq k k) eq_refl).
Qed.
Lemma assign_app (a b : list (K * V)) f : assign eqb (a ++ b) f = assign eqb b (assign eqb a f).
Proof. unfold assign. apply fold_left_app. Qed.
End A.

(** ** names *)
Lemma append_length a b : String.length (a ++ b)%string = (String.length a + String.length b)%nat.
Proof. induction a as [|c a IH]; simpl; auto. Qed.
Lemma append_inj_len a b x y : String.length a = String.length b -> (a ++ x)%string = (b ++ y)%string -> a = b /\ x = y.
Proof.
  revert b. induction a as [|c a IH]; intros [|d b] H E; simpl in *; try lia; auto.
  injection E as -> E. injection H as H. destruct (IH b H E). subst. auto.
Qed.
Lemma digit_inj i j : (i < 10)%nat -> (j < 10)%nat -> digit i = digit j -> i = j.
Proof.
  unfold digit. intros Hi Hj E. apply (f_equal (fun s => match s with String c _ => nat_of_ascii c | EmptyString => 0%nat end)) in E. cbv beta iota in E.
  rewrite !nat_ascii_embedding in E by lia. lia.
Qed.
Lemma component_name_inj a b i j : (i < 10)%nat -> (j < 10)%nat -> component_name a i = component_name b j -> a = b /\ i = j.
Proof.
  unfold component_name. intros Hi Hj E.
  assert (L : String.length a = String.length b). { apply (f_equal String.length) in E. rewrite !append_length in E. unfold digit in E. simpl in E. lia. }
  apply append_inj_len in E as [-> E]; [|exact L]. split; [reflexivity|]. apply append_inj_len in E as [_ E]; [|reflexivity]. now apply digit_inj.
Qed.

Lemma components_In name arrs : forall i k a, In (k, a) (components name i arrs) ->
  exists j, (i <= j < i + length arrs)%nat /\ k = DVector (component_name name j) /\ nth_error arrs (j - i) = Some a.
Proof.
  induction arrs as [|x arrs IH]; intros i k a H; [destruct H|]. cbn [components] in H. destruct H as [[= <- <-]|H].
  - exists i. cbn [length]. rewrite Nat.sub_diag. repeat split; auto; lia.
  - apply IH in H as (j & H1 & H2 & H3). exists j. cbn [length]. replace (j - i)%nat with (S (j - S i)) by lia. repeat split; auto; lia.
Qed.
Lemma components_In' name arrs : forall i c a, nth_error arrs c = Some a -> In (DVector (component_name name (i + c)), a) (components name i arrs).
Proof.
  induction arrs as [|x arrs IH]; intros i [|c] a H; cbn [nth_error components] in *; try discriminate.
  - injection H as ->. rewrite Nat.add_0_r. now left.
  - right. specialize (IH (S i) c a H). now replace (i + S c)%nat with (S i + c)%nat by lia.
Qed.

(** Fields as the constructor can make them: at most ten components. *)
Definition field_ok (f : efield) : Prop := match f with EScalar _ _ => True | EVector _ arrs => (length arrs <= 10)%nat end.

Lemma datasets_name f k a : field_ok f -> In (k, a) (datasets f) ->
  (k = DScalar (ename f)) \/ exists j, (j < 10)%nat /\ k = DVector (component_name (ename f) j).
Proof.
  destruct f as [n b|n arrs]; cbn [datasets ename field_ok]; intros Hf H.
  - destruct H as [[= <- <-]|[]]. now left.
  - apply components_In in H as (j & H1 & -> & _). right. exists j. split; [lia|reflexivity].
Qed.
Lemma components_NoDup name arrs : forall i, (i + length arrs <= 10)%nat -> NoDup (map fst (components name i arrs)).
Proof.
  induction arrs as [|x arrs IH]; intros i H; cbn [components map]; constructor.
  - intros Hi. apply in_map_iff in Hi as ([k a] & E & Hi). cbn [fst] in E. apply components_In in Hi as (j & H1 & H2 & _). cbn [length] in H. subst k.
    injection H2 as H2. apply component_name_inj in H2 as [_ H2]; lia.
  - apply IH. cbn [length] in H. lia.
Qed.
Lemma datasets_NoDup f : field_ok f -> NoDup (map fst (datasets f)).
Proof. destruct f as [n a|n arrs]; cbn [datasets field_ok]; intros H; [repeat constructor; auto|now apply components_NoDup]. Qed.

Lemma NoDup_app_intro' {A} (a b : list A) : NoDup a -> NoDup b -> (forall x, In x a -> ~ In x b) -> NoDup (a ++ b).
Proof.
  induction a as [|x a IH]; intros Ha Hb H; [exact Hb|]. inversion Ha; subst. cbn [app]. constructor.
  - rewrite in_app_iff. intros [|]; [contradiction|]. now apply (H x); [left|].
  - apply IH; auto. intros y Hy. apply H. now right.
Qed.
Theorem names_fresh fs : Forall field_ok fs -> NoDup (map ename fs) -> creates_fresh fs.
Proof.
  unfold creates_fresh. induction fs as [|f fs IH]; intros Hf Hn; [constructor|]. cbn [all_datasets flat_map map] in *. rewrite map_app.
  apply Forall_inv in Hf as H1. apply Forall_inv_tail in Hf. inversion Hn as [|? ? Hx Hn']; subst.
  apply NoDup_app_intro'; [now apply datasets_NoDup|now apply IH|].
  intros k Hk Hk'. apply in_map_iff in Hk as ([k1 a1] & E1 & Hk). apply in_map_iff in Hk' as ([k2 a2] & E2 & Hk'). cbn [fst] in *. subst k1 k2.
  apply in_flat_map in Hk' as (f' & Hf' & Hk'). rewrite Forall_forall in Hf. pose proof (Hf f' Hf') as H2.
  apply Hx. apply in_map_iff. exists f'. split; [|exact Hf'].
  destruct (datasets_name f k a1 H1 Hk) as [E|(j & Hj & E)], (datasets_name f' k a2 H2 Hk') as [E'|(j' & Hj' & E')]; subst k; try discriminate E'.
  - now injection E'.
  - injection E' as E'. apply component_name_inj in E' as [E' _]; auto.
Qed.

(** the dictionary keeps names distinct *)
Lemma dict_set_names f d : forall n, In n (map ename (dict_set f d)) <-> n = ename f \/ In n (map ename d).
Proof.
  induction d as [|x d IH]; intros n; cbn [dict_set map In]; [intuition congruence|].
  destruct (ename x =? ename f)%string eqn:E; cbn [map In].
  - apply String.eqb_eq in E. rewrite E. intuition congruence.
  - rewrite IH. tauto.
Qed.
Lemma dict_set_NoDup f d : NoDup (map ename d) -> NoDup (map ename (dict_set f d)).
Proof.
  induction d as [|x d IH]; intros H; cbn [dict_set map]; [repeat constructor; auto|]. cbn [map] in H. inversion H; subst.
  destruct (ename x =? ename f)%string eqn:E; cbn [map].
  - apply String.eqb_eq in E. constructor; [now rewrite <- E|assumption].
  - constructor; auto. rewrite dict_set_names. apply String.eqb_neq in E. intros [H0|H0]; congruence.
Qed.

(** ** the two index boxes, element by element *)
Lemma vsub_ends (c loc : list Z) : length c = length loc -> vsub (vmul (map (fun x => x + 1) c) loc) (vmul c loc) = loc.
Proof. revert loc. induction c as [|x c IH]; intros [|n loc] H; simpl in *; try lia; auto. f_equal; [lia|apply IH; lia]. Qed.
Lemma chunk_cells_eq dims loc r : length loc = length dims -> chunk_cells dims loc r = map (fun x => vadd (block_start dims loc r) x) (all_cells loc).
Proof.
  intros H. unfold chunk_cells, substart, subend, all_cells. rewrite vsub_ends by (rewrite unravel_length; auto). fold (block_start dims loc r).
  assert (L : length (block_start dims loc r) = length loc) by (unfold block_start; rewrite vmul_length; rewrite unravel_length; auto).
  transitivity (box (vadd (map (fun _ => 0) loc) (block_start dims loc r)) loc).
  - f_equal. rewrite vadd_zeros_l; auto.
  - rewrite box_shift by (rewrite ?map_length; auto). apply map_ext_in. intros x Hx. apply inb_box_In in Hx. apply inb_length in Hx. apply vadd_comm. lia.
Qed.
Lemma inner_cells_io_eq loc g : inner_cells_io loc g = map (map (fun i => i + g)) (all_cells loc).
Proof.
  unfold inner_cells_io, all_cells. destruct (Z.eqb_spec g 0) as [->|_].
  - assert (E : ghosted 0 loc = loc) by (unfold ghosted; rewrite <- (map_id loc) at 2; apply map_ext; lia). rewrite E.
    symmetry. rewrite <- (map_id (box _ _)) at 2. apply map_ext. intros x. rewrite <- (map_id x) at 2. apply map_ext. lia.
  - assert (E : map (fun e => e - g - g) (ghosted g loc) = loc) by (unfold ghosted; rewrite map_map; rewrite <- (map_id loc) at 2; apply map_ext; lia). rewrite E.
    transitivity (box (vadd (map (fun _ => 0) loc) (map (fun _ => g) loc)) loc).
    + f_equal. rewrite vadd_zeros_l; auto. now rewrite map_length.
    + rewrite box_shift by (rewrite ?map_length; auto). apply map_ext_in. intros x Hx. apply inb_box_In in Hx. apply inb_length in Hx. now apply vadd_const.
Qed.
Lemma combine_cells dims loc g r : length loc = length dims ->
  combine (chunk_cells dims loc r) (inner_cells_io loc g) = map (fun x => (vadd (block_start dims loc r) x, map (fun i => i + g) x)) (all_cells loc).
Proof. intros H. rewrite chunk_cells_eq, inner_cells_io_eq by auto. apply combine_map_map. Qed.

Section P.
Context {T P : Type}.
Implicit Types (m : mem T).

Lemma rank_writes_In dims loc g fs m r w : length loc = length dims ->
  In w (rank_writes dims loc g fs m r) <-> exists k a x, In (k, a) (all_datasets fs) /\ inb loc x /\
    w = ((k, vadd (block_start dims loc r) x), Some (field m (ghosted g loc) r a (map (fun i => i + g) x))).
Proof.
  intros H. unfold rank_writes. rewrite in_flat_map. split.
  - intros ([k a] & Hk & Hw). rewrite combine_cells in Hw by auto. rewrite map_map in Hw. apply in_map_iff in Hw as (x & <- & Hx). apply inb_box_In in Hx. exists k, a, x. auto.
  - intros (k & a & x & Hk & Hx & ->). exists (k, a). split; [exact Hk|]. rewrite combine_cells by auto. rewrite map_map. apply in_map_iff. exists x. split; [reflexivity|now apply inb_box_In].
Qed.


Lemma list_prod_NoDup {A B} (l : list A) (l' : list B) : NoDup l -> NoDup l' -> NoDup (list_prod l l').
Proof.
  intros H H'. induction H as [|x l Hx H IH]; cbn [list_prod]; [constructor|]. apply NoDup_app_intro'; [|exact IH|].
  - apply FinFun.Injective_map_NoDup; [|exact H']. intros y y' [= E]. exact E.
  - intros [a b] Hi Hi'. apply in_map_iff in Hi as (y & [= <- <-] & _). apply in_prod_iff in Hi' as [Hi' _]. contradiction.
Qed.
Lemma bs_len' dims loc r : length loc = length dims -> length (block_start dims loc r) = length loc.
Proof. intros. unfold block_start. rewrite vmul_length; rewrite unravel_length; auto. Qed.
Lemma owner_at dims loc r x : grid_ok dims loc -> 0 <= r < zprod dims -> inb loc x -> owner false dims loc (vadd (block_start dims loc r) x) = Some (r, x).
Proof.
  intros Hok Hr Hx. rewrite vadd_comm. { now apply owner_gcell. } rewrite bs_len' by (now destruct Hok). symmetry. now apply inb_length.
Qed.
Lemma at_inb dims loc r x : grid_ok dims loc -> 0 <= r < zprod dims -> inb loc x -> inb (global_size dims loc) (vadd (block_start dims loc r) x).
Proof.
  intros Hok Hr Hx. rewrite vadd_comm. { now apply gcell_inb. } rewrite bs_len' by (now destruct Hok). symmetry. now apply inb_length.
Qed.
Lemma tile_at dims loc p : grid_ok dims loc -> inb (global_size dims loc) p -> exists r x, 0 <= r < zprod dims /\ inb loc x /\ p = vadd (block_start dims loc r) x.
Proof.
  intros Hok Hp. destruct (tile dims loc Hok p Hp) as (r & x & Hr & Hx & ->). exists r, x. repeat split; auto; try lia.
  apply vadd_comm. rewrite bs_len' by (now destruct Hok). now apply inb_length.
Qed.

Lemma all_writes_In dims loc g fs m w : grid_ok dims loc ->
  In w (all_writes dims loc g fs m) <-> exists r k a x, 0 <= r < zprod dims /\ In (k, a) (all_datasets fs) /\ inb loc x /\
    w = ((k, vadd (block_start dims loc r) x), Some (field m (ghosted g loc) r a (map (fun i => i + g) x))).
Proof.
  intros Hok. unfold all_writes. rewrite in_flat_map. split.
  - intros (r & Hr & Hw). apply zrange_In in Hr. apply rank_writes_In in Hw as (k & a & x & ?); [|now destruct Hok]. exists r, k, a, x. split; [lia|tauto].
  - intros (r & k & a & x & Hr & H). exists r. split; [apply zrange_In; lia|]. apply rank_writes_In; [now destruct Hok|]. eauto.
Qed.

Lemma writes_NoDup dims loc g fs m : grid_ok dims loc -> creates_fresh fs -> NoDup (map fst (all_writes dims loc g fs m)).
Proof.
  intros Hok Hf. pose proof Hok as [Hlen K2 K3]. unfold creates_fresh in Hf.
  unfold all_writes. rewrite map_flat_map'. apply NoDup_flat_map; [apply zrange_NoDup| |].
  - intros r Hr. apply zrange_In in Hr. unfold rank_writes. rewrite map_flat_map'.
    rewrite (flat_map_ext' _ (fun ka => map (fun x => (fst ka, vadd (block_start dims loc r) x)) (all_cells loc))).
    2:{ intros ka. rewrite combine_cells by auto. rewrite !map_map. reflexivity. }
    rewrite <- (flat_map_map' fst (fun k => map (fun x => (k, vadd (block_start dims loc r) x)) (all_cells loc))).
    apply NoDup_flat_map; [exact Hf| |].
    + intros k _. assert (G : forall L, NoDup L -> (forall x, In x L -> inb loc x) -> NoDup (map (fun x => (k, vadd (block_start dims loc r) x)) L)).
      { induction L as [|x L IH]; intros Hn Hi; cbn [map]; constructor; inversion Hn; subst.
        - intros H. apply in_map_iff in H as (y & [= E] & Hy).
          pose proof (owner_at dims loc r x Hok ltac:(lia) (Hi x (or_introl eq_refl))) as O1. pose proof (owner_at dims loc r y Hok ltac:(lia) (Hi y (or_intror Hy))) as O2.
          rewrite E in O2. rewrite O1 in O2. injection O2 as O2. subst. contradiction.
        - apply IH; auto. intros y Hy. apply Hi. now right. }
      apply G; [apply box_NoDup|]. intros x. apply inb_box_In.
    + intros k k' p _ _ Hp Hp'. apply in_map_iff in Hp as (x & <- & _). apply in_map_iff in Hp' as (x' & [= E _] & _). congruence.
  - intros r r' kp Hr Hr' Hp Hp'. apply zrange_In in Hr, Hr'. apply in_map_iff in Hp as (w & <- & Hw). apply in_map_iff in Hp' as (w' & E & Hw').
    apply rank_writes_In in Hw as (k & a & x & _ & Hx & ->); [|auto]. apply rank_writes_In in Hw' as (k' & a' & x' & _ & Hx' & ->); [|auto]. cbn [fst] in E. injection E as _ E.
    pose proof (owner_at dims loc r x Hok ltac:(lia) Hx) as O1. pose proof (owner_at dims loc r' x' Hok ltac:(lia) Hx') as O2. rewrite E, O1 in O2. now injection O2.
Qed.

(** every element of every dataset is written, exactly once *)
Theorem written_once dims loc g fs m : grid_ok dims loc -> creates_fresh fs ->
  Permutation (map fst (all_writes dims loc g fs m)) (list_prod (map fst (all_datasets fs)) (all_cells (global_size dims loc))).
Proof.
  intros Hok Hf. apply NoDup_Permutation.
  - now apply writes_NoDup.
  - apply list_prod_NoDup; [exact Hf|apply box_NoDup].
  - intros [k p]. rewrite in_prod_iff. split.
    + intros H. apply in_map_iff in H as (w & E & Hw). apply all_writes_In in Hw as (r & k' & a & x & Hr & Hk & Hx & ->); [|auto]. cbn [fst] in E. injection E as <- <-.
      split; [apply in_map_iff; exists (k', a); auto|]. apply inb_box_In. now apply at_inb.
    + intros [Hk Hp]. apply inb_box_In in Hp. apply in_map_iff in Hk as ([k' a] & <- & Hk). destruct (tile_at dims loc p Hok Hp) as (r & x & Hr & Hx & ->).
      apply in_map_iff. exists ((k', vadd (block_start dims loc r) x), Some (field m (ghosted g loc) r a (map (fun i => i + g) x))). split; [reflexivity|].
      apply all_writes_In; auto. exists r, k', a, x. auto.
Qed.

(** what the file holds, whatever the order of the writes *)
Lemma saved_data dims loc g fs m (params : P) ws k a r x : grid_ok dims loc -> creates_fresh fs -> Permutation ws (all_writes dims loc g fs m) ->
  In (k, a) (all_datasets fs) -> 0 <= r < zprod dims -> inb loc x ->
  f_data (saved fs params ws) (k, vadd (block_start dims loc r) x) = Some (field m (ghosted g loc) r a (map (fun i => i + g) x)).
Proof.
  intros Hok Hf Hp Hk Hr Hx. cbn [saved f_data]. apply assign_in; [exact slot_eqb_eq| |].
  - eapply Permutation_NoDup; [apply Permutation_map, Permutation_sym; exact Hp|]. now apply writes_NoDup.
  - eapply Permutation_in; [apply Permutation_sym; exact Hp|]. apply all_writes_In; auto. exists r, k, a, x. auto.
Qed.

(** ** load *)
Lemma dataset_reads_In (fill : T) dims loc g (F : efile T P) r ka w : length loc = length dims ->
  In w (dataset_reads fill dims loc g F r ka) <-> exists x, inb loc x /\
    w = ((snd ka, ravel (ghosted g loc) (map (fun i => i + g) x)), match f_data F (fst ka, vadd (block_start dims loc r) x) with Some v => v | None => fill end).
Proof.
  intros H. unfold dataset_reads. rewrite combine_cells by auto. rewrite map_map. rewrite in_map_iff. split.
  - intros (x & <- & Hx). exists x. split; [now apply inb_box_In|reflexivity].
  - intros (x & Hx & ->). exists x. split; [reflexivity|now apply inb_box_In].
Qed.
Lemma dataset_reads_NoDup (fill : T) dims loc g (F : efile T P) r ka : length loc = length dims -> 0 <= g -> NoDup (map fst (dataset_reads fill dims loc g F r ka)).
Proof.
  intros H Hg. unfold dataset_reads. rewrite combine_cells by auto. rewrite !map_map. cbn [fst snd].
  assert (G : forall L, NoDup L -> (forall x, In x L -> inb loc x) -> NoDup (map (fun x => (snd ka, ravel (ghosted g loc) (map (fun i => i + g) x))) L)).
  { induction L as [|x L IH]; intros Hn Hi; cbn [map]; constructor; inversion Hn; subst.
    - intros Hj. apply in_map_iff in Hj as (y & [= E] & Hy). apply ravel_inj in E.
      + apply map_add_inj in E. subst. contradiction.
      + apply inner_inb; auto. apply add_g_inner, Hi. now right.
      + apply inner_inb; auto. apply add_g_inner, Hi. now left.
    - apply IH; auto. intros y Hy. apply Hi. now right. }
  apply G; [apply box_NoDup|]. intros x. apply inb_box_In.
Qed.

Definition loaded_value (fill : T) (F : efile T P) (k : dkey) (p : list Z) : T := match f_data F (k, p) with Some v => v | None => fill end.

Lemma load_datasets_ok (fill : T) dims loc g (F : efile T P) r l : length loc = length dims -> 0 <= g -> forall m : nat * Z -> T, NoDup (map snd l) ->
  (forall k a, In (k, a) l -> In k (f_keys F)) ->
  exists m' : nat * Z -> T, load_datasets fill dims loc g F r l m = Loaded m' /\
    (forall k a x, In (k, a) l -> inb loc x -> m' (a, ravel (ghosted g loc) (map (fun i => i + g) x)) = loaded_value fill F k (vadd (block_start dims loc r) x)) /\
    (forall a i, ~ (In a (map snd l) /\ exists x, inb loc x /\ i = ravel (ghosted g loc) (map (fun i => i + g) x)) -> m' (a, i) = m (a, i)).
Proof.
  intros Hlen Hg. induction l as [|[k0 a0] l IH]; intros m Hn Hk.
  - exists m. split; [reflexivity|]. split; [intros ? ? ? []|reflexivity].
  - cbn [load_datasets fst]. cbn [map snd] in Hn. inversion Hn as [|? ? Hx Hn']; subst.
    replace (existsb (dkey_eqb k0) (f_keys F)) with true.
    2:{ symmetry. apply existsb_exists. exists k0. split; [apply (Hk k0 a0); now left|now apply dkey_eqb_eq]. }
    set (m1 := assign place_eqb (dataset_reads fill dims loc g F r (k0, a0)) m).
    destruct (IH m1 Hn') as (m' & E & H1 & H2); [intros; eapply Hk; right; eassumption|]. exists m'. split; [exact E|]. split.
    + intros k a x [[= -> ->]|Hi] Hxx; [|now apply H1]. rewrite H2. 2:{ intros [? _]. contradiction. }
      unfold m1. apply assign_in; [exact place_eqb_eq|now apply dataset_reads_NoDup|]. apply dataset_reads_In; auto. exists x. auto.
    + intros a i Hno. rewrite H2. 2:{ intros [Ha Hi]. apply Hno. split; [now right|exact Hi]. }
      unfold m1. apply assign_out; [exact place_eqb_eq|]. intros Hi. apply in_map_iff in Hi as (w & Ew & Hw). apply dataset_reads_In in Hw as (x & Hxx & ->); [|auto]. cbn [fst snd] in Ew. injection Ew as <- <-.
      apply Hno. split; [now left|]. exists x. auto.
Qed.

Lemma load_missing (fill : T) dims loc g (F : efile T P) r l : forall m : nat * Z -> T, (exists k a, In (k, a) l /\ ~ In k (f_keys F)) ->
  exists m' : nat * Z -> T, load_datasets fill dims loc g F r l m = Raised m'.
Proof.
  induction l as [|[k0 a0] l IH]; intros m (k & a & Hi & Hk); [destruct Hi|]. cbn [load_datasets fst].
  destruct (existsb (dkey_eqb k0) (f_keys F)) eqn:E; [|eauto]. apply IH. destruct Hi as [[= -> ->]|Hi]; [|eauto].
  apply existsb_exists in E as (k' & H1 & H2). apply dkey_eqb_eq in H2. subst. contradiction.
Qed.
End P.

Lemma components_snd name arrs : forall i, map snd (components name i arrs) = arrs.
Proof. induction arrs as [|x arrs IH]; intros i; cbn [components map snd]; [reflexivity|]. now rewrite IH. Qed.
Lemma datasets_snd f : map snd (datasets f) = arrays_of f.
Proof. destruct f; [reflexivity|apply components_snd]. Qed.
Lemma all_datasets_snd fs : map snd (all_datasets fs) = flat_map arrays_of fs.
Proof. unfold all_datasets. rewrite map_flat_map'. apply flat_map_ext'. intros. apply datasets_snd. Qed.

Lemma same_dataset f f' c a a' : same_field f f' -> nth_error (arrays_of f) c = Some a -> nth_error (arrays_of f') c = Some a' ->
  exists k, In (k, a) (datasets f) /\ In (k, a') (datasets f').
Proof.
  destruct f as [n b|n l], f' as [n' b'|n' l']; cbn [same_field arrays_of datasets]; try contradiction.
  - intros <- H H'. destruct c as [|c]; [|destruct c; discriminate]. injection H as <-. injection H' as <-. exists (DScalar n). split; now left.
  - intros [<- _] H H'. exists (DVector (component_name n c)). split; now apply (components_In' n _ 0).
Qed.
Lemma same_dataset_key f f' k a' : same_field f f' -> In (k, a') (datasets f') -> exists c a, nth_error (arrays_of f) c = Some a /\ nth_error (arrays_of f') c = Some a' /\ In (k, a) (datasets f).
Proof.
  destruct f as [n b|n l], f' as [n' b'|n' l']; cbn [same_field arrays_of datasets]; try contradiction.
  - intros <- [[= <- <-]|[]]. exists 0%nat, b. repeat split; auto. now left.
  - intros [<- Hl] H. apply components_In in H as (j & H1 & -> & H3). rewrite Nat.sub_0_r in H3. destruct (nth_error l j) as [a|] eqn:E.
    + exists j, a. repeat split; auto. now apply (components_In' n l 0).
    + apply nth_error_None in E. lia.
Qed.

Section R.
Context {T P : Type}.

(** what every rank's memory is after loading *)
Definition restored (dims loc : list Z) (g : Z) (fs : list efield) (m : mem T) (dims' loc' : list Z) (g' : Z) (fs' : list efield) (m0 m' : mem T) : Prop :=
  (forall f f' c a a' u, In f fs -> In f' fs' -> same_field f f' -> nth_error (arrays_of f) c = Some a -> nth_error (arrays_of f') c = Some a' ->
     represents dims loc g [a] m u -> represents dims' loc' g' [a'] m' (fun _ => u a)) /\
  (forall r a I, 0 <= r < zprod dims' -> inb (ghosted g' loc') I -> ~ (In a (flat_map arrays_of fs') /\ inner g' loc' I) ->
     field m' (ghosted g' loc') r a I = field m0 (ghosted g' loc') r a I) /\
  (forall r a i, 0 <= r < zprod dims' -> ~ In a (flat_map arrays_of fs') -> m' (r, (a, i)) = m0 (r, (a, i))).

Lemma restart (fill : T) (close : P -> P -> bool) dims loc g fs m params ws dims' loc' g' fs' params' m0 :
  grid_ok dims loc -> grid_ok dims' loc' -> global_size dims loc = global_size dims' loc' -> 0 <= g' ->
  creates_fresh fs -> NoDup (flat_map arrays_of fs') -> (forall f', In f' fs' -> exists f, In f fs /\ same_field f f') ->
  Permutation ws (all_writes dims loc g fs m) ->
  exists m', restored dims loc g fs m dims' loc' g' fs' m0 m' /\
    forall r, 0 <= r < zprod dims' ->
      load_rank fill close dims' loc' g' fs' params' (saved fs params ws) r (fun a => m0 (r, a)) =
      if close params' params then Loaded (fun a => m' (r, a)) else Raised (fun a => m' (r, a)).
Proof.
  intros Hok Hok' Hgs Hg' Hf Hn Hsub Hp. set (F := saved fs params ws).
  assert (Hlen' : length loc' = length dims') by (now destruct Hok').
  assert (HL : forall r, exists m' : nat * Z -> T, load_datasets fill dims' loc' g' F r (all_datasets fs') (fun a => m0 (r, a)) = Loaded m' /\
    (forall k a x, In (k, a) (all_datasets fs') -> inb loc' x -> m' (a, ravel (ghosted g' loc') (map (fun i => i + g') x)) = loaded_value fill F k (vadd (block_start dims' loc' r) x)) /\
    (forall a i, ~ (In a (map snd (all_datasets fs')) /\ exists x, inb loc' x /\ i = ravel (ghosted g' loc') (map (fun i => i + g') x)) -> m' (a, i) = m0 (r, (a, i)))).
  { intros r. apply load_datasets_ok; auto; [now rewrite all_datasets_snd|]. intros k a Hk. apply in_flat_map in Hk as (f' & Hf' & Hk).
    destruct (Hsub f' Hf') as (f & Hff & Hs). destruct (same_dataset_key f f' k a Hs Hk) as (c & b & _ & _ & Hb). cbn [F saved f_keys]. apply in_map_iff. exists (k, b). split; [reflexivity|].
    apply in_flat_map. eauto. }
  set (val := fun r => match load_datasets fill dims' loc' g' F r (all_datasets fs') (fun a => m0 (r, a)) with Loaded m' => m' | Raised m' => m' end).
  exists (fun ra => val (fst ra) (snd ra)). split.
  - split; [|split].
    + intros f f' c a a' u Hff Hf' Hs Ha Ha' Hu r b x Hr [<-|[]] Hx.
      destruct (same_dataset f f' c a a' Hs Ha Ha') as (k & Hk & Hk'). destruct (HL r) as (mr & E & H1 & _).
      unfold field. cbn [fst snd]. unfold val. rewrite E. rewrite (H1 k a' x); [|apply in_flat_map; eauto|exact Hx].
      assert (Hin : inb (global_size dims loc) (vadd (block_start dims' loc' r) x)) by (rewrite Hgs; now apply at_inb).
      destruct (tile_at dims loc _ Hok Hin) as (s & y & Hs' & Hy & Ep). unfold loaded_value. rewrite Ep. unfold F.
      rewrite (saved_data dims loc g fs m params ws k a s y); auto. 2:{ apply in_flat_map; eauto. } rewrite (Hu s a y); auto. now left.
    + intros r a I Hr HI Hno. destruct (HL r) as (mr & E & _ & H2). unfold field. cbn [fst snd]. unfold val. rewrite E. apply H2. rewrite all_datasets_snd. intros [Ha (x & Hx & Ei)]. apply Hno. split; [exact Ha|].
      apply ravel_inj in Ei; [|exact HI|apply inner_inb; auto; now apply add_g_inner]. subst I. now apply add_g_inner.
    + intros r a i Hr Hno. destruct (HL r) as (mr & E & _ & H2). cbn [fst snd]. unfold val. rewrite E. apply H2. rewrite all_datasets_snd. tauto.
  - intros r Hr. destruct (HL r) as (mr & E & _ & _). unfold load_rank. unfold val. cbn [fst snd]. rewrite E. cbn [F saved f_params]. destruct (close params' params); reflexivity.
Qed.

Lemma restart_missing (fill : T) (close : P -> P -> bool) dims loc g fs m params ws dims' loc' g' fs' params' r (m0 : nat * Z -> T) :
  Permutation ws (all_writes dims loc g fs m) ->
  (exists k a, In (k, a) (all_datasets fs') /\ ~ In k (map fst (all_datasets fs))) ->
  exists m', load_rank fill close dims' loc' g' fs' params' (saved fs params ws) r m0 = Raised m'.
Proof.
  intros _ H. destruct (load_missing fill dims' loc' g' (saved fs params ws) r (all_datasets fs') m0) as (m' & E); [exact H|].
  unfold load_rank. rewrite E. eauto.
Qed.
End R.

(** ** building the dictionary *)
Lemma add_eulerian_ok loc g d name shape arrs d' : NoDup (map ename d) -> add_eulerian loc g d name shape arrs = Some d' -> NoDup (map ename d').
Proof.
  intros H. unfold add_eulerian. destruct list_eq_dec; [intros [= <-]; now apply dict_set_NoDup|]. destruct list_eq_dec; [intros [= <-]; now apply dict_set_NoDup|discriminate].
Qed.
Lemma dict_set_Forall (Q : efield -> Prop) f d : Q f -> Forall Q d -> Forall Q (dict_set f d).
Proof.
  intros Hf H. induction H as [|x d Hx H IH]; cbn [dict_set]; [auto|]. destruct (ename x =? ename f)%string; auto.
Qed.

Lemma add_eulerian_all_ok loc g adds : (length loc <= 3)%nat -> Forall (add_consistent loc) adds -> forall d d', NoDup (map ename d) -> Forall field_ok d ->
  add_eulerian_all loc g d adds = Some d' -> NoDup (map ename d') /\ Forall field_ok d'.
Proof.
  intros Hl Hc. induction Hc as [|[[name shape] arrs] adds H1 Hc IH]; intros d d' Hn Hf E; cbn [add_eulerian_all] in E; [injection E as <-; auto|].
  destruct (add_eulerian loc g d name shape arrs) as [d1|] eqn:E1; [|discriminate]. apply (IH d1 d'); auto.
  - eapply add_eulerian_ok; eassumption.
  - unfold add_eulerian in E1. destruct list_eq_dec; [injection E1 as <-; apply dict_set_Forall; [exact I|auto]|]. destruct list_eq_dec as [->|]; [|discriminate]. injection E1 as <-.
    apply dict_set_Forall; [|auto]. cbn [field_ok]. cbn [add_consistent length hd] in H1. unfold ghosted in H1. rewrite map_length in H1. specialize (H1 eq_refl). lia.
Qed.
