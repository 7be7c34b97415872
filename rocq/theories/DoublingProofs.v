(** Proofs about the doubled domain and the Poisson solvers. *)
From Coq Require Import FunctionalExtensionality.
From Verif Require Import Base SpecGrid SpecGhost SpecStencil SpecStep SpecDouble Cart CartFacts Comm Spmd GhostGeo GhostProofs FieldProofs Ghost2D Ghost3D Stencil StencilProofs HaloProofs HaloKernels HaloThms KernelList KernelProofs StepProofs StepHistory PyNum PenaliseProofs Doubling.
Arguments run_lops : simpl never.
Arguments addr_eq : simpl never.
Arguments place_dec : simpl never.

Lemma box0_In loc x : In x (box (map (fun _ => 0) loc) loc) <-> inb loc x.
Proof.
  rewrite box_In by now rewrite map_length. revert x. induction loc as [|n loc IH]; intros x; split; intros H; inversion H; subst; simpl; constructor; try lia; now apply IH.
Qed.
Lemma sub_box st loc : length st = length loc -> box st loc = map (fun x => vadd x st) (box (map (fun _ => 0) loc) loc).
Proof.
  intros Hl. rewrite <- box_shift; rewrite ?map_length; auto. f_equal.
  revert loc Hl. induction st as [|s st IH]; intros [|n loc] Hl; simpl in *; try discriminate; auto. rewrite <- IH by lia. f_equal.
Qed.
Lemma vadd_comm a b : vadd a b = vadd b a.
Proof. revert b. induction a; intros [|]; simpl; auto. rewrite IHa. f_equal. lia. Qed.
Lemma ghosted0 l : ghosted 0 l = l.
Proof. unfold ghosted. rewrite <- (map_id l) at 2. apply map_ext. intros; lia. Qed.
Lemma map_add0 (l : list Z) : map (fun i => i + 0) l = l.
Proof. rewrite <- (map_id l) at 2. apply map_ext. intros; lia. Qed.
Lemma doubled_len loc : length (doubled loc) = length loc.
Proof. apply map_length. Qed.
Lemma doubled_pos loc : positive loc -> positive (doubled loc).
Proof. induction 1; simpl; constructor; auto; lia. Qed.
Lemma doubled_ok dims loc : grid_ok dims loc -> grid_ok dims (doubled loc).
Proof. intros [H1 H2 H3]. constructor; auto; [now rewrite doubled_len|now apply doubled_pos]. Qed.
Lemma gs_vadd g (loc x : list Z) : length x = length loc -> vadd x (map (fun _ => g) loc) = map (fun i => i + g) x.
Proof. revert x. induction loc as [|l loc IH]; intros [|a x]; simpl; intros; try discriminate; auto. now rewrite IH by lia. Qed.

Definition parent (dims : list Z) (r : Z) : Z := ravel dims (map (fun c => c / 2) (unravel dims r)).
Definition half (dims : list Z) (r : Z) : list Z := map (fun c => c mod 2) (unravel dims r).
Definition off (dims loc : list Z) (r : Z) : list Z := vmul loc (half dims r).
Definition A_data (loc : list Z) (g : Z) (f : nat) : list addr := gdata f (ghosted g loc) (map (fun _ => g) loc) loc.
Definition P_data (loc : list Z) (D : nat) (o : list Z) : list addr := gdata D (doubled loc) o loc.

Lemma half_inb0 ds : forall cs, inb ds cs -> inb ds (map (fun c => c / 2) cs).
Proof.
  induction ds as [|d ds IH]; intros cs H; inversion H; subst; simpl; constructor; auto.
  pose proof (Z.div_le_upper_bound c 2 (d - 1) ltac:(lia)). pose proof (Z.div_pos c 2). lia.
Qed.
Lemma off_inb0 ds : forall ls x cs, inb ds cs -> length ls = length ds -> inb ls x -> inb (doubled ls) (vadd x (vmul ls (map (fun c => c mod 2) cs))).
Proof.
  induction ds as [|d ds IH]; intros [|l ls] x cs H Hl Hx; simpl in Hl; try discriminate; inversion H; subst; inversion Hx; subst; simpl; constructor.
  - pose proof (Z.mod_pos_bound c 2 ltac:(lia)). nia.
  - apply IH; auto.
Qed.
Lemma dpos0 cs : forall ls x, length ls = length cs -> inb ls x ->
  vadd (vmul (map (fun c => c / 2) cs) (doubled ls)) (vadd x (vmul ls (map (fun c => c mod 2) cs))) = vadd (vmul cs ls) x.
Proof.
  induction cs as [|c cs IH]; intros [|l ls] x Hl Hx; simpl in Hl; try discriminate; inversion Hx; subst; simpl; auto.
  f_equal; [|apply IH; auto]. pose proof (Z.div_mod c 2 ltac:(lia)). nia.
Qed.

Lemma global_le0 ds : positive ds -> forall ls p, length ls = length ds -> inb (global_size ds ls) p -> inb (global_size ds (doubled ls)) p.
Proof.
  unfold global_size. induction 1 as [|d ds Hd1 Hd2 IH]; intros [|l ls] p Hl H; simpl in *; try discriminate; inversion H; subst; constructor; [nia|].
  apply IH; auto.
Qed.

Section Gen.
Variables (dims loc : list Z) (g : Z).
Hypothesis Hok : grid_ok dims loc.
Hypothesis Hg : 0 <= g.
Notation n := (zprod dims).
Notation dl := (doubled loc).
Notation sizes := (ghosted g loc).

Let Hl : length loc = length dims := ok_len _ _ Hok.
Let Hd : positive dims := ok_dims _ _ Hok.
Let Hn : positive loc := ok_loc _ _ Hok.

Lemma half_inb r : 0 <= r < n -> inb dims (map (fun c => c / 2) (unravel dims r)).
Proof. intros Hr. apply half_inb0. now apply unravel_inb. Qed.
Lemma parent_range r : 0 <= r < n -> 0 <= parent dims r < n.
Proof. intros Hr. apply ravel_bound. now apply half_inb. Qed.
Lemma unravel_parent r : 0 <= r < n -> unravel dims (parent dims r) = map (fun c => c / 2) (unravel dims r).
Proof. intros Hr. unfold parent. apply unravel_ravel. now apply half_inb. Qed.
Lemma half_len r : length (half dims r) = length dims.
Proof. unfold half. now rewrite map_length, unravel_length. Qed.
Lemma off_len r : length (off dims loc r) = length loc.
Proof. unfold off. rewrite vmul_length; auto. rewrite half_len. lia. Qed.

Lemma off_inb r x : 0 <= r < n -> inb loc x -> inb dl (vadd x (off dims loc r)).
Proof. intros Hr Hx. apply (off_inb0 dims); auto. now apply unravel_inb. Qed.
(** The doubled position of a cell is its position. *)
Lemma dpos_eq r x : 0 <= r < n -> inb loc x ->
  vadd (block_start dims dl (parent dims r)) (vadd x (off dims loc r)) = vadd (block_start dims loc r) x.
Proof. intros Hr Hx. unfold block_start. rewrite unravel_parent by auto. apply dpos0; auto. now rewrite unravel_length. Qed.
Lemma dunique r J r' J' : 0 <= r < n -> 0 <= r' < n -> inb dl J -> inb dl J' ->
  vadd (block_start dims dl r) J = vadd (block_start dims dl r') J' -> r = r' /\ J = J'.
Proof.
  intros Hr Hr' HJ HJ' E. pose proof (doubled_ok dims loc Hok) as Ok2.
  destruct (tiling dims dl (vadd (block_start dims dl r) J) Ok2) as (s & y & _ & U); [now apply block_inside|].
  destruct (U r J); auto. destruct (U r' J'); auto. subst; auto.
Qed.
Lemma cover r J : 0 <= r < n -> inb dl J -> inb (global_size dims loc) (vadd (block_start dims dl r) J) ->
  exists a x, 0 <= a < n /\ inb loc x /\ parent dims a = r /\ J = vadd x (off dims loc a).
Proof.
  intros Hr HJ HP. destruct (tiling dims loc _ Hok HP) as (a & x & (Ha & Hx & E) & _). exists a, x. split; auto. split; auto.
  rewrite <- dpos_eq in E by auto. destruct (dunique _ _ _ _ (parent_range a Ha) Hr (off_inb a x Ha Hx) HJ E). auto.
Qed.
Lemma child_unique a x a' x' : 0 <= a < n -> 0 <= a' < n -> inb loc x -> inb loc x' -> parent dims a = parent dims a' ->
  vadd x (off dims loc a) = vadd x' (off dims loc a') -> a = a' /\ x = x'.
Proof.
  intros Ha Ha' Hx Hx' E1 E2. assert (E : vadd (block_start dims loc a) x = vadd (block_start dims loc a') x').
  { rewrite <- !dpos_eq by auto. congruence. }
  destruct (tiling dims loc (vadd (block_start dims loc a) x) Hok) as (s & y & _ & U); [now apply block_inside|].
  destruct (U a x); auto. destruct (U a' x'); auto. subst; auto.
Qed.

Lemma msg_combine f D a : combine (A_data loc g f) (P_data loc D (off dims loc a)) =
  map (fun x => ((f, ravel sizes (map (fun i => i + g) x)), (D, ravel dl (vadd x (off dims loc a))))) (box (map (fun _ => 0) loc) loc).
Proof.
  unfold A_data, P_data, gdata. rewrite (sub_box (map (fun _ => g) loc)) by now rewrite map_length. rewrite (sub_box (off dims loc a)) by apply off_len.
  rewrite !map_map, combine_map_map. apply map_ext_in. intros x Hx. apply box0_In in Hx. apply inb_length in Hx. now rewrite gs_vadd.
Qed.
Lemma msg_combine' f D a : combine (P_data loc D (off dims loc a)) (A_data loc g f) =
  map (fun x => ((D, ravel dl (vadd x (off dims loc a))), (f, ravel sizes (map (fun i => i + g) x)))) (box (map (fun _ => 0) loc) loc).
Proof.
  unfold A_data, P_data, gdata. rewrite (sub_box (map (fun _ => g) loc)) by now rewrite map_length. rewrite (sub_box (off dims loc a)) by apply off_len.
  rewrite !map_map, combine_map_map. apply map_ext_in. intros x Hx. apply box0_In in Hx. apply inb_length in Hx. now rewrite gs_vadd.
Qed.
Lemma msg_length f D a : length (A_data loc g f) = length (P_data loc D (off dims loc a)).
Proof. unfold A_data, P_data, gdata. rewrite !map_length. apply box_length_eq; [now rewrite map_length|apply off_len]. Qed.

(** *** Programs of the right shape *)
Definition to_shape (f D : nat) (p : Z -> list op) : Prop := forall a b, 0 <= a < n -> 0 <= b < n ->
  sends_to b (p a) = (if parent dims a =? b then [A_data loc g f] else []) /\
  recvs_from a (p b) = (if parent dims a =? b then [P_data loc D (off dims loc a)] else []).
Definition from_shape (f D : nat) (p : Z -> list op) : Prop := forall a b, 0 <= a < n -> 0 <= b < n ->
  sends_to b (p a) = (if parent dims b =? a then [P_data loc D (off dims loc b)] else []) /\
  recvs_from a (p b) = (if parent dims b =? a then [A_data loc g f] else []).

Lemma to_matched f D p : to_shape f D p -> all_matched n p.
Proof.
  intros H a b Ha Hb. destruct (H a b Ha Hb) as [-> ->]. destruct (_ =? _); constructor; [|constructor]. apply msg_length.
Qed.
Lemma from_matched f D p : from_shape f D p -> all_matched n p.
Proof.
  intros H a b Ha Hb. destruct (H a b Ha Hb) as [-> ->]. destruct (_ =? _); constructor; [|constructor]. symmetry. apply msg_length.
Qed.
Lemma to_copies f D p : to_shape f D p -> forall s d, In (s, d) (all_copies n p) <->
  exists a x, 0 <= a < n /\ inb loc x /\ s = (a, (f, ravel sizes (map (fun i => i + g) x))) /\ d = (parent dims a, (D, ravel dl (vadd x (off dims loc a)))).
Proof.
  intros H s d. unfold all_copies. rewrite in_flat_map. split.
  - intros (a & Ha & Hin). apply in_flat_map in Hin as (b & Hb & Hin). apply zrange_In in Ha, Hb.
    destruct (H a b ltac:(lia) ltac:(lia)) as [E1 E2]. rewrite E1, E2 in Hin. destruct (Z.eqb_spec (parent dims a) b) as [E|]; [|destruct Hin].
    unfold copies in Hin. cbn [combine flat_map fst snd] in Hin. rewrite app_nil_r, msg_combine, map_map in Hin.
    apply in_map_iff in Hin as (x & Ex & Hx). apply box0_In in Hx. inversion Ex; subst. exists a, x. repeat split; auto; lia.
  - intros (a & x & Ha & Hx & -> & ->). exists a. split; [apply zrange_In; lia|]. apply in_flat_map. exists (parent dims a).
    pose proof (parent_range a Ha) as Hp. split; [apply zrange_In; lia|]. destruct (H a (parent dims a) Ha Hp) as [E1 E2]. rewrite E1, E2, Z.eqb_refl.
    unfold copies. cbn [combine flat_map fst snd]. rewrite app_nil_r, msg_combine, map_map. apply in_map_iff. exists x. split; auto. now apply box0_In.
Qed.
Lemma from_copies f D p : from_shape f D p -> forall s d, In (s, d) (all_copies n p) <->
  exists b x, 0 <= b < n /\ inb loc x /\ d = (b, (f, ravel sizes (map (fun i => i + g) x))) /\ s = (parent dims b, (D, ravel dl (vadd x (off dims loc b)))).
Proof.
  intros H s d. unfold all_copies. rewrite in_flat_map. split.
  - intros (a & Ha & Hin). apply in_flat_map in Hin as (b & Hb & Hin). apply zrange_In in Ha, Hb.
    destruct (H a b ltac:(lia) ltac:(lia)) as [E1 E2]. rewrite E1, E2 in Hin. destruct (Z.eqb_spec (parent dims b) a) as [E|]; [|destruct Hin].
    unfold copies in Hin. cbn [combine flat_map fst snd] in Hin. rewrite app_nil_r, msg_combine', map_map in Hin.
    apply in_map_iff in Hin as (x & Ex & Hx). apply box0_In in Hx. inversion Ex; subst. exists b, x. repeat split; auto; lia.
  - intros (b & x & Hb & Hx & -> & ->). pose proof (parent_range b Hb) as Hp. exists (parent dims b). split; [apply zrange_In; lia|]. apply in_flat_map. exists b.
    split; [apply zrange_In; lia|]. destruct (H (parent dims b) b Hp Hb) as [E1 E2]. rewrite E1, E2, Z.eqb_refl.
    unfold copies. cbn [combine flat_map fst snd]. rewrite app_nil_r, msg_combine', map_map. apply in_map_iff. exists x. split; auto. now apply box0_In.
Qed.

Section Mem.
Context {T : Type}.
Variables (f D : nat).
Hypothesis HfD : f <> D.

Lemma inner_of x : inb loc x -> inb sizes (map (fun i => i + g) x).
Proof. intros Hx. apply inner_inb; auto. now apply add_inner. Qed.
Lemma addg_inj x y : map (fun i => i + g) x = map (fun i => i + g) y -> x = y.
Proof. revert y. induction x as [|a x IH]; intros [|b y] E; simpl in E; try discriminate; auto. injection E as E1 E2. f_equal; auto. lia. Qed.

Lemma to_ok p : to_shape f D p -> phase_ok n (@PExch T (all_copies n p) (fun _ => [])).
Proof.
  intros H. pose proof (to_copies f D p H) as HC. repeat split.
  - intros [s d] [s' d'] H1 H2. apply HC in H1 as (a & x & Ha & Hx & -> & ->). apply HC in H2 as (a' & x' & Ha' & Hx' & -> & ->). simpl. congruence.
  - intros s s' d H1 H2. apply HC in H1 as (a & x & Ha & Hx & -> & ->). apply HC in H2 as (a' & x' & Ha' & Hx' & -> & E). injection E as E1 E2.
    apply ravel_inj in E2; try (now apply off_inb). destruct (child_unique a x a' x'); auto. subst; auto.
  - apply HC in H0 as (a & x & Ha & Hx & -> & ->). simpl. lia.
  - apply HC in H0 as (a & x & Ha & Hx & -> & ->). simpl. lia.
  - apply HC in H0 as (a & x & Ha & Hx & -> & ->). simpl. now apply parent_range.
  - apply HC in H0 as (a & x & Ha & Hx & -> & ->). simpl. now apply parent_range.
  - constructor.
Qed.
Lemma from_ok p : from_shape f D p -> phase_ok n (@PExch T (all_copies n p) (fun _ => [])).
Proof.
  intros H. pose proof (from_copies f D p H) as HC. repeat split.
  - intros [s d] [s' d'] H1 H2. apply HC in H1 as (a & x & Ha & Hx & -> & ->). apply HC in H2 as (a' & x' & Ha' & Hx' & -> & ->). simpl. congruence.
  - intros s s' d H1 H2. apply HC in H1 as (a & x & Ha & Hx & -> & ->). apply HC in H2 as (a' & x' & Ha' & Hx' & E & ->). injection E as -> E2.
    apply ravel_inj in E2; try (now apply inner_of). apply addg_inj in E2. now subst.
  - apply HC in H0 as (a & x & Ha & Hx & -> & ->). simpl. now apply parent_range.
  - apply HC in H0 as (a & x & Ha & Hx & -> & ->). simpl. now apply parent_range.
  - apply HC in H0 as (a & x & Ha & Hx & -> & ->). simpl. lia.
  - apply HC in H0 as (a & x & Ha & Hx & -> & ->). simpl. lia.
  - constructor.
Qed.

Lemma den_exch (C : list (place * place)) (m : mem T) l : den n [PExch C (fun _ => [])] m l = run_copies C m l.
Proof. unfold den. cbn [fold_left den1]. unfold den_loc. destruct l as [r a]. cbn [fst snd]. destruct (_ && _); reflexivity. Qed.

Lemma rep0 D' (m : mem T) w : represents dims dl 0 [D'] m (fun _ => w) <->
  forall r J, 0 <= r < n -> inb dl J -> m (r, (D', ravel dl J)) = w (vadd (block_start dims dl r) J).
Proof.
  unfold represents, field. rewrite ghosted0. split.
  - intros H r J Hr HJ. rewrite <- (H r D' J); auto; [|now left]. now rewrite map_add0.
  - intros H r f' J Hr [<-|[]] HJ. rewrite map_add0. auto.
Qed.

Lemma to_post p (m : mem T) u w : to_shape f D p -> represents dims loc g [f] m u -> represents dims dl 0 [D] m (fun _ => w) ->
  let m' := den n [PExch (all_copies n p) (fun _ => [])] m in
  represents dims dl 0 [D] m' (fun _ => pad (global_size dims loc) (u f) w) /\
  (forall r h a, h <> D -> m' (r, (h, a)) = m (r, (h, a))).
Proof.
  intros H Hu Hw m'. pose proof (to_ok p H) as (O1 & O2 & _ & _). pose proof (to_copies f D p H) as HC. split.
  - apply rep0. intros r J Hr HJ. unfold m'. rewrite den_exch.
    destruct (run_copies_spec _ O1 O2 m (r, (D, ravel dl J))) as [R1 R2]. unfold pad.
    destruct (inbb (global_size dims loc) (vadd (block_start dims dl r) J)) eqn:E.
    + apply inbb_spec in E. destruct (cover r J Hr HJ E) as (a & x & Ha & Hx & <- & ->).
      rewrite (R1 (a, (f, ravel sizes (map (fun i => i + g) x)))) by (apply HC; eauto 6).
      rewrite dpos_eq by auto. apply (Hu a f x); auto. now left.
    + rewrite R2; [now apply rep0|]. intros s Hs. apply HC in Hs as (a & x & Ha & Hx & -> & E2). injection E2 as E1 E2.
      apply ravel_inj in E2; auto; [|now apply off_inb]. subst. rewrite dpos_eq in E by auto.
      assert (inbb (global_size dims loc) (vadd (block_start dims loc a) x) = true); [|congruence]. apply inbb_spec. now apply block_inside.
  - intros r h a Hh. unfold m'. rewrite den_exch. apply run_copies_frame. intros s Hs. apply HC in Hs as (b & x & _ & _ & _ & E). congruence.
Qed.

Lemma from_post p (m : mem T) w : from_shape f D p -> represents dims dl 0 [D] m (fun _ => w) ->
  let m' := den n [PExch (all_copies n p) (fun _ => [])] m in
  represents dims loc g [f] m' (fun _ => w) /\
  (forall r I, 0 <= r < n -> inb sizes I -> ~ inner g loc I -> field m' sizes r f I = field m sizes r f I) /\
  (forall r h a, h <> f -> m' (r, (h, a)) = m (r, (h, a))).
Proof.
  intros H Hw m'. pose proof (from_ok p H) as (O1 & O2 & _ & _). pose proof (from_copies f D p H) as HC. split; [|split].
  - intros r f' x Hr [<-|[]] Hx. unfold field, m'. rewrite den_exch. destruct (run_copies_spec _ O1 O2 m (r, (f, ravel sizes (map (fun i => i + g) x)))) as [R1 _].
    rewrite (R1 (parent dims r, (D, ravel dl (vadd x (off dims loc r))))) by (apply HC; eauto 6).
    rewrite (proj1 (rep0 D m w)) by (auto using parent_range, off_inb). now rewrite dpos_eq.
  - intros r I Hr HI Hin. unfold field, m'. rewrite den_exch. apply run_copies_frame. intros s Hs. apply HC in Hs as (b & x & Hb & Hx & E & _). injection E as -> E.
    apply ravel_inj in E; auto; [|now apply inner_of]. subst. apply Hin. now apply add_inner.
  - intros r h a Hh. unfold m'. rewrite den_exch. apply run_copies_frame. intros s Hs. apply HC in Hs as (b & x & _ & _ & E & _). congruence.
Qed.
End Mem.

(** *** The abstract FFT *)
Section FFT.
Context {T : Type}.
Variables (conv : (list Z -> T) -> list Z -> T) (z : T) (D S : nat).
Hypothesis HDS : D <> S.

Let Hdl : 1 <= zprod dl.
Proof. apply zprod_pos. now apply doubled_pos. Qed.

Lemma gather_In s d : In (s, d) (gather_all dims loc D S) <->
  exists a b k, 0 <= a < n /\ 0 <= b < n /\ 0 <= k < zprod dl /\ s = (a, (D, k)) /\ d = (b, (S, a * zprod dl + k)).
Proof.
  unfold gather_all. rewrite in_flat_map. split.
  - intros (a & Ha & H). apply in_flat_map in H as (b & Hb & H). apply in_map_iff in H as (k & E & Hk). apply zrange_In in Ha, Hb, Hk.
    inversion E; subst. exists a, b, k. repeat split; auto; lia.
  - intros (a & b & k & Ha & Hb & Hk & -> & ->). exists a. split; [apply zrange_In; lia|]. apply in_flat_map. exists b. split; [apply zrange_In; lia|].
    apply in_map_iff. exists k. split; auto. apply zrange_In. lia.
Qed.
Lemma gather_ok : phase_ok n (@PExch T (gather_all dims loc D S) (fun _ => [])).
Proof.
  repeat split.
  - intros [s d] [s' d'] H1 H2. apply gather_In in H1 as (a & b & k & _ & _ & _ & -> & ->). apply gather_In in H2 as (a' & b' & k' & _ & _ & _ & -> & ->). simpl. congruence.
  - intros s s' d H1 H2. apply gather_In in H1 as (a & b & k & _ & _ & Hk & -> & ->). apply gather_In in H2 as (a' & b' & k' & _ & _ & Hk' & -> & E).
    injection E as -> E. assert (a = a' /\ k = k') as [-> ->]; auto.
    assert (a = a'). { apply (f_equal (fun q => q / zprod dl)) in E. rewrite !Z.div_add_l, !Z.div_small in E by lia. lia. } subst. lia.
  - apply gather_In in H as (a & b & k & Ha & Hb & _ & -> & ->). simpl; lia.
  - apply gather_In in H as (a & b & k & Ha & Hb & _ & -> & ->). simpl; lia.
  - apply gather_In in H as (a & b & k & Ha & Hb & _ & -> & ->). simpl; lia.
  - apply gather_In in H as (a & b & k & Ha & Hb & _ & -> & ->). simpl; lia.
  - constructor.
Qed.

Lemma run_conv (L : list (list Z)) (h : list Z -> @lmemT T -> T) : (forall J, In J L -> inb dl J) ->
  (forall J (m m' : @lmemT T), (forall a, fst a <> D -> m a = m' a) -> h J m = h J m') ->
  forall (m : @lmemT T),
  (forall J, inb dl J -> run_lops (map (fun J => {| la := (D, ravel dl J); lf := h J |}) L) m (D, ravel dl J) = if in_dec (list_eq_dec Z.eq_dec) J L then h J m else m (D, ravel dl J)) /\
  (forall a, fst a <> D -> run_lops (map (fun J => {| la := (D, ravel dl J); lf := h J |}) L) m a = m a).
Proof.
  induction L as [|J0 L IH]; intros HL Hh m; [split; reflexivity|].
  destruct (IH ltac:(intros; apply HL; now right) Hh (lop1 m {| la := (D, ravel dl J0); lf := h J0 |})) as [I1 I2].
  assert (Same : forall a, fst a <> D -> lop1 m {| la := (D, ravel dl J0); lf := h J0 |} a = m a).
  { intros [x y] Hx. unfold lop1. cbn [la lf]. destruct (addr_eq (x, y) (D, ravel dl J0)) as [E|]; auto. simpl in Hx. congruence. }
  split.
  - intros J HJ. unfold run_lops in *. cbn [map fold_left]. rewrite I1 by auto.
    destruct (in_dec (list_eq_dec Z.eq_dec) J L) as [Hi|Hn'].
    + destruct (in_dec _ J (J0 :: L)) as [|Hc]; [|exfalso; apply Hc; now right]. apply Hh. exact Same.
    + unfold lop1. cbn [la lf]. destruct (addr_eq (D, ravel dl J) (D, ravel dl J0)) as [E|E].
      * injection E as E. apply ravel_inj in E; auto; [|apply HL; now left]. subst. destruct (in_dec _ J0 (J0 :: L)) as [|Hc]; auto. exfalso; apply Hc; now left.
      * destruct (in_dec _ J (J0 :: L)) as [[->|Hc]|]; auto; [congruence|contradiction].
  - intros a Ha. unfold run_lops in *. cbn [map fold_left]. rewrite I2 by auto. now apply Same.
Qed.

Lemma fft_post (m : mem T) w : represents dims dl 0 [D] m (fun _ => w) ->
  let m' := den n (fft_convolution conv z dims loc D S) m in
  represents dims dl 0 [D] m' (fun _ => conv (pad (global_size dims dl) w (fun _ => z))) /\
  (forall r h a, h <> D -> h <> S -> m' (r, (h, a)) = m (r, (h, a))).
Proof.
  intros Hw m'. pose proof gather_ok as (O1 & O2 & _ & _).
  unfold m', fft_convolution. change [?a; ?b] with ([a] ++ [b]). rewrite den_app. set (m1 := den n [PExch (gather_all dims loc D S) (fun _ => [])] m).
  assert (M1 : forall b a k, 0 <= a < n -> 0 <= b < n -> 0 <= k < zprod dl -> m1 (b, (S, a * zprod dl + k)) = m (a, (D, k))).
  { intros b a k Ha Hb Hk. unfold m1. rewrite den_exch. destruct (run_copies_spec _ O1 O2 m (b, (S, a * zprod dl + k))) as [R1 _]. apply R1. apply gather_In. eauto 10. }
  assert (M2 : forall r h a, h <> S -> m1 (r, (h, a)) = m (r, (h, a))).
  { intros r h a Hh. unfold m1. rewrite den_exch. apply run_copies_frame. intros s Hs. apply gather_In in Hs as (? & ? & ? & _ & _ & _ & _ & E). congruence. }
  assert (R : forall r, 0 <= r < n -> forall a, den n [PLoc (conv_lops conv z dims loc D S)] m1 (r, a) = run_lops (conv_lops conv z dims loc D S r) (fun a => m1 (r, a)) a).
  { intros r Hr a. unfold den. cbn [fold_left den1]. unfold den_loc. cbn [fst snd]. rewrite in_rk by auto. reflexivity. }
  assert (HE : forall r J (ma mb : @lmemT T), (forall a, fst a <> D -> ma a = mb a) ->
     conv (assembled_doubled z dims loc ma S) (vadd (block_start dims dl r) J) = conv (assembled_doubled z dims loc mb S) (vadd (block_start dims dl r) J)).
  { intros r J ma mb E. replace (assembled_doubled z dims loc mb S) with (assembled_doubled z dims loc ma S); auto.
    apply functional_extensionality; intros p; unfold assembled_doubled; destruct (inbb _ _); auto; apply E; simpl; congruence. }
  pose proof (fun r => run_conv (box (map (fun _ => 0) dl) dl)
     (fun J mm => conv (assembled_doubled z dims loc mm S) (vadd (block_start dims dl r) J)) (fun J HJ => proj1 (box0_In dl J) HJ)
     (HE r) (fun a => m1 (r, a))) as RC. cbv beta in RC.
  split.
  - apply rep0. intros r J Hr HJ. rewrite R by auto. destruct (RC r) as [R1 _]. unfold conv_lops. rewrite R1 by auto.
    destruct (in_dec _ J _) as [_|Hc]; [|exfalso; apply Hc; now apply box0_In].
    f_equal. apply functional_extensionality. intros p. unfold assembled_doubled, pad.
    destruct (inbb (global_size dims dl) p) eqn:E; auto.
    apply inbb_spec in E. pose proof (doubled_ok _ _ Hok) as Ok2. destruct (tiling dims dl p Ok2 E) as (s & y & (Hs & Hy & <-) & _).
    unfold block_start. destruct (vdivmod_unique dl (unravel dims s) y) as [-> ->]; auto; [rewrite unravel_length, doubled_len; lia|].
    rewrite ravel_unravel by auto. rewrite M1; auto; [|now apply ravel_bound]. now apply rep0.
  - intros r h a H1 H2. unfold den. cbn [fold_left den1]. unfold den_loc. cbn [fst snd]. destruct (_ && _); [|apply M2; auto].
    destruct (RC r) as [_ R2]. unfold conv_lops. rewrite R2 by (simpl; auto). apply M2; auto.
Qed.
End FFT.

(** *** Solve *)
Section Solve.
Context {T : Type}.
Variables (conv : (list Z -> T) -> list Z -> T) (z : T) (D S sol rhs : nat) (to_ from_ : Z -> list op).
Hypothesis HDS : D <> S.
Hypothesis Hrhs : rhs <> D /\ rhs <> S.
Hypothesis Hsol : sol <> D /\ sol <> S.
Hypothesis Hto : to_shape rhs D to_.
Hypothesis Hfrom : from_shape sol D from_.

Lemma global_le p : inb (global_size dims loc) p -> inb (global_size dims dl) p.
Proof. apply global_le0; auto. Qed.
Lemma pad_pad (u : list Z -> T) : pad (global_size dims dl) (pad (global_size dims loc) u (fun _ => z)) (fun _ => z) = pad (global_size dims loc) u (fun _ => z).
Proof.
  apply functional_extensionality. intros p. unfold pad. destruct (inbb (global_size dims dl) p) eqn:E; auto.
  destruct (inbb (global_size dims loc) p) eqn:E'; auto. apply inbb_spec, global_le, inbb_spec in E'. congruence.
Qed.

Lemma solve_ok : Forall (phase_ok n) (solve_phases conv z dims loc to_ from_ D S).
Proof.
  unfold solve_phases, fft_convolution. cbn [app]. constructor; [exact I|]. constructor; [apply (to_ok rhs D); tauto|].
  constructor; [apply gather_ok; auto|]. constructor; [exact I|]. constructor; [apply (from_ok sol D); tauto|constructor].
Qed.

Lemma solve_post (m : mem T) u : represents dims loc g [rhs] m u ->
  let m' := den n (solve_phases conv z dims loc to_ from_ D S) m in
  represents dims loc g [sol] m' (fun _ => poisson conv z (global_size dims loc) (u rhs)) /\
  (forall r I, 0 <= r < n -> inb sizes I -> ~ inner g loc I -> field m' sizes r sol I = field m sizes r sol I) /\
  (forall r h a, h <> sol -> h <> D -> h <> S -> m' (r, (h, a)) = m (r, (h, a))).
Proof.
  intros Hu m'. unfold m', solve_phases. change [PLoc ?a; ?b] with ([PLoc a] ++ [b]). rewrite !den_app.
  set (v0 := fun _ : Z => set_lops dl [D] z (map (fun _ => SAll) dl)).
  assert (Hsz : Forall (fun x => 0 <= x) dl).
  { pose proof (doubled_pos _ Hn) as H. eapply Forall_impl; [|exact H]. simpl. lia. }
  set (m1 := den n [PLoc v0] m).
  assert (F1 : forall r h a, h <> D -> m1 (r, (h, a)) = m (r, (h, a))).
  { intros r h a Hh. apply (set_frame (fun a b => a)). exact Hh. }
  assert (V1 : represents dims dl 0 [D] m1 (fun _ _ => z)).
  { apply rep0. intros r J Hr HJ. apply (set_post z dl n Hsz m D _ r J); auto. }
  assert (U1 : represents dims loc g [rhs] m1 u).
  { intros r f x Hr [<-|[]] Hx. unfold field. rewrite F1 by tauto. apply Hu; auto. now left. }
  destruct (to_post rhs D ltac:(tauto) to_ m1 u (fun _ => z) Hto U1 V1) as [V2 F2].
  set (m2 := den n [PExch (all_copies n to_) (fun _ => [])] m1) in *.
  destruct (fft_post conv z D S HDS m2 _ V2) as [V3 F3]. rewrite pad_pad in V3.
  set (m3 := den n (fft_convolution conv z dims loc D S) m2) in *.
  destruct (from_post sol D ltac:(tauto) from_ m3 _ Hfrom V3) as (V4 & G4 & F4).
  split; [exact V4|]. split.
  - intros r I Hr HI Hin. rewrite G4 by auto. unfold field. rewrite F3, F2, F1 by tauto. reflexivity.
  - intros r h a H1 H2 H3. rewrite F4, F3, F2, F1 by tauto. reflexivity.
Qed.
End Solve.
End Gen.

(** *** 2D *)
Lemma unravel_p1 p r : 0 <= r < p -> unravel [p; 1] r = [r; 0].
Proof. intros. cbn [unravel zprod]. rewrite !Z.mul_1_r, !Z.div_1_r, Z.mod_1_r. reflexivity. Qed.
Lemma unravel_1p p r : 0 <= r < p -> unravel [1; p] r = [0; r].
Proof. intros. cbn [unravel zprod]. rewrite !Z.mul_1_r, !Z.div_1_r. rewrite Z.div_small, Z.mod_small by lia. reflexivity. Qed.
Lemma parent_p1 p r : 0 <= r < p -> parent [p; 1] r = r / 2.
Proof. intros. unfold parent. rewrite unravel_p1 by auto. cbn [map ravel zprod]. change (0 / 2) with 0. lia. Qed.
Lemma parent_1p p r : 0 <= r < p -> parent [1; p] r = r / 2.
Proof. intros. unfold parent. rewrite unravel_1p by auto. cbn [map ravel zprod]. change (0 / 2) with 0. lia. Qed.
Lemma shift_p1 per p r d : 0 <= r < p -> cart_shift_dest per [p; 1] r 0 d = wrap per p (r + d).
Proof.
  intros. unfold cart_shift_dest, cart_coords. rewrite unravel_p1 by auto. unfold wrap_at. cbn [add_at nth_error firstn skipn app].
  destruct (wrap per p (r + d)); cbn [option_map ravel zprod]; auto. f_equal. lia.
Qed.
Lemma shift_1p per p r d : 0 <= r < p -> cart_shift_dest per [1; p] r 1 d = wrap per p (r + d).
Proof.
  intros. unfold cart_shift_dest, cart_coords. rewrite unravel_1p by auto. unfold wrap_at. cbn [add_at nth_error firstn skipn app].
  destruct (wrap per p (r + d)); cbn [option_map ravel zprod]; auto. f_equal. lia.
Qed.

Definition slab2 (per : bool) (py px : Z) (dd : nat) : Prop :=
  (dd = 0%nat /\ px = 1 /\ (per = false \/ py mod 2 = 0)) \/ (dd = 1%nat /\ py = 1 /\ (per = false \/ px mod 2 = 0)).

Lemma buf_gdata f sizes sub st : buf3 f (mpi_subarray sizes sub st) = gdata f sizes st sub.
Proof. unfold buf3, mpi_subarray, gdata. now rewrite map_map. Qed.

(** One-dimensional pattern of messages. *)
Definition to1 (per : bool) (p : Z) (X Y1 Y2 : list addr) (c : Z) : list op :=
  ISend (wrap per p (c + - (c / 2 + c mod 2))) X ::
  if 2 * c <? p then [IRecv (wrap per p (c + (2 * c - c))) Y1; IRecv (wrap per p (c + (2 * c + 1 - c))) Y2] else [].
Definition from1 (per : bool) (p : Z) (X Y1 Y2 : list addr) (c : Z) : list op :=
  (if 2 * c <? p then [ISend (wrap per p (c + (2 * c - c))) Y1; ISend (wrap per p (c + (2 * c + 1 - c))) Y2] else []) ++
  [IRecv (wrap per p (c + - (c / 2 + c mod 2))) X].

Lemma half_arith c : c = 2 * (c / 2) + c mod 2 /\ 0 <= c mod 2 < 2.
Proof. split; [apply Z.div_mod; lia|apply Z.mod_pos_bound; lia]. Qed.
Lemma wrap_up per p c : 0 <= c < p -> wrap per p (c + - (c / 2 + c mod 2)) = Some (c / 2).
Proof. intros H. pose proof (half_arith c). rewrite <- (wrap_in per p (c / 2)) by lia. f_equal. lia. Qed.

Ltac zb := repeat match goal with |- context [?a =? ?b] => destruct (Z.eqb_spec a b) | |- context [?a <? ?b] => destruct (Z.ltb_spec a b) end.
Lemma wrap_down per p b k : per = false \/ p mod 2 = 0 -> 0 <= b < p -> 2 * b < p -> k = 0 \/ k = 1 ->
  wrap per p (b + (2 * b + k - b)) = Some (2 * b + k) /\ 2 * b + k < p \/ wrap per p (b + (2 * b + k - b)) = None /\ p <= 2 * b + k.
Proof.
  intros Hp Hb Hb2 Hk. replace (b + (2 * b + k - b)) with (2 * b + k) by lia. destruct (Z_lt_dec (2 * b + k) p).
  - left. split; auto. apply wrap_in. lia.
  - destruct Hp as [-> |Hp].
    + right. split; [|lia]. apply wrap_none; lia.
    + exfalso. pose proof (Z.div_mod p 2 ltac:(lia)). lia.
Qed.
Lemma to1_spec per p X Y1 Y2 a b : per = false \/ p mod 2 = 0 -> 0 <= a < p -> 0 <= b < p ->
  sends_to b (to1 per p X Y1 Y2 a) = (if a / 2 =? b then [X] else []) /\
  recvs_from a (to1 per p X Y1 Y2 b) = (if a / 2 =? b then [if a mod 2 =? 0 then Y1 else Y2] else []).
Proof.
  intros Hp Ha Hb. pose proof (half_arith a). unfold to1. rewrite !wrap_up by auto. split.
  - cbn [sends_to]. assert (E : forall l, sends_to b (if 2 * a <? p then [IRecv (wrap per p (a + (2 * a - a))) Y1; IRecv l Y2] else []) = []).
    { intros l. destruct (2 * a <? p); reflexivity. }
    rewrite E. destruct (a / 2 =? b); reflexivity.
  - cbn [recvs_from]. destruct (Z.ltb_spec (2 * b) p) as [H2|H2].
    + destruct (wrap_down per p b 0 Hp Hb H2 ltac:(auto)) as [[E0 L0]|[E0 L0]]; [|lia]. rewrite Z.add_0_r in E0. rewrite E0.
      destruct (wrap_down per p b 1 Hp Hb H2 ltac:(auto)) as [[E1 L1]|[E1 L1]]; rewrite E1; cbn [recvs_from]; zb; auto; try lia.
    + cbn [recvs_from]. zb; auto; lia.
Qed.
Lemma from1_spec per p X Y1 Y2 a b : per = false \/ p mod 2 = 0 -> 0 <= a < p -> 0 <= b < p ->
  sends_to b (from1 per p X Y1 Y2 a) = (if b / 2 =? a then [if b mod 2 =? 0 then Y1 else Y2] else []) /\
  recvs_from a (from1 per p X Y1 Y2 b) = (if b / 2 =? a then [X] else []).
Proof.
  intros Hp Ha Hb. pose proof (half_arith b). unfold from1. rewrite !wrap_up by auto. split.
  - destruct (Z.ltb_spec (2 * a) p) as [H2|H2].
    + destruct (wrap_down per p a 0 Hp Ha H2 ltac:(auto)) as [[E0 L0]|[E0 L0]]; [|lia]. rewrite Z.add_0_r in E0. rewrite E0.
      destruct (wrap_down per p a 1 Hp Ha H2 ltac:(auto)) as [[E1 L1]|[E1 L1]]; rewrite E1; cbn [sends_to app]; zb; auto; try lia.
    + cbn [sends_to app]. zb; auto; lia.
  - destruct (2 * b <? p); cbn [app].
    + destruct (wrap per p (b + (2 * b - b))), (wrap per p (b + (2 * b + 1 - b))); cbn [recvs_from]; destruct (b / 2 =? a); reflexivity.
    + cbn [recvs_from]. destruct (b / 2 =? a); reflexivity.
Qed.

Lemma to2_shape per py px ny nx g dd f D : 1 <= py -> 1 <= px -> slab2 per py px dd ->
  to_shape [py; px] [ny; nx] g f D (to_doubled2 per py px ny nx g dd f D) /\ from_shape [py; px] [ny; nx] g f D (from_doubled2 per py px ny nx g dd f D).
Proof.
  intros H1 H2 [(-> & -> & Hp)|(-> & -> & Hp)]; cbn [zprod].
  - assert (Et : forall r, 0 <= r < py -> to_doubled2 per py 1 ny nx g 0 f D r = to1 per py (A_data [ny; nx] g f) (P_data [ny; nx] D [0; 0]) (P_data [ny; nx] D [ny; 0]) r).
    { intros r Hr. unfold to_doubled2, to1, shift0, shift1, cart_coords, actual_type, first_half_type, second_half_type. rewrite !unravel_p1 by auto. cbn [nth]. rewrite !shift_p1, !buf_gdata by auto. reflexivity. }
    assert (Ef : forall r, 0 <= r < py -> from_doubled2 per py 1 ny nx g 0 f D r = from1 per py (A_data [ny; nx] g f) (P_data [ny; nx] D [0; 0]) (P_data [ny; nx] D [ny; 0]) r).
    { intros r Hr. unfold from_doubled2, from1, shift0, shift1, cart_coords, actual_type, first_half_type, second_half_type. rewrite !unravel_p1 by auto. cbn [nth]. rewrite !shift_p1, !buf_gdata by auto. reflexivity. }
    assert (Eo : forall a, 0 <= a < py -> P_data [ny; nx] D (off [py; 1] [ny; nx] a) = if a mod 2 =? 0 then P_data [ny; nx] D [0; 0] else P_data [ny; nx] D [ny; 0]).
    { intros a Ha. unfold off, half. rewrite unravel_p1 by auto. pose proof (half_arith a). cbn [map vmul]. change (0 mod 2) with 0. rewrite Z.mul_0_r.
      destruct (Z.eqb_spec (a mod 2) 0) as [-> |]; [now rewrite Z.mul_0_r|]. replace (a mod 2) with 1 by lia. now rewrite Z.mul_1_r. }
    split; intros a b Ha Hb; cbn [zprod] in Ha, Hb; rewrite !Z.mul_1_r in Ha, Hb; rewrite parent_p1, Eo, ?Et, ?Ef by auto; [now apply to1_spec|now apply from1_spec].
  - assert (Et : forall r, 0 <= r < px -> to_doubled2 per 1 px ny nx g 1 f D r = to1 per px (A_data [ny; nx] g f) (P_data [ny; nx] D [0; 0]) (P_data [ny; nx] D [0; nx]) r).
    { intros r Hr. unfold to_doubled2, to1, shift0, shift1, cart_coords, actual_type, first_half_type, second_half_type. rewrite !unravel_1p by auto. cbn [nth]. rewrite !shift_1p, !buf_gdata by auto. reflexivity. }
    assert (Ef : forall r, 0 <= r < px -> from_doubled2 per 1 px ny nx g 1 f D r = from1 per px (A_data [ny; nx] g f) (P_data [ny; nx] D [0; 0]) (P_data [ny; nx] D [0; nx]) r).
    { intros r Hr. unfold from_doubled2, from1, shift0, shift1, cart_coords, actual_type, first_half_type, second_half_type. rewrite !unravel_1p by auto. cbn [nth]. rewrite !shift_1p, !buf_gdata by auto. reflexivity. }
    assert (Eo : forall a, 0 <= a < px -> P_data [ny; nx] D (off [1; px] [ny; nx] a) = if a mod 2 =? 0 then P_data [ny; nx] D [0; 0] else P_data [ny; nx] D [0; nx]).
    { intros a Ha. unfold off, half. rewrite unravel_1p by auto. pose proof (half_arith a). cbn [map vmul]. change (0 mod 2) with 0. rewrite Z.mul_0_r.
      destruct (Z.eqb_spec (a mod 2) 0) as [-> |]; [now rewrite Z.mul_0_r|]. replace (a mod 2) with 1 by lia. now rewrite Z.mul_1_r. }
    split; intros a b Ha Hb; cbn [zprod] in Ha, Hb; rewrite !Z.mul_1_r, Z.mul_1_l in Ha, Hb; rewrite parent_1p, Eo, ?Et, ?Ef by auto; [now apply to1_spec|now apply from1_spec].
Qed.

(** *** 3D (any number of axes) *)
Lemma map_cons_neq (x y : Z) (l l' : list (list Z)) v : x <> y -> In v (map (cons x) l) -> In v (map (cons y) l') -> False.
Proof. intros H H1 H2. apply in_map_iff in H1 as (a & <- & _). apply in_map_iff in H2 as (b & E & _). congruence. Qed.
Lemma NoDup_map_cons (x : Z) l : NoDup l -> NoDup (map (cons x) l).
Proof. intros H. apply FinFun.Injective_map_NoDup; auto. intros a b E. congruence. Qed.
Lemma nodup_app {A} (l1 l2 : list A) : NoDup l1 -> NoDup l2 -> (forall x, In x l1 -> In x l2 -> False) -> NoDup (l1 ++ l2).
Proof.
  induction 1 as [|a l Ha Hl IH]; intros H2 Hd; cbn [app]; auto. constructor.
  - rewrite in_app_iff. intros [H|H]; [now apply Ha|]. apply (Hd a); auto. now left.
  - apply IH; auto. intros x Hx. apply Hd. now right.
Qed.
Lemma offsets_NoDup ts : NoDup (offsets3 ts).
Proof.
  induction ts as [|t ts IH]; simpl; [repeat constructor; auto|]. destruct (t =? 1); [now apply NoDup_map_cons|].
  apply nodup_app; auto using NoDup_map_cons. intros v H1 H2. eapply (map_cons_neq 0 1); eauto. lia.
Qed.
Lemma offsets_In ts : forall o, In o (offsets3 ts) <-> Forall2 (fun t x => x = 0 \/ (t <> 1 /\ x = 1)) ts o.
Proof.
  induction ts as [|t ts IH]; intros o; cbn [offsets3].
  - split; [intros [<-|[]]; constructor|intros H; inversion H; now left].
  - destruct (Z.eqb_spec t 1) as [Ht|Ht].
    + rewrite in_map_iff. split.
      * intros (o' & <- & Ho). constructor; [now left|now apply IH].
      * intros H. inversion H as [|? y ? o' Hy Ho]; subst. exists o'. split; [|now apply IH]. f_equal. lia.
    + rewrite in_app_iff, !in_map_iff. split.
      * intros [(o' & <- & Ho)|(o' & <- & Ho)]; constructor; auto; now apply IH.
      * intros H. inversion H as [|? y ? o' Hy Ho]; subst. apply IH in Ho. destruct Hy as [-> |[_ -> ]]; [left|right]; eauto.
Qed.

Lemma child_eq ts : evenly ts -> forall cb ca, inb ts cb -> inb ts ca -> below_half ts cb = true -> forall o, In o (offsets3 ts) ->
  inb ts (child_coord ts cb o) /\ (child_coord ts cb o = ca <-> map (fun c => c / 2) ca = cb /\ o = map (fun c => c mod 2) ca).
Proof.
  induction 1 as [|t ts Ht Hts IH]; intros cb ca Hb Ha Hh o Ho; apply offsets_In in Ho; inversion Ho as [|? y ? o' Hy Ho']; subst; inversion Hb as [|? ? b bs Hb1 Hb2]; subst; inversion Ha as [|? ? a as_ Ha1 Ha2]; subst.
  - simpl. split; [constructor|]. tauto.
  - cbn [below_half] in Hh. apply andb_true_iff in Hh as [Hh1 Hh2]. apply Z.ltb_lt in Hh1. apply offsets_In in Ho'.
    destruct (IH bs as_ Hb2 Ha2 Hh2 o' Ho') as [I1 I2]. cbn [child_coord map].
    pose proof (half_arith a) as Ea. pose proof (Z.div_mod t 2 ltac:(lia)) as Et.
    assert (X : 0 <= (if t =? 1 then b else 2 * b + y) < t /\ ((if t =? 1 then b else 2 * b + y) = a <-> a / 2 = b /\ y = a mod 2)).
    { destruct (Z.eqb_spec t 1) as [-> |H1].
      - assert (a = 0) by lia. assert (b = 0) by lia. subst. change (0 / 2) with 0. change (0 mod 2) with 0. lia.
      - destruct Ht as [|Ht]; [contradiction|]. lia. }
    destruct X as [X1 X2]. split; [constructor; auto|]. split.
    + intros E. injection E as E1 E2. apply X2 in E1 as [E1 E1']. apply I2 in E2 as [E2 E2']. subst. auto.
    + intros [E1 E2]. injection E1 as E1 E1'. injection E2 as E2 E2'. f_equal; [apply X2; auto|apply I2; auto].
Qed.
Lemma parent_below ts : forall ca, inb ts ca -> below_half ts (map (fun c => c / 2) ca) = true.
Proof. intros ca H. induction H as [|t ts c cs Hc H IH]; simpl; auto. rewrite IH, andb_true_r. apply Z.ltb_lt. pose proof (half_arith c). lia. Qed.
Lemma half_off ts ca : evenly ts -> inb ts ca -> In (map (fun c => c mod 2) ca) (offsets3 ts).
Proof.
  intros Hts H. apply offsets_In. induction H as [|t ts c cs Hc H IH]; simpl; constructor.
  - inversion Hts as [|? ? Ht _]; subst. pose proof (half_arith c). destruct (Z.eq_dec (c mod 2) 0); [now left|right]. split; [|lia].
    intros ->. assert (c = 0) by lia. subst. now apply n.
  - apply IH. now inversion Hts.
Qed.

Lemma filter_one {A} (p : A -> bool) (l : list A) y : NoDup l -> (forall x, In x l -> (p x = true <-> x = y)) -> In y l -> filter p l = [y].
Proof.
  induction 1 as [|a l Ha Hl IH]; intros Hp Hy; [destruct Hy|]. cbn [filter]. destruct (p a) eqn:E.
  - apply Hp in E; [|now left]. subst. f_equal. clear IH. rewrite <- (app_nil_r (filter p l)). clear Hy.
    assert (forall x, In x l -> p x = false).
    { intros x Hx. destruct (p x) eqn:Ex; auto. apply Hp in Ex; [|now right]. subst. contradiction. }
    rewrite app_nil_r. clear Hp Ha Hl. induction l as [|b l IH]; auto. cbn [filter]. rewrite H by (now left). apply IH. intros. apply H. now right.
  - destruct Hy as [<-|Hy]; [exfalso; assert (p a = true) by (apply Hp; auto; now left); congruence|]. apply IH; auto. intros x Hx. apply Hp. now right.
Qed.
Lemma filter_none {A} (p : A -> bool) (l : list A) : (forall x, In x l -> p x = false) -> filter p l = [].
Proof. induction l as [|a l IH]; intros H; auto. cbn [filter]. rewrite H by (now left). apply IH. intros; apply H. now right. Qed.

Section D3.
Variables (per : bool) (topo loc : list Z) (g : Z) (f D : nat).
Hypothesis Hok : grid_ok topo loc.
Hypothesis Hev : evenly topo.
Notation n := (zprod topo).

Let Hd : positive topo := ok_dims _ _ Hok.

Lemma dest3 r : 0 <= r < n -> get_cart_rank per topo (map (fun x => x / 2) (cart_coords topo r)) = Some (parent topo r).
Proof.
  intros Hr. unfold get_cart_rank, cart_coords. rewrite wrapv_in by (apply half_inb0; now apply unravel_inb). reflexivity.
Qed.
Lemma src3 r o : 0 <= r < n -> below_half topo (unravel topo r) = true -> In o (offsets3 topo) ->
  get_cart_rank per topo (child_coord topo (cart_coords topo r) o) = Some (ravel topo (child_coord topo (unravel topo r) o)).
Proof.
  intros Hr Hb Ho. unfold get_cart_rank, cart_coords. pose proof (unravel_inb topo r Hd Hr) as Hu.
  destruct (child_eq topo Hev (unravel topo r) (unravel topo r) Hu Hu Hb o Ho) as [H _]. rewrite wrapv_in by auto. reflexivity.
Qed.
Definition kids (r : Z) (mk : Z -> list addr -> op) : list op :=
  if below_half topo (unravel topo r) then map (fun o => mk (ravel topo (child_coord topo (unravel topo r) o)) (part_type3 loc D o)) (offsets3 topo) else [].
Lemma seq_some l : sequence (map Some l) = Ok l.
Proof. induction l as [|a l IH]; auto. cbn [map sequence]. now rewrite IH. Qed.
Lemma kids_opt r mk : 0 <= r < n ->
  (if below_half topo (cart_coords topo r) then map (fun o => option_map (fun s => mk s (part_type3 loc D o)) (get_cart_rank per topo (child_coord topo (cart_coords topo r) o))) (offsets3 topo) else []) =
  map Some (kids r mk).
Proof.
  intros Hr. unfold kids. change (cart_coords topo r) with (unravel topo r). destruct (below_half topo (unravel topo r)) eqn:Hb; auto.
  rewrite map_map. apply map_ext_in. intros o Ho. change (unravel topo r) with (cart_coords topo r) at 1. rewrite src3 by auto. reflexivity.
Qed.
Lemma to3_ok r : 0 <= r < n -> to_doubled3 per topo loc g f D r = Ok (ISend (Some (parent topo r)) (actual_type3 loc g f) :: kids r (fun s => IRecv (Some s))).
Proof.
  intros Hr. unfold to_doubled3. rewrite dest3 by auto. cbn [option_map].
  rewrite (kids_opt r (fun s => IRecv (Some s)) Hr). apply (seq_some (_ :: _)).
Qed.
Lemma from3_ok r : 0 <= r < n -> from_doubled3 per topo loc g f D r = Ok (kids r (fun s => ISend (Some s)) ++ [IRecv (Some (parent topo r)) (actual_type3 loc g f)]).
Proof.
  intros Hr. unfold from_doubled3. rewrite dest3 by auto. cbn [option_map].
  rewrite (kids_opt r (fun s => ISend (Some s)) Hr). rewrite <- seq_some. f_equal. rewrite map_app. reflexivity.
Qed.
Lemma kids_match a b : 0 <= a < n -> 0 <= b < n ->
  (if below_half topo (unravel topo b) then filter (fun o => ravel topo (child_coord topo (unravel topo b) o) =? a) (offsets3 topo) else []) =
  if parent topo a =? b then [half topo a] else [].
Proof.
  intros Ha Hb. pose proof (unravel_inb topo a Hd Ha) as Ua. pose proof (unravel_inb topo b Hd Hb) as Ub.
  assert (Ep : parent topo a = b <-> map (fun c => c / 2) (unravel topo a) = unravel topo b).
  { unfold parent. split; intros E.
    - subst. rewrite unravel_ravel; auto. now apply half_inb0.
    - rewrite E. now apply ravel_unravel. }
  assert (Hc : below_half topo (unravel topo b) = true -> forall o, In o (offsets3 topo) ->
      ((ravel topo (child_coord topo (unravel topo b) o) =? a) = true <-> parent topo a = b /\ o = half topo a)).
  { intros Hh o Ho. destruct (child_eq topo Hev _ _ Ub Ua Hh o Ho) as [I1 I2]. rewrite Ep. unfold half. rewrite <- I2, Z.eqb_eq. split; intros E.
    - rewrite <- E. symmetry. now apply unravel_ravel.
    - rewrite E. now apply ravel_unravel. }
  destruct (Z.eqb_spec (parent topo a) b) as [E|E].
  - assert (Hh : below_half topo (unravel topo b) = true) by (rewrite <- (proj1 Ep E); now apply parent_below). rewrite Hh.
    apply filter_one; [apply offsets_NoDup| |now apply half_off].
    intros o Ho. rewrite Hc by auto. tauto.
  - destruct (below_half topo (unravel topo b)); auto. apply filter_none. intros o Ho.
    destruct (_ =? a) eqn:X; auto. apply Hc in X; auto. tauto.
Qed.
Lemma part_data o : part_type3 loc D o = P_data loc D (vmul loc o).
Proof. unfold part_type3, P_data. apply buf_gdata. Qed.

Lemma sends_kids b r : sends_to b (kids r (fun s => IRecv (Some s))) = [] /\
  sends_to b (kids r (fun s => ISend (Some s))) = map (fun o => P_data loc D (vmul loc o)) (if below_half topo (unravel topo r) then filter (fun o => ravel topo (child_coord topo (unravel topo r) o) =? b) (offsets3 topo) else []).
Proof.
  unfold kids. destruct (below_half topo (unravel topo r)); auto. split; induction (offsets3 topo) as [|o os IH]; auto.
  cbn [map sends_to filter]. rewrite IH, part_data. destruct (_ =? b); reflexivity.
Qed.
Lemma recvs_kids a r : recvs_from a (kids r (fun s => ISend (Some s))) = [] /\
  recvs_from a (kids r (fun s => IRecv (Some s))) = map (fun o => P_data loc D (vmul loc o)) (if below_half topo (unravel topo r) then filter (fun o => ravel topo (child_coord topo (unravel topo r) o) =? a) (offsets3 topo) else []).
Proof.
  unfold kids. destruct (below_half topo (unravel topo r)); auto. split; induction (offsets3 topo) as [|o os IH]; auto.
  cbn [map recvs_from filter]. rewrite IH, part_data. destruct (_ =? a); reflexivity.
Qed.
Lemma sends_app b p q : sends_to b (p ++ q) = sends_to b p ++ sends_to b q.
Proof. induction p as [|[[d|] x|[s|] x] p IH]; cbn [app sends_to]; auto. destruct (d =? b); auto. now rewrite IH. Qed.
Lemma recvs_app b p q : recvs_from b (p ++ q) = recvs_from b p ++ recvs_from b q.
Proof. induction p as [|[[d|] x|[s|] x] p IH]; cbn [app recvs_from]; auto. destruct (s =? b); auto. now rewrite IH. Qed.

Lemma to3_shape : to_shape topo loc g f D (fun r => ops_of (to_doubled3 per topo loc g f D r)).
Proof.
  intros a b Ha Hb. rewrite !to3_ok by auto. cbn [ops_of sends_to recvs_from]. rewrite (proj1 (sends_kids b a)), (proj2 (recvs_kids a b)), kids_match by auto.
  unfold actual_type3. rewrite buf_gdata. split; [reflexivity|]. destruct (_ =? b); reflexivity.
Qed.
Lemma from3_shape : from_shape topo loc g f D (fun r => ops_of (from_doubled3 per topo loc g f D r)).
Proof.
  intros a b Ha Hb. rewrite !from3_ok by auto. cbn [ops_of]. rewrite sends_app, recvs_app. cbn [sends_to recvs_from].
  rewrite (proj1 (recvs_kids a b)), (proj2 (sends_kids b a)), kids_match, app_nil_r by auto.
  unfold actual_type3. rewrite buf_gdata. split; [|reflexivity]. destruct (_ =? a); reflexivity.
Qed.
End D3.
