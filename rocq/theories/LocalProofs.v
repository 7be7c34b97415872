(** Interactions with assume_data_locality = True. *)
From Coq Require Import FunctionalExtensionality.
From Verif Require Import Base SpecGrid SpecLag SpecVbf Comm Blocking SpecBlocking Spmd BlockFacts Lagrangian LagProofs LagComm RunsTo Vbf SpecBodies VbfProofs.

(** Every node on one rank. *)
Lemma filter_true {A} (f : A -> bool) l : (forall x, In x l -> f x = true) -> filter f l = l.
Proof. induction l as [|x l IH]; intros H; cbn; [reflexivity|]. rewrite (H x) by now left. f_equal. apply IH. intros; apply H; now right. Qed.
Lemma filter_false {A} (f : A -> bool) l : (forall x, In x l -> f x = false) -> filter f l = [].
Proof. induction l as [|x l IH]; intros H; cbn; [reflexivity|]. rewrite (H x) by now left. apply IH. intros; apply H; now right. Qed.
Lemma nth_home k (h : Z) j : 0 <= j < Z.of_nat k -> nth (Z.to_nat j) (repeat h k) (-1) = h.
Proof. intros Hj. assert (H : In (nth (Z.to_nat j) (repeat h k) (-1)) (repeat h k)) by (apply nth_In; rewrite repeat_length; lia). now apply repeat_spec in H. Qed.
Lemma nodes_home k (h : Z) : nodes_of (repeat h k) h = zrange 0 (Z.of_nat k).
Proof. unfold nodes_of. rewrite repeat_length. apply filter_true. intros j Hj. apply zrange_In in Hj. apply Z.eqb_eq. apply nth_home. lia. Qed.
Lemma nodes_away k (h r : Z) : r <> h -> nodes_of (repeat h k) r = [].
Proof. intros Hr. unfold nodes_of. rewrite repeat_length. apply filter_false. intros j Hj. apply zrange_In in Hj. apply Z.eqb_neq. rewrite nth_home; lia. Qed.
Lemma count_home k (h r : Z) : node_count (repeat h k) r = if r =? h then Z.of_nat k else 0.
Proof. unfold node_count. destruct (Z.eqb_spec r h) as [-> |Hne]; [rewrite nodes_home, zrange_length; lia|now rewrite nodes_away]. Qed.
Lemma ith_home k (h r i j : Z) : ith_node (repeat h k) r i j -> r = h /\ i = j /\ 0 <= j < Z.of_nat k.
Proof.
  intros [Hi H]. destruct (Z.eq_dec r h) as [-> |Hne]; [|rewrite nodes_away in H by auto; destruct (Z.to_nat i); discriminate].
  rewrite nodes_home in H. assert (L : (Z.to_nat i < Z.to_nat (Z.of_nat k))%nat) by (rewrite <- (zrange_length 0 (Z.of_nat k)); apply nth_error_Some; congruence).
  unfold zrange in H. rewrite nth_error_map in H. rewrite (nth_error_nth' _ 0%nat) in H by (rewrite seq_length; lia). cbn [option_map] in H. rewrite seq_nth in H by lia. injection H as H. lia.
Qed.
Lemma home_ith k (h j : Z) : 0 <= j < Z.of_nat k -> ith_node (repeat h k) h j j.
Proof.
  intros Hj. split; [lia|]. rewrite nodes_home. unfold zrange. rewrite nth_error_map. rewrite (nth_error_nth' _ 0%nat) by (rewrite seq_length; lia). rewrite seq_nth by lia. cbn. f_equal. lia.
Qed.

Section V.
Context {T : Type}.
Variables (add sub mul : T -> T -> T) (z stiff damp : T).
Variables (n nc master : Z) (A : arrays) (N : Z).
Hypothesis HA : NoDup (all_arrays A).
Hypothesis Hnc : 0 <= nc.
Hypothesis Hmaster : 0 <= master < n.
Notation mem_ := (Z -> @lmem T).
Notation holds := (copies_agree n nc).
Notation inv := (consistent n nc master A N).

Lemma view_hit base v k (m : @lmem T) x : 0 <= x < k -> view base v k m (v, x) = m (base, x).
Proof. intros H. unfold view. now rewrite fill_hit. Qed.
Lemma view_miss base v k (m : @lmem T) a : fst a <> v -> view base v k m a = m a.
Proof. intros H. unfold view. now rewrite fill_miss. Qed.

Lemma interact_local_ok s (m : mem_) P V pos body flow itp : inv s m P V -> address s = repeat master (Z.to_nat N) -> flow_reader n nc A (address s) itp m flow ->
  let F := fun c j => add (mul stiff (P c j)) (mul damp (sub (flow c j) (body c j))) in
  exists m', runs_to n (interact_local add sub mul stiff damp nc master A N pos body itp) m m' /\ inv s m' P (fun c j => sub (flow c j) (body c j)) /\
    holds (address s) (lfo A) m' F /\
    (forall c j, 0 <= c < nc -> 0 <= j < N -> m' master (gfo A, c * N + j) = F c j) /\
    (forall r a, ~ In (fst a) (all_arrays A) -> m' r a = m r a).
Proof.
  intros (Hv & Hn & HP & HV) Ha [Hi1 Hi2] F.
  assert (EN : Z.of_nat (Z.to_nat N) = N) by (destruct Hv as (_ & _ & HN); lia).
  assert (Home : forall j, 0 <= j < N -> ith_node (address s) master j j) by (intros j Hj; rewrite Ha; apply home_ith; lia).
  pose proof (arr_neq A HA) as H. decompose [and] H. clear H.
  set (k := fun r => if r =? master then N else 0).
  set (f1 := fun r : Z => if r =? master then set_body nc A N pos body else (fun m : @lmem T => m)).
  set (f2 := fun r : Z => view (T := T) (gpos A) (lpos A) (nc * k r)). set (f3 := fun r : Z => view (T := T) (gvel A) (lvel A) (nc * k r)).
  set (f4 := fun r => local_forcing add sub mul stiff damp nc A (k r) (itp r)). set (f5 := fun r : Z => view (T := T) (lfo A) (gfo A) (nc * k r)).
  set (m1 := local_on n f1 m). set (m2 := local_on n f2 m1). set (m3 := local_on n f3 m2). set (m4 := local_on n f4 m3). set (m5 := local_on n f5 m4).
  assert (K : forall r, 0 <= r < n -> num s r = k r).
  { intros r Hr. rewrite (Hn r Hr), Ha, count_home. unfold k. destruct (r =? master); [exact EN|reflexivity]. }
  assert (E1 : forall r a, fst a <> gpos A -> fst a <> gvel A -> m1 r a = m r a).
  { intros r a A1 A2. unfold m1. apply local_on_frame. intros r0 m0. unfold f1. destruct (r0 =? master); [|reflexivity]. unfold set_body. rewrite !fill_miss; auto. }
  assert (E2 : forall r a, fst a <> lpos A -> m2 r a = m1 r a) by (intros r a A1; unfold m2; apply local_on_frame; intros; now apply view_miss).
  assert (E3 : forall r a, fst a <> lvel A -> m3 r a = m2 r a) by (intros r a A1; unfold m3; apply local_on_frame; intros; now apply view_miss).
  assert (E4 : forall r a, fst a <> lfo A -> fst a <> lvm A -> fst a <> lflow A -> m4 r a = m3 r a).
  { intros r a A1 A2 A3. unfold m4. apply local_on_frame. intros r0 m0. unfold f4, local_forcing. rewrite fill_miss by auto. rewrite fill_miss by auto. now apply Hi1. }
  assert (E5 : forall r a, fst a <> gfo A -> m5 r a = m4 r a) by (intros r a A1; unfold m5; apply local_on_frame; intros; now apply view_miss).
  assert (Km : k master = N) by (unfold k; now rewrite Z.eqb_refl).
  (* the body's velocity reaches the local array of the master *)
  assert (Bv : forall c j, 0 <= c < nc -> 0 <= j < N -> m3 master (lvel A, c * N + j) = body c j).
  { intros c j Hc Hj. pose proof (pair_range nc N c j Hj Hc) as Hx. unfold m3. rewrite local_on_in by auto. unfold f3. rewrite view_hit by (rewrite Km; exact Hx). rewrite E2 by (cbn; auto).
    unfold m1. rewrite local_on_in by auto. unfold f1. rewrite Z.eqb_refl. unfold set_body. rewrite fill_hit by exact Hx. destruct (div_mod_pair N c j Hj) as [-> ->]. reflexivity. }
  assert (O3 : forall r a, ~ In (fst a) (all_arrays A) -> m3 r a = m r a).
  { intros r a Hx. rewrite E3, E2, E1; auto; intros E; apply Hx; rewrite E; unfold all_arrays, locals; cbn [app In]; tauto. }
  assert (X4 : forall c j, 0 <= c < nc -> 0 <= j < N -> m4 master (lvm A, c * N + j) = sub (flow c j) (body c j) /\ m4 master (lfo A, c * N + j) = F c j).
  { intros c j Hc Hj. pose proof (pair_range nc N c j Hj Hc) as Hx. unfold m4. rewrite local_on_in by auto. unfold f4, local_forcing. rewrite Km.
    pose proof (Home j Hj) as Hij.
    pose proof (Hi2 m3 O3 master c j j Hmaster Hc Hij) as Eflow. pose proof (HP master c j j Hmaster Hc Hij) as Ep. unfold lag_local in Eflow, Ep.
    rewrite Ha, count_home, Z.eqb_refl in Eflow, Ep. rewrite EN in Eflow, Ep.
    assert (Evm : fill (lvm A) (nc * N) (fun x m => sub (m (lflow A, x)) (m (lvel A, x))) (itp master (m3 master)) (lvm A, c * N + j) = sub (flow c j) (body c j)).
    { rewrite fill_hit by auto. rewrite Eflow, Hi1 by (cbn; auto). now rewrite Bv. }
    split.
    - rewrite fill_miss by (cbn; auto). exact Evm.
    - rewrite fill_hit by auto. rewrite Evm. rewrite fill_miss by (cbn; auto). rewrite Hi1 by (cbn; auto). rewrite E3, E2, E1 by (cbn; auto). now rewrite Ep. }
  assert (HH : forall lid Q, (forall c j, 0 <= c < nc -> 0 <= j < N -> m5 master (lid, c * N + j) = Q c j) -> holds (address s) lid m5 Q).
  { intros lid Q HQ r c i j Hr Hc Hij. rewrite Ha in Hij. destruct (ith_home _ _ _ _ _ Hij) as (-> & -> & Hj). unfold lag_local. rewrite Ha, count_home, Z.eqb_refl. rewrite EN in *. now apply HQ. }
  exists m5. split; [|split; [|split; [|split]]].
  - change (runs_to n (fun r => [BLocal (f1 r)] ++ [BLocal (f2 r)] ++ [BLocal (f3 r)] ++ [BLocal (f4 r)] ++ [BLocal (f5 r)]) m m5).
    refine (runs_to_app _ _ _ _ _ _ (runs_to_local n f1 m) _). refine (runs_to_app _ _ _ _ _ _ (runs_to_local n f2 m1) _). refine (runs_to_app _ _ _ _ _ _ (runs_to_local n f3 m2) _).
    refine (runs_to_app _ _ _ _ _ _ (runs_to_local n f4 m3) _). apply (runs_to_local n f5 m4).
  - split; [exact Hv|]. split; [exact Hn|]. split.
    + apply HH. intros c j Hc Hj. rewrite E5, E4, E3, E2, E1 by (cbn; auto). pose proof (Home j Hj) as Hij.
      pose proof (HP master c j j Hmaster Hc Hij) as Ep. unfold lag_local in Ep. rewrite Ha, count_home, Z.eqb_refl in Ep. rewrite EN in Ep. exact Ep.
    + apply HH. intros c j Hc Hj. rewrite E5 by (cbn; auto). now apply X4.
  - apply HH. intros c j Hc Hj. rewrite E5 by (cbn; auto). now apply X4.
  - intros c j Hc Hj. unfold m5. rewrite local_on_in by auto. unfold f5. rewrite view_hit by (rewrite Km; now apply pair_range). now apply X4.
  - intros r a Hx. rewrite E5, E4 by (intros E; apply Hx; rewrite E; unfold all_arrays, locals; cbn [app In]; tauto). now apply O3.
Qed.
End V.
