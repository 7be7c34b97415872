(** Lagrangian scatter/gather: proofs. *)
From Coq Require Import FunctionalExtensionality.
From Verif Require Import Base SpecGrid Comm Blocking SpecBlocking BlockFacts FieldComm FieldProofs MasterSlave Lagrangian SpecLag LagProofs.

Lemma zrange_split a b : 0 <= a -> 0 <= b -> forall s, zrange s (a + b) = zrange s a ++ zrange (s + a) b.
Proof.
  intros Ha Hb s. unfold zrange. rewrite Z2Nat.inj_add by lia. rewrite seq_app, map_app. f_equal.
  rewrite <- (Nat.add_0_r (Z.to_nat a)) at 1. 
  assert (E : forall k l, seq (k + 0) l = map (fun x => (k + x)%nat) (seq 0 l)).
  { intros k l. induction k; simpl; [now rewrite map_id|]. rewrite <- seq_shift, IHk, map_map. reflexivity. }
  simpl. rewrite E, map_map. apply map_ext. intros. lia.
Qed.

Lemma zrange_flat k nc : 0 <= k -> 0 <= nc ->
  flat_map (fun d => map (fun i => d * k + i) (zrange 0 k)) (zrange 0 nc) = zrange 0 (nc * k).
Proof.
  intros Hk Hn. rewrite <- (Z2Nat.id nc) by lia. induction (Z.to_nat nc) as [|c IH].
  - reflexivity.
  - rewrite Nat2Z.inj_succ. unfold Z.succ. rewrite (zrange_split (Z.of_nat c) 1) by lia.
    rewrite flat_map_app, IH. replace ((Z.of_nat c + 1) * k) with (Z.of_nat c * k + k) by lia.
    rewrite (zrange_split (Z.of_nat c * k) k) by nia. f_equal.
    unfold zrange at 2. simpl. rewrite app_nil_r. replace (0 + Z.of_nat c * k) with (0 + (Z.of_nat c * k)) by lia.
    rewrite (zrange_shift 0 k). apply map_ext. intros. lia.
Qed.

Lemma map_nth_zrange (L : list Z) : map (fun i => nth (Z.to_nat i) L 0) (zrange 0 (Z.of_nat (length L))) = L.
Proof.
  unfold zrange. rewrite map_map, Nat2Z.id. induction L as [|x L IH]; simpl; auto. f_equal.
  rewrite <- seq_shift, map_map. rewrite <- IH at 2. apply map_ext. intros.
  replace (Z.to_nat (0 + Z.of_nat (S a))) with (S a) by lia. replace (Z.to_nat (0 + Z.of_nat a)) with a by lia. reflexivity.
Qed.

Lemma rowcol_inj k d d' i i' : 0 <= i < k -> 0 <= i' < k -> d * k + i = d' * k + i' -> d = d' /\ i = i'.
Proof.
  intros H H' E. assert (d = d'); [|subst; lia].
  assert (A : (d * k + i) / k = d) by (rewrite Z.div_add_l, Z.div_small by lia; lia).
  assert (B : (d' * k + i') / k = d') by (rewrite Z.div_add_l, Z.div_small by lia; lia).
  rewrite E in A. congruence.
Qed.

Section L.
Context {T : Type}.
Variables (n : Z) (address : list Z) (nc master : Z) (order : list Z) (gid lid : nat).
Hypothesis Hm : 0 <= master < n.
Hypothesis Ha : Forall (fun r => 0 <= r < n) address.
Hypothesis Ho : lag_slave_order address master order.
Hypothesis Hc : 0 <= nc.
Hypothesis Hgl : gid <> lid.

Notation N := (Z.of_nat (length address)).
Definition lx (r : Z) : list (Z * Z) := flat_map (fun d => map (fun i => (d, i)) (zrange 0 (node_count address r))) (zrange 0 nc).
Definition lga (r : Z) (x : Z * Z) : addr := (gid, fst x * N + nth (Z.to_nat (snd x)) (nodes_of address r) 0).
Definition lla (r : Z) (x : Z * Z) : addr := (lid, fst x * node_count address r + snd x).

Lemma lx_In r d i : In (d, i) (lx r) <-> 0 <= d < nc /\ 0 <= i < node_count address r.
Proof.
  unfold lx. rewrite in_flat_map. split.
  - intros (x & Hx & H). apply in_map_iff in H as (y & E & Hy). injection E as <- <-. apply zrange_In in Hx, Hy. lia.
  - intros [H1 H2]. exists d. split; [apply zrange_In; lia|]. apply in_map_iff. exists i. split; auto. apply zrange_In. lia.
Qed.
Lemma lx_NoDup r : NoDup (lx r).
Proof.
  apply NoDup_flat_map; [apply zrange_NoDup| |].
  - intros x _. apply FinFun.Injective_map_NoDup; [intros a b; congruence|apply zrange_NoDup].
  - intros x y z _ _ Hx Hy. apply in_map_iff in Hx as (a & <- & _). apply in_map_iff in Hy as (b & E & _). congruence.
Qed.

Lemma cols_eq r : global_columns address nc gid r = map (lga r) (lx r).
Proof.
  unfold global_columns, lx. rewrite map_flat_map'. apply flat_map_ext'. intros d _. rewrite map_map. unfold lga. simpl.
  change (where_eq address r) with (nodes_of address r).
  rewrite <- (map_nth_zrange (nodes_of address r)) at 1. rewrite map_map. reflexivity.
Qed.
Lemma locals_eq r : local_all address nc lid r = map (lla r) (lx r).
Proof.
  unfold local_all, lx. rewrite count_eq. rewrite map_flat_map'.
  rewrite <- zrange_flat by (unfold node_count; lia). rewrite map_flat_map'. apply flat_map_ext'. intros d _. rewrite !map_map. reflexivity.
Qed.

Lemma node_of_range r i : 0 <= i < node_count address r -> exists j, nth_error (nodes_of address r) (Z.to_nat i) = Some j /\
  nth (Z.to_nat i) (nodes_of address r) 0 = j /\ 0 <= j < N /\ nth (Z.to_nat j) address (-1) = r.
Proof.
  intros Hi. unfold node_count in Hi. destruct (nth_error (nodes_of address r) (Z.to_nat i)) as [j|] eqn:E.
  - exists j. split; auto. split; [now apply nth_error_nth|]. apply nth_error_In in E. now apply nodes_of_In in E.
  - apply nth_error_None in E. lia.
Qed.

Lemma nodes_pos r i i' : 0 <= i < node_count address r -> 0 <= i' < node_count address r ->
  nth (Z.to_nat i) (nodes_of address r) 0 = nth (Z.to_nat i') (nodes_of address r) 0 -> i = i'.
Proof.
  intros Hi Hi' E. unfold node_count in *. pose proof (nodes_of_NoDup address r) as Hn.
  rewrite (NoDup_nth _ 0) in Hn. apply Hn in E; lia.
Qed.

Lemma order_range s : In s order -> 0 <= s < n /\ s <> master.
Proof.
  intros H. apply Ho in H as [H1 H2]. split; auto. rewrite Forall_forall in Ha. auto.
Qed.

Lemma lga_inj r s x y : In x (lx r) -> In y (lx s) -> lga r x = lga s y -> r = s /\ x = y.
Proof.
  destruct x as [d i], y as [d' i']. rewrite !lx_In. intros [H1 H2] [H3 H4] E. unfold lga in E. simpl in E. injection E as E.
  destruct (node_of_range r i H2) as (j & _ & Ej & Hj & Aj). destruct (node_of_range s i' H4) as (j' & _ & Ej' & Hj' & Aj').
  rewrite Ej, Ej' in E. assert (d = d' /\ j = j') as [-> ->] by (eapply rowcol_inj; eauto). assert (Hrs : r = s) by congruence. split; auto. f_equal. rewrite <- Hrs in *.
  apply (nodes_pos r); [assumption|assumption|]. congruence.
Qed.
Lemma lla_inj r x y : In x (lx r) -> In y (lx r) -> lla r x = lla r y -> x = y.
Proof.
  destruct x as [d i], y as [d' i']. rewrite !lx_In. intros [H1 H2] [H3 H4] E. unfold lla in E. simpl in E. injection E as E.
  assert (d = d' /\ i = i') as [-> ->] by (eapply rowcol_inj; eauto). auto.
Qed.

Lemma lag_gather_eq r : lag_gather address nc master order gid lid r = @ms_gather T _ master order lx lga lla r.
Proof.
  unfold lag_gather, ms_gather. destruct (Z.eqb_spec r master).
  - subst. destruct (existsb (Z.eqb master) order) eqn:E; [apply mem_dec_spec, order_range in E; tauto|].
    simpl. rewrite cols_eq, locals_eq. f_equal. apply map_ext. intros s. now rewrite cols_eq.
  - rewrite locals_eq. now rewrite app_nil_r.
Qed.
Lemma lag_scatter_eq r : lag_scatter address nc master order gid lid r = @ms_scatter T _ master order lx lga lla r.
Proof.
  unfold lag_scatter, ms_scatter. destruct (Z.eqb_spec r master).
  - subst. destruct (existsb (Z.eqb master) order) eqn:E; [apply mem_dec_spec, order_range in E; tauto|].
    simpl. rewrite cols_eq, locals_eq, app_nil_r. f_equal. apply map_ext. intros s. now rewrite cols_eq.
  - rewrite locals_eq. reflexivity.
Qed.

Lemma part_of r i : 0 <= i < node_count address r -> part master order r.
Proof.
  intros Hi. destruct (node_of_range r i Hi) as (j & _ & _ & Hj & E). unfold part. destruct (Z.eq_dec r master); auto.
  right. apply Ho. split; auto. rewrite <- E. apply nth_In. lia.
Qed.

Lemma ith_range r i j : ith_node address r i j -> 0 <= i < node_count address r /\ nth (Z.to_nat i) (nodes_of address r) 0 = j.
Proof.
  intros [Hi E]. assert (Z.to_nat i < length (nodes_of address r))%nat by (apply nth_error_Some; congruence).
  split; [unfold node_count; lia|]. now apply nth_error_nth.
Qed.
Lemma range_ith r i : 0 <= i < node_count address r -> ith_node address r i (nth (Z.to_nat i) (nodes_of address r) 0).
Proof.
  intros Hi. destruct (node_of_range r i Hi) as (j & E & -> & _). split; [lia|auto].
Qed.

Lemma lag_gather_sync (m : Z -> @lmem T) (rest : Z -> list (@bop T)) :
  exists m', bsteps false (start n (fun r => @lag_gather T address nc master order gid lid r ++ rest r) m) (start n rest m') /\
    lag_gathered n address nc master gid lid m m'.
Proof.
  destruct (ms_gather_spec (T := T) n master order lx lga lla Hm (proj1 Ho) order_range lx_NoDup) with (m := m) (rest := rest) as (m' & R & G1 & G2 & G3).
  { intros. eapply lga_inj; eauto. }
  exists m'. split.
  - eapply bsteps_eq_l; [|exact R]. unfold start. apply config_eq; auto. apply functional_extensionality. intros r.
    now rewrite lag_gather_eq.
  - constructor; auto.
    + intros r d i j Hr Hd Hi. destruct (ith_range r i j Hi) as [Hi1 Hi2].
      specialize (G1 r (d, i)). unfold lga, lla in G1. simpl in G1. rewrite Hi2 in G1. apply G1.
      * eapply part_of; eauto.
      * now apply lx_In.
    + intros a Hn. apply G3. intros r [d i] Hp Hx E. apply lx_In in Hx as [H1 H2]. apply Hn.
      destruct (node_of_range r i H2) as (j & _ & Ej & Hj & _). exists d, j. split; auto. split; auto. rewrite E. unfold lga. simpl. now rewrite Ej.
Qed.

Lemma lag_scatter_sync (m : Z -> @lmem T) (rest : Z -> list (@bop T)) :
  exists m', bsteps false (start n (fun r => @lag_scatter T address nc master order gid lid r ++ rest r) m) (start n rest m') /\
    lag_scattered n address nc master gid lid m m'.
Proof.
  destruct (ms_scatter_spec (T := T) n master order lx lga lla Hm (proj1 Ho) order_range lx_NoDup) with (m := m) (rest := rest) as (m' & R & G1 & G2).
  { intros. eapply lla_inj; eauto. }
  { intros r x y _ _ _ E. unfold lga, lla in E. congruence. }
  exists m'. split.
  - eapply bsteps_eq_l; [|exact R]. unfold start. apply config_eq; auto. apply functional_extensionality. intros r.
    now rewrite lag_scatter_eq.
  - constructor; auto.
    + intros r d i j Hr Hd Hi. destruct (ith_range r i j Hi) as [Hi1 Hi2].
      specialize (G1 r (d, i)). unfold lga, lla in G1. simpl in G1. rewrite Hi2 in G1. apply G1.
      * eapply part_of; eauto.
      * now apply lx_In.
    + intros r a Hn. apply G2. intros Hp [d i] Hx E. apply lx_In in Hx as [H1 H2]. apply Hn.
      split; [destruct Hp as [->|Hp]; [auto|now apply order_range in Hp]|]. exists d, i, (nth (Z.to_nat i) (nodes_of address r) 0).
      split; auto. split; auto. now apply range_ith.
Qed.

Lemma runs_of_sync (prog : Z -> list (@bop T)) m m' :
  bsteps false (start n (fun r => prog r ++ []) m) (start n (fun _ => []) m') -> runs_to n prog m m'.
Proof.
  intros R. apply runs_to_intro. eapply bsteps_eq_l; [|eapply bsteps_eq; [exact R|]]; unfold start, stop; apply config_eq; auto;
    apply functional_extensionality; intros r; rewrite ?app_nil_r; destruct ((0 <=? r) && (r <? n)); auto.
Qed.

Lemma lag_gather_runs m : exists m', runs_to n (@lag_gather T address nc master order gid lid) m m' /\ lag_gathered n address nc master gid lid m m'.
Proof. destruct (lag_gather_sync m (fun _ => [])) as (m' & R & S). exists m'. split; auto. now apply runs_of_sync. Qed.
Lemma lag_scatter_runs m : exists m', runs_to n (@lag_scatter T address nc master order gid lid) m m' /\ lag_scattered n address nc master gid lid m m'.
Proof. destruct (lag_scatter_sync m (fun _ => [])) as (m' & R & S). exists m'. split; auto. now apply runs_of_sync. Qed.

(** every node is the i-th node of its rank for one i *)
Lemma node_has_place j : 0 <= j < N -> exists r i, 0 <= r < n /\ nth (Z.to_nat j) address (-1) = r /\ ith_node address r i j.
Proof.
  intros Hj. set (r := nth (Z.to_nat j) address (-1)).
  assert (In j (nodes_of address r)) by (apply nodes_of_In; auto).
  apply In_nth_error in H as (i & E). exists r, (Z.of_nat i). split; [|split; auto].
  - rewrite Forall_forall in Ha. apply Ha. apply nth_In. lia.
  - split; [lia|]. now rewrite Nat2Z.id.
Qed.

Lemma lag_roundtrip (m m1 m2 : Z -> @lmem T) : lag_scattered n address nc master gid lid m m1 -> lag_gathered n address nc master gid lid m1 m2 ->
  forall d j, 0 <= d < nc -> 0 <= j < N -> m2 master (lag_global address gid d j) = m master (lag_global address gid d j).
Proof.
  intros [S1 S2] [G1 G2 G3] d j Hd Hj. destruct (node_has_place j Hj) as (r & i & Hr & _ & Hi).
  rewrite (G1 r d i j) by auto. now apply S1.
Qed.

Lemma lag_roundtrip_back (m m1 m2 : Z -> @lmem T) : lag_gathered n address nc master gid lid m m1 -> lag_scattered n address nc master gid lid m1 m2 ->
  forall r f i, ~ (r = master /\ f = gid) -> m2 r (f, i) = m r (f, i).
Proof.
  intros [G1 G2 G3] [S1 S2] r f i Hn.
  assert (E : m1 r (f, i) = m r (f, i)).
  { destruct (Z.eq_dec r master); [|now apply G2]. subst. apply G3. intros (d & j & _ & _ & E). injection E as -> _. tauto. }
  destruct (in_dec addr_dec (f, i) (map (lla r) (lx r))) as [Hi|Hi].
  - apply in_map_iff in Hi as ([d k] & Ek & Hx). apply lx_In in Hx as [H1 H2].
    destruct (range_ith r k H2) as [K1 K2].
    assert (Hr : 0 <= r < n). { destruct (part_of r k H2) as [->|Hp]; [auto|now apply order_range in Hp]. }
    rewrite <- Ek. change (lla r (d, k)) with (lag_local address lid r d k). rewrite (S1 r d k _ Hr H1 (conj K1 K2)). now apply (G1 r d k).
  - rewrite S2; auto. intros (Hr & d & k & j & Hd & Hk & Ea). apply Hi. apply in_map_iff. exists (d, k). split; [now rewrite Ea|].
    apply lx_In. split; auto. now apply ith_range in Hk.
Qed.
End L.

Lemma index_lists_partition n address : Forall (fun r => 0 <= r < n) address ->
    (forall j, 0 <= j < Z.of_nat (length address) ->
       exists r, 0 <= r < n /\ In j (where_eq address r) /\ forall r', In j (where_eq address r') -> r' = r) /\
    (forall r j, In j (where_eq address r) -> 0 <= j < Z.of_nat (length address)) /\
    (forall r, NoDup (where_eq address r)) /\
    (forall r, local_num_lag_nodes address r = Z.of_nat (length (where_eq address r))).
Proof.
  intros Ha. split; [|split; [|split]].
  - intros j Hj. exists (nth (Z.to_nat j) address (-1)). split.
    + rewrite Forall_forall in Ha. apply Ha. apply nth_In. lia.
    + split; [apply nodes_of_In; auto|]. intros r' Hr'. apply nodes_of_In in Hr'. symmetry. tauto.
  - intros r j H. now apply nodes_of_In in H.
  - intros r. apply nodes_of_NoDup.
  - intros r. apply count_eq.
Qed.
