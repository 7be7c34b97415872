From Coq Require Import FunctionalExtensionality QArith Qround Lqa.
From Verif Require Import Base SpecGrid Cart CartFacts Comm Blocking SpecBlocking BlockFacts FieldComm FieldProofs Lagrangian SpecLag.
Open Scope Z_scope.

(** *** truncation *)
Lemma trunc_spec q : (0 <= q)%Q -> (inject_Z (trunc q) <= q)%Q /\ (q < inject_Z (trunc q + 1))%Q.
Proof.
  intros Hq. assert (E : trunc q = Qfloor q).
  { unfold trunc, Qfloor. destruct q as [a b]. simpl. unfold Qle in Hq. simpl in Hq. apply Z.quot_div_nonneg; lia. }
  rewrite E. split; [apply Qfloor_le|apply Qlt_floor].
Qed.

Lemma trunc_nonneg q : (0 <= q)%Q -> 0 <= trunc q.
Proof.
  intros Hq. unfold trunc. destruct q as [a b]. unfold Qle in Hq. simpl in *. apply Z.quot_pos; lia.
Qed.

Lemma trunc_unique q k : (0 <= q)%Q -> (inject_Z k <= q)%Q -> (q < inject_Z (k + 1))%Q -> trunc q = k.
Proof.
  intros Hq H1 H2. destruct (trunc_spec q Hq) as [T1 T2].
  assert (inject_Z k < inject_Z (trunc q + 1))%Q by lra.
  assert (inject_Z (trunc q) < inject_Z (k + 1))%Q by lra.
  rewrite <- Zlt_Qlt in *. lia.
Qed.

Lemma trunc_lower q : (inject_Z (trunc q) <= q)%Q \/ trunc q <= 0.
Proof.
  destruct (Qlt_le_dec q 0) as [H|H].
  - right. unfold trunc. destruct q as [a b]. unfold Qlt in H. simpl in *.
    replace a with (- (- a)) by lia. rewrite Z.quot_opp_l by lia. pose proof (Z.quot_pos (-a) (Z.pos b)). lia.
  - left. apply trunc_spec; auto.
Qed.

Section Q.
Variables (dx shift : Q).
Hypothesis Hdx : (0 < dx)%Q.

Lemma quot_scale x n k : 1 <= n -> (0 <= x)%Q ->
  (trunc (x / (dx * inject_Z n)) = k <-> (dx * inject_Z (k * n) <= x)%Q /\ (x < dx * inject_Z (k * n + n))%Q).
Proof.
  intros Hn Hx.
  assert (Hd : (0 < dx * inject_Z n)%Q).
  { apply Qmult_lt_0_compat; auto. change 0%Q with (inject_Z 0). rewrite <- Zlt_Qlt. lia. }
  assert (Hq : (0 <= x / (dx * inject_Z n))%Q).
  { apply Qle_shift_div_l; auto. lra. }
  assert (M1 : (dx * inject_Z (k * n) == inject_Z k * (dx * inject_Z n))%Q) by (rewrite inject_Z_mult; ring).
  assert (M2 : (dx * inject_Z (k * n + n) == inject_Z (k + 1) * (dx * inject_Z n))%Q).
  { replace (k * n + n) with ((k + 1) * n) by lia. rewrite inject_Z_mult. ring. }
  rewrite M1, M2. split.
  - intros <-. destruct (trunc_spec _ Hq) as [T1 T2]. split.
    + apply (Qmult_le_compat_r _ _ (dx * inject_Z n)) in T1; [|lra].
      setoid_replace (x / (dx * inject_Z n) * (dx * inject_Z n))%Q with x in T1; auto. field. 
      split; intros E; rewrite E in Hd; lra.
    + apply (Qmult_lt_compat_r _ _ (dx * inject_Z n)) in T2; [|auto].
      setoid_replace (x / (dx * inject_Z n) * (dx * inject_Z n))%Q with x in T2; auto. field.
      split; intros E; rewrite E in Hd; lra.
  - intros [H1 H2]. apply trunc_unique; auto.
    + apply Qle_shift_div_l; auto.
    + apply Qlt_shift_div_r; auto.
Qed.
End Q.

Section MapNodes.
Variables (per : bool) (dims loc : list Z) (dx shift : Q).
Hypothesis Hdx : (0 < dx)%Q.

Notation coords := (subblock_coords dx shift).

Lemma rel_unfold pos : rel shift pos = map (fun p => p - shift)%Q (rev pos).
Proof. reflexivity. Qed.

Lemma coords_spec ds ns : positive ns -> length ns = length ds -> forall ps,
  in_cells dx (map (fun _ => 0) ds) (vmul ds ns) (map (fun p => p - shift)%Q ps) ->
  inb ds (coords ns ps) /\
  in_cells dx (vmul (coords ns ps) ns) ns (map (fun p => p - shift)%Q ps) /\
  (forall cs, length cs = length ds -> in_cells dx (vmul cs ns) ns (map (fun p => p - shift)%Q ps) -> cs = coords ns ps).
Proof.
  intros Hp. revert ds. induction Hp as [|n ns Hn Hp IH]; intros [|d ds] Hl ps H; simpl in *; try discriminate.
  - inversion H as [E|]; subst. split; [constructor|]. split; [destruct ps; [constructor|discriminate]|].
    intros [|c cs] Hc _; [reflexivity|discriminate].
  - destruct ps as [|p ps]; simpl in *; inversion H as [|s ss l ls x xs H1 H2 H3 E1 E2 E3]; subst.
    destruct (IH ds ltac:(lia) ps H3) as (I1 & I2 & I3). clear IH.
    assert (Hx : (0 <= p - shift)%Q). { change (inject_Z 0) with 0%Q in H1. rewrite Qmult_0_r in H1. exact H1. }
    destruct (proj1 (quot_scale dx Hdx (p - shift) n _ Hn Hx) eq_refl) as [T1 T2].
    set (k := trunc ((p - shift) / (dx * inject_Z n))) in *.
    assert (Hk : 0 <= k < d).
    { split.
      - apply trunc_nonneg. apply Qle_shift_div_l; [|lra].
        apply Qmult_lt_0_compat; auto. change 0%Q with (inject_Z 0). rewrite <- Zlt_Qlt. lia.
      - assert (dx * inject_Z (k * n) < dx * inject_Z (0 + d * n))%Q by lra.
        apply Qmult_lt_l in H0; auto. rewrite <- Zlt_Qlt in H0. nia. }
    split; [constructor; auto|]. split; [constructor; auto|].
    intros [|c cs] Hc Hin; [discriminate|]. simpl in *. inversion Hin; subst.
    f_equal; [|apply I3; auto; lia]. symmetry. apply quot_scale; auto.
Qed.

Lemma any_ge_inb cs : inb dims cs -> any_ge cs dims = false.
Proof.
  induction 1 as [|d ds c cs Hc H IH]; simpl; auto. rewrite IH. destruct (Z.leb_spec d c); [lia|reflexivity].
Qed.

Lemma np_indices_inb cs : inb dims cs -> np_indices dims cs = Some cs.
Proof.
  induction 1 as [|d ds c cs Hc H IH]; simpl; auto. rewrite IH. unfold np_index.
  destruct (Z.leb_spec 0 c), (Z.ltb_spec c d); try lia. reflexivity.
Qed.

Lemma lookup_inb cs : inb dims cs -> rank_map_lookup per dims cs = Some (ravel dims cs).
Proof.
  intros H. unfold rank_map_lookup. rewrite np_indices_inb by auto. unfold get_cart_rank. now rewrite wrapv_in.
Qed.

Lemma all_some_Forall2 {A B} (f : A -> option B) (P : A -> B -> Prop) l :
  Forall (fun a => exists b, f a = Some b /\ P a b) l -> exists bs, all_some (map f l) = Some bs /\ Forall2 P l bs.
Proof.
  induction 1 as [|a l (b & E & Hb) H (bs & E' & Hbs)]; simpl.
  - exists []. split; auto.
  - rewrite E. simpl. rewrite E'. exists (b :: bs). split; auto.
Qed.

Theorem map_in_domain nodes : grid_ok dims loc -> Forall (in_domain dx shift dims loc) nodes ->
  exists address, map_nodes per dims loc dx shift (Z.of_nat (length dims)) nodes = Mapped address /\
    Forall2 (fun pos r => 0 <= r < zprod dims /\ in_block dx shift dims loc r pos /\
       forall r', 0 <= r' < zprod dims -> in_block dx shift dims loc r' pos -> r' = r) nodes address.
Proof.
  intros [Hl Hd Hn] H. unfold map_nodes. rewrite Z.eqb_refl. simpl. unfold compute_rank_address.
  assert (K : forall pos, in_domain dx shift dims loc pos -> inb dims (node_block loc dx shift pos) /\
     in_block dx shift dims loc (ravel dims (node_block loc dx shift pos)) pos /\
     forall r', 0 <= r' < zprod dims -> in_block dx shift dims loc r' pos -> r' = ravel dims (node_block loc dx shift pos)).
  { intros pos Hp. unfold in_domain, rel in Hp. destruct (coords_spec dims loc Hn ltac:(lia) (rev pos) Hp) as (A1 & A2 & A3).
    split; auto. unfold in_block, block_start, rel. split.
    - rewrite unravel_ravel by exact A1. exact A2.
    - intros r' Hr' Hb. apply A3 in Hb; [|now rewrite unravel_length]. unfold node_block. rewrite <- Hb. now rewrite ravel_unravel. }
  assert (Ex : existsb (fun p => any_ge (node_block loc dx shift p) dims) nodes = false).
  { apply not_true_iff_false. rewrite existsb_exists. intros (p & Hp & E). rewrite Forall_forall in H.
    rewrite any_ge_inb in E; [discriminate|]. apply K. auto. }
  rewrite Ex.
  destruct (all_some_Forall2 (fun p => rank_map_lookup per dims (node_block loc dx shift p))
    (fun pos r => 0 <= r < zprod dims /\ in_block dx shift dims loc r pos /\
       forall r', 0 <= r' < zprod dims -> in_block dx shift dims loc r' pos -> r' = r) nodes) as (bs & E & F).
  - eapply Forall_impl; [|exact H]. intros pos Hp. destruct (K pos Hp) as (A1 & A2 & A3).
    eexists. split; [apply lookup_inb; auto|]. split; [now apply ravel_bound|]. split; auto.
  - rewrite E. exists bs. split; auto.
Qed.

(** *** outside *)
Lemma any_ge_nth cs ts k c t : nth_error cs k = Some c -> nth_error ts k = Some t -> t <= c -> any_ge cs ts = true.
Proof.
  revert ts k. induction cs as [|c0 cs IH]; intros [|t0 ts] [|k] Hc Ht Hle; simpl in *; try discriminate.
  - injection Hc as ->. injection Ht as ->. destruct (Z.leb_spec t c); [reflexivity|lia].
  - rewrite (IH ts k); auto. apply orb_true_r.
Qed.

Lemma coords_nth ns ps k n p : nth_error ns k = Some n -> nth_error ps k = Some p ->
  nth_error (coords ns ps) k = Some (trunc ((p - shift) / (dx * inject_Z n))%Q).
Proof.
  revert ps k. induction ns as [|n0 ns IH]; intros [|p0 ps] [|k] Hn Hp; simpl in *; try discriminate; auto.
  injection Hn as ->. injection Hp as ->. reflexivity.
Qed.

Lemma vmul_nth a b k z : nth_error (vmul a b) k = Some z ->
  exists x y, nth_error a k = Some x /\ nth_error b k = Some y /\ z = x * y.
Proof.
  revert b k. induction a as [|x a IH]; intros [|y b] [|k]; simpl; intros E; try discriminate.
  - injection E as <-. eauto.
  - eauto.
Qed.

(** node at or beyond the upper end of some axis *)
Lemma map_upper nodes pos k N x : grid_ok dims loc -> In pos nodes ->
  nth_error (global_size dims loc) k = Some N -> nth_error (rel shift pos) k = Some x -> (dx * inject_Z N <= x)%Q ->
  map_nodes per dims loc dx shift (Z.of_nat (length dims)) nodes = Aborted.
Proof.
  intros [Hl Hd Hn] Hin HN Hx Hle. unfold map_nodes. rewrite Z.eqb_refl. simpl. unfold compute_rank_address.
  assert (E : existsb (fun p => any_ge (node_block loc dx shift p) dims) nodes = true).
  { apply existsb_exists. exists pos. split; auto.
    unfold global_size in HN. apply vmul_nth in HN as (d & n & Ed & En & ->).
    unfold rel in Hx. rewrite nth_error_map in Hx. destruct (nth_error (rev pos) k) as [p|] eqn:Ep; [|discriminate]. injection Hx as <-.
    eapply any_ge_nth; [apply coords_nth; eauto|eassumption|].
    assert (Hd' : 1 <= d) by (eapply Forall_forall in Hd; [exact Hd|eapply nth_error_In; eauto]).
    assert (Hn' : 1 <= n) by (eapply Forall_forall in Hn; [exact Hn|eapply nth_error_In; eauto]).
    assert (Hx0 : (0 <= p - shift)%Q).
    { apply Qle_trans with (dx * inject_Z (d * n))%Q; auto. apply Qmult_le_0_compat; [lra|].
      change 0%Q with (inject_Z 0). rewrite <- Zle_Qle. nia. }
    destruct (proj1 (quot_scale dx Hdx (p - shift) n _ Hn' Hx0) eq_refl) as [_ T2].
    set (t := trunc _) in *.
    assert (dx * inject_Z (d * n) < dx * inject_Z (t * n + n))%Q by lra.
    apply Qmult_lt_l in H; auto. rewrite <- Zlt_Qlt in H. nia. }
  now rewrite E.
Qed.

Lemma map_shape nodes shape0 : shape0 <> Z.of_nat (length dims) -> map_nodes per dims loc dx shift shape0 nodes = Aborted.
Proof. intros H. unfold map_nodes. destruct (Z.eqb_spec shape0 (Z.of_nat (length dims))); [contradiction|reflexivity]. Qed.

(** less than one block below the lower corner: silently put in the first block *)
Lemma trunc_small q : (-1 < q)%Q -> (q < 1)%Q -> trunc q = 0.
Proof.
  intros H1 H2. unfold trunc. destruct q as [a b]. unfold Qlt in *. simpl in *. apply Z.quot_small_iff; lia.
Qed.
End MapNodes.

(** *** partition of the nodes *)
Lemma nodes_of_In address r j : In j (nodes_of address r) <-> 0 <= j < Z.of_nat (length address) /\ nth (Z.to_nat j) address (-1) = r.
Proof.
  unfold nodes_of. rewrite filter_In, zrange_In, Z.eqb_eq. split; intros [A B]; split; auto; lia.
Qed.
Lemma nodes_of_NoDup address r : NoDup (nodes_of address r).
Proof. apply NoDup_filter, zrange_NoDup. Qed.

Lemma zrange_succ s l : 0 <= l -> zrange s (l + 1) = s :: zrange (s + 1) l.
Proof.
  intros Hl. unfold zrange. replace (Z.to_nat (l + 1)) with (S (Z.to_nat l)) by lia. simpl. f_equal; [lia|].
  rewrite <- seq_shift, map_map. apply map_ext. intros. lia.
Qed.

Lemma count_eq address r : local_num_lag_nodes address r = node_count address r.
Proof.
  unfold local_num_lag_nodes, node_count, nodes_of. f_equal.
  assert (G : forall l k, 0 <= k -> forall pre, length pre = Z.to_nat k ->
     length (filter (fun a => a =? r) l) = length (filter (fun j => nth (Z.to_nat j) (pre ++ l) (-1) =? r) (zrange k (Z.of_nat (length l))))).
  { induction l as [|a l IH]; intros k Hk pre Hp; [reflexivity|].
    cbn [length]. rewrite Nat2Z.inj_succ. unfold Z.succ. rewrite zrange_succ by lia. simpl.
    rewrite app_nth2 by lia. rewrite Hp, Nat.sub_diag. simpl.
    specialize (IH (k + 1) ltac:(lia) (pre ++ [a])). rewrite app_length in IH. simpl in IH.
    rewrite <- app_assoc in IH. simpl in IH. specialize (IH ltac:(lia)).
    destruct (a =? r); simpl; rewrite IH; reflexivity. }
  apply (G address 0 ltac:(lia) []). reflexivity.
Qed.

(** *** witnesses for the findings *)
Lemma below_corner_refuted : exists per dims loc dx shift pos address,
    (0 < dx)%Q /\ grid_ok dims loc /\ ~ in_domain dx shift dims loc pos /\
    map_nodes per dims loc dx shift (Z.of_nat (length dims)) [pos] = Mapped address.
Proof.
  exists false, [2; 2], [2; 3], (1 # 4)%Q, (1 # 8)%Q, [(0 # 1)%Q; (0 # 1)%Q], [0].
  split; [reflexivity|]. split; [|split; [|reflexivity]].
  - constructor; simpl; auto; repeat constructor; lia.
  - intros H. inversion H as [|? ? ? ? ? ? H1 H2 H3]; subst. compute in H1. congruence.
Qed.

Lemma negative_index_refuted : exists per dims loc dx shift pos,
    (0 < dx)%Q /\ grid_ok dims loc /\ ~ in_domain dx shift dims loc pos /\
    map_nodes per dims loc dx shift (Z.of_nat (length dims)) [pos] = Mapped [zprod dims - 1] /\ 1 < zprod dims.
Proof.
  exists false, [2; 2], [2; 2], (1 # 4)%Q, (1 # 8)%Q, [(-1 # 1)%Q * (3 # 4); (-3 # 4)]%Q.
  split; [reflexivity|]. split; [|split; [|split; reflexivity]].
  - constructor; simpl; auto; repeat constructor; lia.
  - intros H. inversion H as [|? ? ? ? ? ? H1 H2 H3]; subst. compute in H1. congruence.
Qed.
