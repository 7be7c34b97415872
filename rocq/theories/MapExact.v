(** Exact behaviour of the node mapping. *)
From Coq Require Import QArith Qround Lqa.
From Verif Require Import Base SpecGrid Cart CartFacts Comm Lagrangian SpecLag SpecMap LagProofs.
Open Scope Z_scope.

Lemma trunc_opp q : trunc (- q) = - trunc q.
Proof. unfold trunc. destruct q as [a b]. simpl. apply Z.quot_opp_l. lia. Qed.
Lemma trunc_neg q : (q <= 0)%Q -> (q <= inject_Z (trunc q))%Q /\ (inject_Z (trunc q - 1) < q)%Q.
Proof.
  intros H. pose proof (trunc_spec (- q) ltac:(lra)) as [A B]. rewrite trunc_opp in A, B.
  rewrite inject_Z_opp in A. replace (- trunc q + 1) with (- (trunc q - 1)) in B by lia. rewrite inject_Z_opp in B. lra.
Qed.
Lemma trunc_neg_nonpos q : (q <= 0)%Q -> trunc q <= 0.
Proof. intros H. pose proof (trunc_nonneg (- q) ltac:(lra)) as A. rewrite trunc_opp in A. lia. Qed.

Section Axis.
Variables (L x : Q) (P : Z).
Hypothesis HL : (0 < L)%Q.
Hypothesis HP : 1 <= P.
Let c := trunc (x / L).
Lemma div_le a : (a <= x / L)%Q -> (a * L <= x)%Q.
Proof. intros H. apply (Qmult_le_compat_r _ _ L) in H; [|lra]. setoid_replace (x / L * L)%Q with x in H; auto. field. lra. Qed.
Lemma div_ge a : (x / L <= a)%Q -> (x <= a * L)%Q.
Proof. intros H. apply (Qmult_le_compat_r _ _ L) in H; [|lra]. setoid_replace (x / L * L)%Q with x in H; auto. field. lra. Qed.
Lemma div_lt a : (a < x / L)%Q -> (a * L < x)%Q.
Proof. intros H. apply (Qmult_lt_compat_r _ _ L) in H; [|lra]. setoid_replace (x / L * L)%Q with x in H; auto. field. lra. Qed.
Lemma div_gt a : (x / L < a)%Q -> (x < a * L)%Q.
Proof. intros H. apply (Qmult_lt_compat_r _ _ L) in H; [|lra]. setoid_replace (x / L * L)%Q with x in H; auto. field. lra. Qed.
Lemma le_div a : (a * L <= x)%Q -> (a <= x / L)%Q.
Proof. intros H. now apply Qle_shift_div_l. Qed.

Lemma high_iff : P <= c <-> too_high L P x.
Proof.
  unfold too_high. split; intros H.
  - apply div_le. destruct (trunc_lower (x / L)) as [A|A]; [|fold c in A; lia]. fold c in A. apply Qle_trans with (inject_Z c); auto. now rewrite <- Zle_Qle.
  - apply le_div in H. assert (0 <= x / L)%Q by (apply Qle_trans with (inject_Z P); auto; change 0%Q with (inject_Z 0); rewrite <- Zle_Qle; lia).
    destruct (trunc_spec _ H0) as [_ B]. fold c in B. assert (inject_Z P < inject_Z (c + 1))%Q by lra. rewrite <- Zlt_Qlt in H1. lia.
Qed.
Lemma neg_case : c < 0 -> (x <= inject_Z c * L)%Q /\ (inject_Z (c - 1) * L < x)%Q.
Proof.
  intros H. assert (A : (x / L <= 0)%Q). { destruct (Qlt_le_dec 0 (x / L)) as [A|A]; auto. pose proof (trunc_nonneg (x / L) ltac:(lra)). fold c in H0. lia. }
  destruct (trunc_neg _ A) as [B1 B2]. fold c in B1, B2. split; [now apply div_ge|now apply div_lt].
Qed.
Lemma low_iff : c < - P <-> too_low L P x.
Proof.
  unfold too_low. split; intros H.
  - destruct (neg_case ltac:(lia)) as [A _]. eapply Qle_trans; [exact A|]. apply Qmult_le_compat_r; [|lra]. rewrite <- Zle_Qle. lia.
  - assert (A : (x / L <= inject_Z (- (P + 1)))%Q) by (apply Qle_shift_div_r; auto).
    assert (B : (x / L <= 0)%Q) by (eapply Qle_trans; [exact A|]; change 0%Q with (inject_Z 0); rewrite <- Zle_Qle; lia).
    destruct (trunc_neg _ B) as [_ C]. fold c in C. assert (inject_Z (c - 1) < inject_Z (- (P + 1)))%Q by lra. rewrite <- Zlt_Qlt in H0. lia.
Qed.
Lemma index_lands i : np_index P c = Some i -> axis_lands L P x i.
Proof.
  unfold np_index. destruct (Z.leb_spec 0 c), (Z.ltb_spec c P); cbn [andb].
  - intros [= <-]. destruct (Qlt_le_dec x 0) as [Hx|Hx].
    + assert (Hn : (x / L < 0)%Q) by (apply Qlt_shift_div_r; auto; lra).
      destruct (trunc_neg (x / L) ltac:(lra)) as [A1 A2]. fold c in A1, A2.
      assert (c = 0) as E.
      { pose proof (trunc_neg_nonpos (x / L) ltac:(lra)). fold c in H1. lia. }
      rewrite E in *. apply al_near; auto. apply div_lt in A2. change (inject_Z (0 - 1)) with (-1)%Q in A2. lra.
    + assert (Hn : (0 <= x / L)%Q) by (apply Qle_shift_div_l; auto; lra). destruct (trunc_spec _ Hn) as [A1 A2]. fold c in A1, A2.
      apply al_inside; auto; [now apply div_le|now apply div_gt].
  - destruct (Z.leb_spec (- P) c), (Z.ltb_spec c 0); cbn [andb]; try discriminate; lia.
  - destruct (Z.leb_spec (- P) c), (Z.ltb_spec c 0); cbn [andb]; try discriminate; try lia. intros [= <-].
    replace (c + P) with (P - (- c)) by lia. destruct (neg_case ltac:(lia)) as [A B]. apply al_below; [lia| |].
    + replace (- (- c + 1)) with (c - 1) by lia. exact B.
    + now rewrite Z.opp_involutive.
  - destruct (Z.leb_spec (- P) c), (Z.ltb_spec c 0); cbn [andb]; try discriminate; lia.
Qed.
Lemma index_some : ~ too_high L P x -> ~ too_low L P x -> exists i, np_index P c = Some i /\ 0 <= i < P.
Proof.
  rewrite <- high_iff, <- low_iff. intros A B. unfold np_index. destruct (Z.leb_spec 0 c), (Z.ltb_spec c P); cbn [andb]; try lia.
  - exists c. split; auto; lia.
  - destruct (Z.leb_spec (- P) c), (Z.ltb_spec c 0); cbn [andb]; try lia. exists (c + P). split; auto. lia.
Qed.
Lemma index_none : np_index P c = None -> too_high L P x \/ too_low L P x.
Proof.
  rewrite <- high_iff, <- low_iff. unfold np_index. destruct (Z.leb_spec 0 c), (Z.ltb_spec c P), (Z.leb_spec (- P) c), (Z.ltb_spec c 0); cbn [andb]; try discriminate; lia.
Qed.
Lemma index_range i : np_index P c = Some i -> 0 <= i < P.
Proof.
  unfold np_index. destruct (Z.leb_spec 0 c), (Z.ltb_spec c P), (Z.leb_spec (- P) c), (Z.ltb_spec c 0); cbn [andb]; try discriminate; intros [= <-]; lia.
Qed.
End Axis.

Section Node.
Variables (per : bool) (dx shift : Q).
Hypothesis Hdx : (0 < dx)%Q.
Notation coords := (subblock_coords dx shift).
Lemma block_len n : 1 <= n -> (0 < dx * inject_Z n)%Q.
Proof. intros H. apply Qmult_lt_0_compat; auto. change 0%Q with (inject_Z 0). rewrite <- Zlt_Qlt. lia. Qed.

Definition some_axis (R : Q -> Z -> Q -> Prop) (ds ns : list Z) (xs : list Q) : Prop :=
  exists a P n x, nth_error ds a = Some P /\ nth_error ns a = Some n /\ nth_error xs a = Some x /\ R (dx * inject_Z n)%Q P x.
Lemma some_axis_nil R ns xs : ~ some_axis R [] ns xs.
Proof. intros (a & P & n & x & H & _). destruct a; discriminate. Qed.
Lemma some_axis_cons R d ds n ns x xs : some_axis R (d :: ds) (n :: ns) (x :: xs) <-> R (dx * inject_Z n)%Q d x \/ some_axis R ds ns xs.
Proof.
  split.
  - intros ([|a] & P & n' & x' & A & B & C & D); cbn in *; [injection A as ->; injection B as ->; injection C as ->; auto|right; exists a, P, n', x'; auto].
  - intros [H|(a & P & n' & x' & A & B & C & D)]; [exists 0%nat, d, n, x; auto|exists (S a), P, n', x'; auto].
Qed.
Lemma ge_iff ns : positive ns -> forall ds ps, positive ds -> length ns = length ds -> length ps = length ds ->
  any_ge (coords ns ps) ds = true <-> some_axis too_high ds ns (map (fun p => p - shift)%Q ps).
Proof.
  induction 1 as [|n ns Hn Hp IH]; intros [|d ds] [|p ps] Hd Hl Hl'; cbn in *; try discriminate.
  - split; [discriminate|]. intros H. now apply some_axis_nil in H.
  - inversion Hd; subst. assert (Hd1 : 1 <= d) by assumption. rewrite some_axis_cons, orb_true_iff, (IH ds ps) by (auto; lia).
    rewrite Z.leb_le. rewrite (high_iff (dx * inject_Z n) (p - shift) d (block_len n Hn) ltac:(lia)). tauto.
Qed.
Lemma idx_spec ns : positive ns -> forall ds ps, positive ds -> length ns = length ds -> length ps = length ds ->
  ~ some_axis too_high ds ns (map (fun p => p - shift)%Q ps) ->
  match np_indices ds (coords ns ps) with
  | Some is_ => ~ some_axis too_low ds ns (map (fun p => p - shift)%Q ps) /\ inb ds is_ /\
      forall a P n x c, nth_error ds a = Some P -> nth_error ns a = Some n -> nth_error (map (fun p => p - shift)%Q ps) a = Some x -> nth_error is_ a = Some c ->
        axis_lands (dx * inject_Z n)%Q P x c
  | None => some_axis too_low ds ns (map (fun p => p - shift)%Q ps)
  end.
Proof.
  induction 1 as [|n ns Hn Hp IH]; intros [|d ds] [|p ps] Hd Hl Hl' HH; cbn in *; try discriminate.
  - split; [apply some_axis_nil|]. split; [constructor|]. intros [|a] P n x c A; discriminate.
  - inversion Hd; subst. rewrite some_axis_cons in HH.
    assert (Hd1 : 1 <= d) by assumption; specialize (IH ds ps ltac:(auto) ltac:(lia) ltac:(lia) ltac:(tauto)).
    destruct (np_index d (trunc ((p - shift) / (dx * inject_Z n)))) as [i|] eqn:E.
    + pose proof (index_range _ _ _ _ E) as R1.
      pose proof (index_lands (dx * inject_Z n) (p - shift) d (block_len n Hn) ltac:(lia) i E) as R2.
      assert (R3 : ~ too_low (dx * inject_Z n) d (p - shift)).
      { rewrite <- (low_iff (dx * inject_Z n) (p - shift) d (block_len n Hn) ltac:(lia)). unfold np_index in E. intros X.
        destruct (Z.leb_spec 0 (trunc ((p - shift) / (dx * inject_Z n)))); [lia|]. cbn [andb] in E.
        destruct (Z.leb_spec (- d) (trunc ((p - shift) / (dx * inject_Z n)))); [lia|discriminate]. }
      destruct (np_indices ds (coords ns ps)) as [is_|] eqn:E'.
      * destruct IH as (I1 & I2 & I3). split; [rewrite some_axis_cons; tauto|]. split; [constructor; auto|].
        intros [|a] P n' x c A B C D; cbn in *; [congruence|eauto].
      * rewrite some_axis_cons. now right.
    + destruct (index_none (dx * inject_Z n) (p - shift) d (block_len n Hn) ltac:(lia) E) as [X|X]; [tauto|].
      assert (K : some_axis too_low (d :: ds) (n :: ns) ((p - shift)%Q :: map (fun p => (p - shift)%Q) ps)) by (rewrite some_axis_cons; now left).
      exact K.
Qed.
End Node.

Theorem map_exact per dims loc dx shift nodes : (0 < dx)%Q -> grid_ok dims loc -> Forall (fun pos => length pos = length dims) nodes ->
  match map_nodes per dims loc dx shift (Z.of_nat (length dims)) nodes with
  | Aborted => Exists (on_some_axis dims loc dx shift too_high) nodes
  | IndexError => Forall (fun pos => ~ on_some_axis dims loc dx shift too_high pos) nodes /\ Exists (on_some_axis dims loc dx shift too_low) nodes
  | Mapped address => Forall (fun pos => ~ on_some_axis dims loc dx shift too_high pos /\ ~ on_some_axis dims loc dx shift too_low pos) nodes /\
      Forall2 (lands_on dims loc dx shift) nodes address /\ Forall (fun r => 0 <= r < zprod dims) address
  end.
Proof.
  intros Hdx [Hl Hd Hn] Hlen. unfold map_nodes. rewrite Z.eqb_refl. cbn [negb]. unfold compute_rank_address.
  assert (Hr : forall pos : list Q, length pos = length dims -> length (rev pos) = length dims) by (intros; now rewrite rev_length).
  destruct (existsb _ nodes) eqn:E.
  - apply existsb_exists in E as (p & Hp & E). apply Exists_exists. exists p. split; auto.
    rewrite Forall_forall in Hlen. unfold node_block in E. rewrite (ge_iff dx shift Hdx loc Hn dims (rev p) Hd ltac:(lia) (Hr p (Hlen p Hp))) in E. exact E.
  - assert (NH : Forall (fun pos => ~ on_some_axis dims loc dx shift too_high pos) nodes).
    { apply Forall_forall. intros p Hp X. rewrite Forall_forall in Hlen. apply (ge_iff dx shift Hdx loc Hn dims (rev p) Hd ltac:(lia) (Hr p (Hlen p Hp))) in X.
      assert (existsb (fun p => any_ge (node_block loc dx shift p) dims) nodes = true) by (apply existsb_exists; eauto). congruence. }
    clear E. induction nodes as [|p nodes IH]; cbn [map all_some]; [repeat split; constructor|].
    inversion Hlen; subst. inversion NH; subst. specialize (IH ltac:(auto) ltac:(auto)).
    pose proof (idx_spec dx shift Hdx loc Hn dims (rev p) Hd ltac:(lia) (Hr p ltac:(auto)) H3) as X.
    unfold rank_map_lookup at 1, node_block at 1. destruct (np_indices dims (subblock_coords dx shift loc (rev p))) as [is_|].
    + destruct X as (X1 & X2 & X3). unfold get_cart_rank. rewrite wrapv_in by exact X2.
      destruct (all_some (map _ nodes)) as [as_|]; cbn [option_map].
      * destruct IH as (A & B & C). split; [constructor; auto|]. split; [constructor; auto|constructor; auto].
        -- exists is_. split; [now apply inb_length in X2|]. split; [reflexivity|exact X3].
        -- now apply ravel_bound.
      * destruct IH as [A B]. split; [constructor; auto|now right].
    + split; auto. 
Qed.
