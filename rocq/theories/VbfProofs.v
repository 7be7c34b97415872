(** Histories of the virtual boundary forcing. *)
From Coq Require Import FunctionalExtensionality.
From Verif Require Import Base SpecGrid SpecLag SpecVbf Comm Blocking SpecBlocking Spmd BlockFacts Lagrangian LagProofs LagComm RunsTo Vbf SpecBodies.

Lemma nth_neq (l : list nat) : NoDup l -> forall i j, i <> j -> (i < length l)%nat -> (j < length l)%nat -> nth i l 0%nat <> nth j l 0%nat.
Proof. intros H i j Hn Hi Hj E. apply Hn. now apply (proj1 (NoDup_nth l 0%nat) H). Qed.
Lemma arr_neq A : NoDup (all_arrays A) ->
  gpm A <> gvm A /\ gpm A <> gfo A /\ gpm A <> gpos A /\ gpm A <> gvel A /\ gpm A <> lflow A /\
  gpm A <> lpm A /\ gpm A <> lvm A /\ gpm A <> lfo A /\ gpm A <> lpos A /\ gpm A <> lvel A /\
  gvm A <> gfo A /\ gvm A <> gpos A /\ gvm A <> gvel A /\ gvm A <> lflow A /\ gvm A <> lpm A /\
  gvm A <> lvm A /\ gvm A <> lfo A /\ gvm A <> lpos A /\ gvm A <> lvel A /\ gfo A <> gpos A /\
  gfo A <> gvel A /\ gfo A <> lflow A /\ gfo A <> lpm A /\ gfo A <> lvm A /\ gfo A <> lfo A /\
  gfo A <> lpos A /\ gfo A <> lvel A /\ gpos A <> gvel A /\ gpos A <> lflow A /\ gpos A <> lpm A /\
  gpos A <> lvm A /\ gpos A <> lfo A /\ gpos A <> lpos A /\ gpos A <> lvel A /\ gvel A <> lflow A /\
  gvel A <> lpm A /\ gvel A <> lvm A /\ gvel A <> lfo A /\ gvel A <> lpos A /\ gvel A <> lvel A /\
  lflow A <> lpm A /\ lflow A <> lvm A /\ lflow A <> lfo A /\ lflow A <> lpos A /\ lflow A <> lvel A /\
  lpm A <> lvm A /\ lpm A <> lfo A /\ lpm A <> lpos A /\ lpm A <> lvel A /\ lvm A <> lfo A /\
  lvm A <> lpos A /\ lvm A <> lvel A /\ lfo A <> lpos A /\ lfo A <> lvel A /\ lpos A <> lvel A.
Proof. intros H. pose proof (nth_neq _ H) as K. clear H.
  repeat split.
  exact (K 0%nat 1%nat ltac:(lia) ltac:(cbn; lia) ltac:(cbn; lia)).
  exact (K 0%nat 2%nat ltac:(lia) ltac:(cbn; lia) ltac:(cbn; lia)).
  exact (K 0%nat 3%nat ltac:(lia) ltac:(cbn; lia) ltac:(cbn; lia)).
  exact (K 0%nat 4%nat ltac:(lia) ltac:(cbn; lia) ltac:(cbn; lia)).
  exact (K 0%nat 5%nat ltac:(lia) ltac:(cbn; lia) ltac:(cbn; lia)).
  exact (K 0%nat 6%nat ltac:(lia) ltac:(cbn; lia) ltac:(cbn; lia)).
  exact (K 0%nat 7%nat ltac:(lia) ltac:(cbn; lia) ltac:(cbn; lia)).
  exact (K 0%nat 8%nat ltac:(lia) ltac:(cbn; lia) ltac:(cbn; lia)).
  exact (K 0%nat 9%nat ltac:(lia) ltac:(cbn; lia) ltac:(cbn; lia)).
  exact (K 0%nat 10%nat ltac:(lia) ltac:(cbn; lia) ltac:(cbn; lia)).
  exact (K 1%nat 2%nat ltac:(lia) ltac:(cbn; lia) ltac:(cbn; lia)).
  exact (K 1%nat 3%nat ltac:(lia) ltac:(cbn; lia) ltac:(cbn; lia)).
  exact (K 1%nat 4%nat ltac:(lia) ltac:(cbn; lia) ltac:(cbn; lia)).
  exact (K 1%nat 5%nat ltac:(lia) ltac:(cbn; lia) ltac:(cbn; lia)).
  exact (K 1%nat 6%nat ltac:(lia) ltac:(cbn; lia) ltac:(cbn; lia)).
  exact (K 1%nat 7%nat ltac:(lia) ltac:(cbn; lia) ltac:(cbn; lia)).
  exact (K 1%nat 8%nat ltac:(lia) ltac:(cbn; lia) ltac:(cbn; lia)).
  exact (K 1%nat 9%nat ltac:(lia) ltac:(cbn; lia) ltac:(cbn; lia)).
  exact (K 1%nat 10%nat ltac:(lia) ltac:(cbn; lia) ltac:(cbn; lia)).
  exact (K 2%nat 3%nat ltac:(lia) ltac:(cbn; lia) ltac:(cbn; lia)).
  exact (K 2%nat 4%nat ltac:(lia) ltac:(cbn; lia) ltac:(cbn; lia)).
  exact (K 2%nat 5%nat ltac:(lia) ltac:(cbn; lia) ltac:(cbn; lia)).
  exact (K 2%nat 6%nat ltac:(lia) ltac:(cbn; lia) ltac:(cbn; lia)).
  exact (K 2%nat 7%nat ltac:(lia) ltac:(cbn; lia) ltac:(cbn; lia)).
  exact (K 2%nat 8%nat ltac:(lia) ltac:(cbn; lia) ltac:(cbn; lia)).
  exact (K 2%nat 9%nat ltac:(lia) ltac:(cbn; lia) ltac:(cbn; lia)).
  exact (K 2%nat 10%nat ltac:(lia) ltac:(cbn; lia) ltac:(cbn; lia)).
  exact (K 3%nat 4%nat ltac:(lia) ltac:(cbn; lia) ltac:(cbn; lia)).
  exact (K 3%nat 5%nat ltac:(lia) ltac:(cbn; lia) ltac:(cbn; lia)).
  exact (K 3%nat 6%nat ltac:(lia) ltac:(cbn; lia) ltac:(cbn; lia)).
  exact (K 3%nat 7%nat ltac:(lia) ltac:(cbn; lia) ltac:(cbn; lia)).
  exact (K 3%nat 8%nat ltac:(lia) ltac:(cbn; lia) ltac:(cbn; lia)).
  exact (K 3%nat 9%nat ltac:(lia) ltac:(cbn; lia) ltac:(cbn; lia)).
  exact (K 3%nat 10%nat ltac:(lia) ltac:(cbn; lia) ltac:(cbn; lia)).
  exact (K 4%nat 5%nat ltac:(lia) ltac:(cbn; lia) ltac:(cbn; lia)).
  exact (K 4%nat 6%nat ltac:(lia) ltac:(cbn; lia) ltac:(cbn; lia)).
  exact (K 4%nat 7%nat ltac:(lia) ltac:(cbn; lia) ltac:(cbn; lia)).
  exact (K 4%nat 8%nat ltac:(lia) ltac:(cbn; lia) ltac:(cbn; lia)).
  exact (K 4%nat 9%nat ltac:(lia) ltac:(cbn; lia) ltac:(cbn; lia)).
  exact (K 4%nat 10%nat ltac:(lia) ltac:(cbn; lia) ltac:(cbn; lia)).
  exact (K 5%nat 6%nat ltac:(lia) ltac:(cbn; lia) ltac:(cbn; lia)).
  exact (K 5%nat 7%nat ltac:(lia) ltac:(cbn; lia) ltac:(cbn; lia)).
  exact (K 5%nat 8%nat ltac:(lia) ltac:(cbn; lia) ltac:(cbn; lia)).
  exact (K 5%nat 9%nat ltac:(lia) ltac:(cbn; lia) ltac:(cbn; lia)).
  exact (K 5%nat 10%nat ltac:(lia) ltac:(cbn; lia) ltac:(cbn; lia)).
  exact (K 6%nat 7%nat ltac:(lia) ltac:(cbn; lia) ltac:(cbn; lia)).
  exact (K 6%nat 8%nat ltac:(lia) ltac:(cbn; lia) ltac:(cbn; lia)).
  exact (K 6%nat 9%nat ltac:(lia) ltac:(cbn; lia) ltac:(cbn; lia)).
  exact (K 6%nat 10%nat ltac:(lia) ltac:(cbn; lia) ltac:(cbn; lia)).
  exact (K 7%nat 8%nat ltac:(lia) ltac:(cbn; lia) ltac:(cbn; lia)).
  exact (K 7%nat 9%nat ltac:(lia) ltac:(cbn; lia) ltac:(cbn; lia)).
  exact (K 7%nat 10%nat ltac:(lia) ltac:(cbn; lia) ltac:(cbn; lia)).
  exact (K 8%nat 9%nat ltac:(lia) ltac:(cbn; lia) ltac:(cbn; lia)).
  exact (K 8%nat 10%nat ltac:(lia) ltac:(cbn; lia) ltac:(cbn; lia)).
  exact (K 9%nat 10%nat ltac:(lia) ltac:(cbn; lia) ltac:(cbn; lia)).
Qed.

Section V.
Context {T : Type}.
Variables (add sub mul : T -> T -> T) (z stiff damp : T).
Variables (n nc master : Z) (A : arrays) (N : Z).
Hypothesis HA : NoDup (all_arrays A).
Hypothesis Hnc : 0 <= nc.
Hypothesis Hmaster : 0 <= master < n.
Notation mem_ := (Z -> @lmem T).
Notation holds := (copies_agree n nc).
Notation inv := (consistent n nc master A N).

Lemma fill_hit f k v (m : @lmem T) x : 0 <= x < k -> fill f k v m (f, x) = v x m.
Proof.
  intros H. unfold fill. cbn [fst snd]. rewrite Nat.eqb_refl. destruct (Z.leb_spec 0 x); [|lia]. destruct (Z.ltb_spec x k); [|lia]. reflexivity.
Qed.
Lemma fill_miss f k v (m : @lmem T) a : fst a <> f -> fill f k v m a = m a.
Proof. intros H. unfold fill. apply Nat.eqb_neq in H. now rewrite H. Qed.

Notation valid := (mapping_ok n master N).

Lemma scatter_frame addr gid lid (m m' : mem_) r a : lag_scattered n addr nc master gid lid m m' -> fst a <> lid -> m' r a = m r a.
Proof. intros [_ H] Ha. apply H. intros (_ & d & i & j & _ & _ & E). subst. now apply Ha. Qed.
Lemma gather_frame addr gid lid (m m' : mem_) r a : lag_gathered n addr nc master gid lid m m' -> fst a <> gid -> m' r a = m r a.
Proof.
  intros [_ H1 H2] Ha. destruct (Z.eq_dec r master) as [-> |Hr]; [|now apply H1]. apply H2. intros (d & j & _ & _ & E). subst. now apply Ha.
Qed.
Lemma local_on_in f (m : mem_) r : 0 <= r < n -> local_on n f m r = f r (m r).
Proof. intros H. unfold local_on. destruct (Z.leb_spec 0 r); [|lia]. destruct (Z.ltb_spec r n); [|lia]. reflexivity. Qed.

Lemma ith_range addr r i j : ith_node addr r i j -> 0 <= i < node_count addr r /\ 0 <= j < Z.of_nat (length addr).
Proof.
  intros [H0 H]. unfold node_count. assert (Hi := nth_error_Some (nodes_of addr r) (Z.to_nat i)). rewrite H in Hi. assert (Z.to_nat i < length (nodes_of addr r))%nat by (apply Hi; discriminate).
  split; [lia|]. apply nth_error_In in H. apply nodes_of_In in H. lia.
Qed.
Lemma holds_frame addr lid (m m' : mem_) P : (forall r i, 0 <= r < n -> m' r (lid, i) = m r (lid, i)) -> holds addr lid m P -> holds addr lid m' P.
Proof. intros E H r c i j Hr Hc Hij. unfold lag_local. rewrite E by auto. now apply (H r c i j). Qed.

(** Gather: the master's global array. *)
Lemma gathered_value addr ord gid lid (m m' : mem_) P c j : valid addr ord -> lag_gathered n addr nc master gid lid m m' -> holds addr lid m P -> 0 <= c < nc -> 0 <= j < N ->
  m' master (gid, c * N + j) = P c j.
Proof.
  intros (Hv & Ho & HN) [G _ _] H Hc Hj. destruct (node_has_place n addr 0%nat 1%nat Hv ltac:(discriminate) j ltac:(lia)) as (r & i & Hr & _ & Hij).
  pose proof (G r c i j Hr Hc Hij) as E. unfold lag_global in E. rewrite HN in E. rewrite E. now apply H.
Qed.
Lemma scattered_value addr ord gid lid (m m' : mem_) P : valid addr ord -> lag_scattered n addr nc master gid lid m m' -> (forall c j, 0 <= c < nc -> 0 <= j < N -> m master (gid, c * N + j) = P c j) ->
  holds addr lid m' P.
Proof.
  intros (Hv & Ho & HN) [S _] H r c i j Hr Hc Hij. rewrite (S r c i j Hr Hc Hij). unfold lag_global. rewrite HN. apply H; auto. apply ith_range in Hij. lia.
Qed.

Lemma noflag_num s addr' : update_flag n s addr' = false -> forall r, 0 <= r < n -> num s r = node_count addr' r.
Proof.
  intros H r Hr. rewrite <- count_eq. unfold update_flag in H. destruct (Z.eqb_spec (num s r) (local_num_lag_nodes addr' r)) as [E|E]; auto. exfalso.
  assert (X : existsb (fun r => negb (num s r =? local_num_lag_nodes addr' r)) (zrange 0 n) = true); [|congruence].
  apply existsb_exists. exists r. split; [apply zrange_In; lia|]. apply Z.eqb_neq in E. now rewrite E.
Qed.
(** update_buffers when nodes moved consistently with the counts. *)
Lemma update_buffers_ok s addr' ord' (m : mem_) P V : inv s m P V -> valid addr' ord' ->
  (update_flag n s addr' = false -> addr' = address s) ->
  exists m', runs_to n (update_buffers z n nc master A s addr' ord') m m' /\ inv (remapped n s addr' ord') m' P V /\
    (forall r i, m' r (gpos A, i) = m r (gpos A, i) /\ m' r (gvel A, i) = m r (gvel A, i) /\ m' r (gfo A, i) = m r (gfo A, i)) /\
    (forall c j, 0 <= c < nc -> 0 <= j < N -> m' master (gpm A, c * N + j) = P c j) /\
    (forall r a, ~ In (fst a) (all_arrays A) -> m' r a = m r a).
Proof.
  intros (Hv & Hn & HP & HV) Hv' Hsame. pose proof Hv as (Hv1 & Hv2 & Hv3). pose proof Hv' as (Hv1' & Hv2' & Hv3'). pose proof (arr_neq A HA) as H. decompose [and] H. clear H.
  destruct (lag_gather_runs n (address s) nc master (order s) (gpm A) (lpm A) Hmaster Hv1 Hv2 Hnc ltac:(auto) m) as (m1 & R1 & G1); auto.
  destruct (lag_gather_runs n (address s) nc master (order s) (gvm A) (lvm A) Hmaster Hv1 Hv2 Hnc ltac:(auto) m1) as (m2 & R2 & G2); auto.
  assert (Egp : forall c j, 0 <= c < nc -> 0 <= j < N -> m2 master (gpm A, c * N + j) = P c j).
  { intros c j Hc Hj. rewrite (gather_frame _ _ _ _ _ _ _ G2) by (cbn; auto). now apply (gathered_value (address s) (order s) (gpm A) (lpm A) m m1 P c j). }
  assert (HV1 : holds (address s) (lvm A) m1 V). { apply (holds_frame _ _ m); auto. intros. apply (gather_frame _ _ _ _ _ _ _ G1). cbn. auto. }
  assert (Egv : forall c j, 0 <= c < nc -> 0 <= j < N -> m2 master (gvm A, c * N + j) = V c j).
  { intros c j Hc Hj. now apply (gathered_value (address s) (order s) (gvm A) (lvm A) m1 m2 V c j). }
  unfold update_buffers, remapped. destruct (update_flag n s addr') eqn:Ef.
  - set (m3 := local_on n (fun _ => init_local_buffers z A) m2).
    assert (E3 : forall r a, ~ In (fst a) (locals A) -> m3 r a = m2 r a).
    { intros r a Ha. unfold m3, local_on. destruct (_ && _); [|reflexivity]. unfold init_local_buffers. destruct (existsb (Nat.eqb (fst a)) (locals A)) eqn:Ee; [|reflexivity].
      apply existsb_exists in Ee as (x & Hx & Ex). apply Nat.eqb_eq in Ex. rewrite Ex in Ha. contradiction. }
    assert (Hg : forall f, f = gpm A \/ f = gvm A \/ f = gpos A \/ f = gvel A \/ f = gfo A -> ~ In f (locals A)).
    { intros f Hf Hi. unfold locals in Hi. cbn [In] in Hi. decompose [or] Hf; decompose [or] Hi; subst; congruence. }
    destruct (lag_scatter_runs n addr' nc master ord' (gpm A) (lpm A) Hmaster Hv1' Hv2' Hnc ltac:(auto) m3) as (m4 & R4 & S4); auto.
    destruct (lag_scatter_runs n addr' nc master ord' (gvm A) (lvm A) Hmaster Hv1' Hv2' Hnc ltac:(auto) m4) as (m5 & R5 & S5); auto.
    exists m5. split; [|split; [|split; [|split]]].
    + refine (runs_to_app _ _ _ _ _ _ R1 _). refine (runs_to_app _ _ _ _ _ _ R2 _). refine (runs_to_app _ (fun _ => [BLocal (init_local_buffers z A)]) _ _ m3 _ _ _); [apply (runs_to_local n (fun _ => init_local_buffers z A))|].
      exact (runs_to_app _ _ _ _ _ _ R4 R5).
    + split; [exact Hv'|]. cbn [address num]. split; [intros; apply count_eq|]. split.
      * apply (holds_frame _ _ m4); [intros; apply (scatter_frame _ _ _ _ _ _ _ S5); cbn; auto|].
        apply (scattered_value addr' ord' (gpm A) (lpm A) m3 m4 P); auto. intros. rewrite E3 by (apply Hg; cbn; tauto). now apply Egp.
      * apply (scattered_value addr' ord' (gvm A) (lvm A) m4 m5 V); auto. intros. rewrite (scatter_frame _ _ _ _ _ _ _ S4) by (cbn; auto). rewrite E3 by (apply Hg; cbn; tauto). now apply Egv.
    + intros r i. repeat split; (rewrite (scatter_frame _ _ _ _ _ _ _ S5) by (cbn; auto)); (rewrite (scatter_frame _ _ _ _ _ _ _ S4) by (cbn; auto)); (rewrite E3 by (apply Hg; cbn; tauto));
        (rewrite (gather_frame _ _ _ _ _ _ _ G2) by (cbn; auto)); apply (gather_frame _ _ _ _ _ _ _ G1); cbn; auto.
    + intros c j Hc Hj. rewrite (scatter_frame _ _ _ _ _ _ _ S5) by (cbn; auto). rewrite (scatter_frame _ _ _ _ _ _ _ S4) by (cbn; auto). rewrite E3 by (apply Hg; cbn; tauto). now apply Egp.
    + intros r a Ha. unfold all_arrays, locals in Ha. cbn [app In] in Ha. rewrite (scatter_frame _ _ _ _ _ _ _ S5) by (intros E; apply Ha; rewrite E; tauto). rewrite (scatter_frame _ _ _ _ _ _ _ S4) by (intros E; apply Ha; rewrite E; tauto).
      rewrite E3 by (unfold locals; cbn [In]; tauto). rewrite (gather_frame _ _ _ _ _ _ _ G2) by (intros E; apply Ha; rewrite E; tauto). apply (gather_frame _ _ _ _ _ _ _ G1). intros E; apply Ha; rewrite E; tauto.
  - specialize (Hsame eq_refl). subst addr'. exists m2. split; [|split; [|split; [|split]]].
    + refine (runs_to_app _ _ _ _ _ _ R1 _). refine (runs_to_app _ _ _ _ _ _ R2 _). apply runs_to_nil.
    + split; [exact Hv'|]. cbn [address num]. split; [exact Hn|]. split.
      * apply (holds_frame _ _ m); auto. intros. rewrite (gather_frame _ _ _ _ _ _ _ G2) by (cbn; auto). apply (gather_frame _ _ _ _ _ _ _ G1). cbn; auto.
      * apply (holds_frame _ _ m1); auto. intros. apply (gather_frame _ _ _ _ _ _ _ G2). cbn; auto.
    + intros r i. repeat split; (rewrite (gather_frame _ _ _ _ _ _ _ G2) by (cbn; auto)); apply (gather_frame _ _ _ _ _ _ _ G1); cbn; auto.
    + exact Egp.
    + intros r a Ha. unfold all_arrays, locals in Ha. cbn [app In] in Ha. rewrite (gather_frame _ _ _ _ _ _ _ G2) by (intros E; apply Ha; rewrite E; tauto). apply (gather_frame _ _ _ _ _ _ _ G1). intros E; apply Ha; rewrite E; tauto.
Qed.

Lemma div_mod_pair k c i : 0 <= i < k -> (c * k + i) / k = c /\ (c * k + i) mod k = i.
Proof. intros H. assert (D := Z.div_mod_unique k). split; [symmetry; apply (Z.div_unique _ _ c i); lia|symmetry; apply (Z.mod_unique _ _ c i); lia]. Qed.
Lemma pair_range k c i : 0 <= i < k -> 0 <= c < nc -> 0 <= c * k + i < nc * k.
Proof. intros. nia. Qed.
Lemma local_on_frame f (m : mem_) r a : (forall r m, f r m a = m a) -> local_on n f m r a = m r a.
Proof. intros H. unfold local_on. destruct (_ && _); auto. Qed.

(** The body's fields on the master. *)
Definition body_step (pos body : Z -> Z -> T) (r : Z) : @lmem T -> @lmem T := if r =? master then set_body nc A N pos body else fun m => m.
Lemma body_step_frame pos body r (m : @lmem T) a : fst a <> gpos A -> fst a <> gvel A -> body_step pos body r m a = m a.
Proof. intros H1 H2. unfold body_step. destruct (r =? master); auto. unfold set_body. rewrite fill_miss by auto. now rewrite fill_miss by auto. Qed.
Lemma body_step_values pos body (m : @lmem T) c j : 0 <= c < nc -> 0 <= j < N ->
  body_step pos body master m (gpos A, c * N + j) = pos c j /\ body_step pos body master m (gvel A, c * N + j) = body c j.
Proof.
  intros Hc Hj. pose proof (arr_neq A HA) as H. decompose [and] H. clear H. unfold body_step. rewrite Z.eqb_refl. unfold set_body. destruct (div_mod_pair N c j Hj) as [E1 E2]. pose proof (pair_range N c j Hj Hc). split.
  - rewrite fill_miss by (cbn; auto). rewrite fill_hit by auto. now rewrite E1, E2.
  - rewrite fill_hit by auto. now rewrite E1, E2.
Qed.

(** Everything after update_buffers. *)
Definition after_update (s' : vb) (itp : Z -> @lmem T -> @lmem T) (r : Z) : list (@bop T) :=
  lag_scatter (address s') nc master (order s') (gpos A) (lpos A) r ++
  lag_scatter (address s') nc master (order s') (gvel A) (lvel A) r ++
  [BLocal (local_forcing add sub mul stiff damp nc A (num s' r) (itp r))] ++
  lag_gather (address s') nc master (order s') (gfo A) (lfo A) r.

(** [itp] writes the flow velocity array only, and gives node j the value [flow c j] in
    every memory that differs from m in the body's arrays only. *)
Definition flow_reader (addr : list Z) (itp : Z -> @lmem T -> @lmem T) (m : mem_) (flow : Z -> Z -> T) : Prop :=
  (forall r mm a, fst a <> lflow A -> itp r mm a = mm a) /\
  (forall mm : mem_, (forall r a, ~ In (fst a) (all_arrays A) -> mm r a = m r a) ->
     forall r c i j, 0 <= r < n -> 0 <= c < nc -> ith_node addr r i j -> itp r (mm r) (lag_local addr (lflow A) r c i) = flow c j).
Lemma reader_frame addr itp m m' flow : (forall r a, ~ In (fst a) (all_arrays A) -> m' r a = m r a) -> flow_reader addr itp m flow -> flow_reader addr itp m' flow.
Proof. intros E [H1 H2]. split; [exact H1|]. intros mm Hmm. apply H2. intros r a Ha. rewrite Hmm by auto. now apply E. Qed.
Lemma given_reader addr k m flow : (forall r, 0 <= r < n -> k r = node_count addr r) -> flow_reader addr (fun r => given_flow nc A (k r) (where_eq addr r) flow) m flow.
Proof.
  intros Hk. split; [intros; now apply fill_miss|]. intros mm _ r c i j Hr Hc Hij. pose proof (ith_range _ _ _ _ Hij) as [Hi Hj].
  destruct (div_mod_pair (node_count addr r) c i Hi) as [E1 E2]. pose proof (pair_range (node_count addr r) c i Hi Hc) as Hx.
  assert (Enode : nth (Z.to_nat i) (where_eq addr r) 0 = j). { destruct Hij as [_ Hij]. change (nodes_of addr r) with (where_eq addr r) in Hij. exact (nth_error_nth _ _ 0 Hij). }
  unfold given_flow, lag_local. rewrite (Hk r Hr), fill_hit by auto. now rewrite E1, E2, Enode.
Qed.

Lemma after_update_ok s' (m : mem_) P V pos body flow itp : flow_reader (address s') itp m flow -> inv s' m P V ->
  (forall c j, 0 <= c < nc -> 0 <= j < N -> m master (gpos A, c * N + j) = pos c j) ->
  (forall c j, 0 <= c < nc -> 0 <= j < N -> m master (gvel A, c * N + j) = body c j) ->
  exists m', runs_to n (after_update s' itp) m m' /\ inv s' m' P (fun c j => sub (flow c j) (body c j)) /\
    holds (address s') (lpos A) m' pos /\
    holds (address s') (lfo A) m' (fun c j => add (mul stiff (P c j)) (mul damp (sub (flow c j) (body c j)))) /\
    (forall c j, 0 <= c < nc -> 0 <= j < N -> m' master (gfo A, c * N + j) = add (mul stiff (P c j)) (mul damp (sub (flow c j) (body c j)))) /\
    (forall r a, ~ In (fst a) [gfo A; lfo A; lvm A; lflow A; lpos A; lvel A] -> m' r a = m r a).
Proof.
  intros [Hi1 Hi2] (Hv & Hn & HP & HV) Epos Evel. pose proof Hv as (Hv1 & Hv2 & Hv3). pose proof (arr_neq A HA) as H. decompose [and] H. clear H.
  destruct (lag_scatter_runs n (address s') nc master (order s') (gpos A) (lpos A) Hmaster Hv1 Hv2 Hnc ltac:(auto) m) as (m1 & R1 & S1).
  destruct (lag_scatter_runs n (address s') nc master (order s') (gvel A) (lvel A) Hmaster Hv1 Hv2 Hnc ltac:(auto) m1) as (m2 & R2 & S2).
  set (lf := fun r => local_forcing add sub mul stiff damp nc A (num s' r) (itp r)).
  set (m3 := local_on n lf m2).
  destruct (lag_gather_runs n (address s') nc master (order s') (gfo A) (lfo A) Hmaster Hv1 Hv2 Hnc ltac:(auto) m3) as (m4 & R4 & G4).
  assert (Hpos1 : holds (address s') (lpos A) m1 pos) by (apply (scattered_value (address s') (order s') (gpos A) (lpos A) m m1); auto).
  assert (Hvel2 : holds (address s') (lvel A) m2 body).
  { apply (scattered_value (address s') (order s') (gvel A) (lvel A) m1 m2); auto. intros. rewrite (scatter_frame _ _ _ _ _ _ _ S1) by (cbn; auto). auto. }
  assert (HP2 : holds (address s') (lpm A) m2 P).
  { apply (holds_frame _ _ m); auto. intros. rewrite (scatter_frame _ _ _ _ _ _ _ S2) by (cbn; auto). apply (scatter_frame _ _ _ _ _ _ _ S1). cbn; auto. }
  assert (F3 : forall r a, fst a <> lfo A -> fst a <> lvm A -> fst a <> lflow A -> m3 r a = m2 r a).
  { intros r a A1 A2 A3. unfold m3. apply local_on_frame. intros r0 m0. unfold lf, local_forcing. rewrite fill_miss by auto. rewrite fill_miss by auto. apply Hi1. auto. }
  assert (X3 : forall r c i j, 0 <= r < n -> 0 <= c < nc -> ith_node (address s') r i j ->
    m3 r (lag_local (address s') (lvm A) r c i) = sub (flow c j) (body c j) /\
    m3 r (lag_local (address s') (lfo A) r c i) = add (mul stiff (P c j)) (mul damp (sub (flow c j) (body c j)))).
  { intros r c i j Hr Hc Hij. pose proof (ith_range _ _ _ _ Hij) as [Hi Hj]. destruct (div_mod_pair (node_count (address s') r) c i Hi) as [E1 E2]. pose proof (pair_range (node_count (address s') r) c i Hi Hc) as Hx.
    assert (Hm2 : forall r a, ~ In (fst a) (all_arrays A) -> m2 r a = m r a).
    { intros r0 a0 Ha. rewrite (scatter_frame _ _ _ _ _ _ _ S2), (scatter_frame _ _ _ _ _ _ _ S1); auto; intros E; apply Ha; rewrite E; unfold all_arrays, locals; cbn [app In]; tauto. }
    pose proof (Hi2 m2 Hm2 r c i j Hr Hc Hij) as Eflow. unfold lag_local in Eflow.
    unfold m3. rewrite local_on_in by auto. unfold lf, local_forcing, lag_local. rewrite (Hn r Hr).
    assert (Evm : fill (lvm A) (nc * node_count (address s') r) (fun x m => sub (m (lflow A, x)) (m (lvel A, x))) (itp r (m2 r)) (lvm A, c * node_count (address s') r + i) = sub (flow c j) (m2 r (lvel A, c * node_count (address s') r + i))).
    { rewrite fill_hit by auto. rewrite Eflow, Hi1 by (cbn; auto). reflexivity. }
    pose proof (Hvel2 r c i j Hr Hc Hij) as Eb. pose proof (HP2 r c i j Hr Hc Hij) as Ep. unfold lag_local in Eb, Ep. split.
    - rewrite fill_miss by (cbn; auto). rewrite Evm. now rewrite Eb.
    - rewrite fill_hit by auto. rewrite Evm, Eb. rewrite fill_miss by (cbn; auto). rewrite Hi1 by (cbn; auto). now rewrite Ep. }
  assert (Hfo3 : holds (address s') (lfo A) m3 (fun c j => add (mul stiff (P c j)) (mul damp (sub (flow c j) (body c j))))) by (intros r c i j Hr Hc Hij; now apply X3).
  exists m4. split; [|split; [|split; [|split; [|split]]]].
  - unfold after_update. refine (runs_to_app _ _ _ _ _ _ R1 _). refine (runs_to_app _ _ _ _ _ _ R2 _). exact (runs_to_app n (fun r => [BLocal (lf r)]) _ _ m3 _ (runs_to_local n lf m2) R4).
  - split; [exact Hv|]. split; [exact Hn|]. split.
    + apply (holds_frame _ _ m2); auto. intros. rewrite (gather_frame _ _ _ _ _ _ _ G4) by (cbn; auto). apply F3; cbn; auto.
    + apply (holds_frame _ _ m3); [intros; apply (gather_frame _ _ _ _ _ _ _ G4); cbn; auto|]. intros r c i j Hr Hc Hij. now apply X3.
  - apply (holds_frame _ _ m1); auto. intros. rewrite (gather_frame _ _ _ _ _ _ _ G4) by (cbn; auto). rewrite F3 by (cbn; auto). apply (scatter_frame _ _ _ _ _ _ _ S2). cbn; auto.
  - apply (holds_frame _ _ m3); auto. intros. apply (gather_frame _ _ _ _ _ _ _ G4). cbn; auto.
  - intros c j Hc Hj. now apply (gathered_value (address s') (order s') (gfo A) (lfo A) m3 m4 (fun c j => add (mul stiff (P c j)) (mul damp (sub (flow c j) (body c j)))) c j).
  - intros r a Ha. cbn [In] in Ha. rewrite (gather_frame _ _ _ _ _ _ _ G4) by (intros E; apply Ha; auto). rewrite F3 by (intros E; apply Ha; rewrite E; tauto).
    rewrite (scatter_frame _ _ _ _ _ _ _ S2) by (intros E; apply Ha; rewrite E; tauto). apply (scatter_frame _ _ _ _ _ _ _ S1). intros E; apply Ha; rewrite E; tauto.
Qed.

Lemma inv_body s (m : mem_) P V pos body : inv s m P V -> inv s (local_on n (body_step pos body) m) P V.
Proof.
  intros (Hv & Hn & HP & HV). pose proof (arr_neq A HA) as H. decompose [and] H. clear H. split; [exact Hv|]. split; [exact Hn|].
  split; [apply (holds_frame _ _ m); auto|apply (holds_frame _ _ m); auto]; intros; (etransitivity; [apply local_on_frame|reflexivity]); intros; apply body_step_frame; cbn; auto.
Qed.
Definition interact' := interact add sub mul z stiff damp n nc master A.
Notation interact_with' := (interact_with add sub mul z stiff damp n nc master A).

Lemma interact_split s addr' ord' pos body itp r : valid (address s) (order s) ->
  interact_with' s addr' ord' pos body itp r = [BLocal (body_step pos body r)] ++ update_buffers z n nc master A s addr' ord' r ++ after_update (remapped n s addr' ord') itp r.
Proof. intros (_ & _ & HN). unfold interact_with, after_update, body_step. cbn [address order remapped]. now rewrite HN. Qed.

(** Counts equal but addresses not: each rank keeps its local mismatch arrays. *)
Lemma update_buffers_stale s addr' ord' (m : mem_) P V : inv s m P V -> valid addr' ord' -> update_flag n s addr' = false ->
  exists m', runs_to n (update_buffers z n nc master A s addr' ord') m m' /\
    (forall r a, fst a <> gpm A -> fst a <> gvm A -> m' r a = m r a).
Proof.
  intros (Hv & Hn & HP & HV) Hv' Hf. pose proof Hv as (Hv1 & Hv2 & Hv3). pose proof (arr_neq A HA) as H. decompose [and] H. clear H.
  destruct (lag_gather_runs n (address s) nc master (order s) (gpm A) (lpm A) Hmaster Hv1 Hv2 Hnc ltac:(auto) m) as (m1 & R1 & G1); auto.
  destruct (lag_gather_runs n (address s) nc master (order s) (gvm A) (lvm A) Hmaster Hv1 Hv2 Hnc ltac:(auto) m1) as (m2 & R2 & G2); auto.
  exists m2. split.
  - unfold update_buffers. rewrite Hf. refine (runs_to_app _ _ _ _ _ _ R1 _). refine (runs_to_app _ _ _ _ _ _ R2 _). apply runs_to_nil.
  - intros r a A1 A2. rewrite (gather_frame _ _ _ _ _ _ _ G2) by auto. now apply (gather_frame _ _ _ _ _ _ _ G1).
Qed.


(** Node j continues with the mismatch of node [was j]: itself if the buffers are rebuilt, the node that had its place if not. *)
Definition carries (s : vb) (addr' : list Z) (was : Z -> Z) : Prop := forall r i j, 0 <= r < n -> ith_node addr' r i j ->
  if update_flag n s addr' then was j = j else ith_node (address s) r i (was j).

Lemma interact_any s addr' ord' (m : mem_) P V pos body flow itp (was : Z -> Z) : inv s m P V -> valid addr' ord' -> carries s addr' was -> flow_reader addr' itp m flow ->
  let F := fun c j => add (mul stiff (P c (was j))) (mul damp (sub (flow c j) (body c j))) in
  exists m', runs_to n (interact_with' s addr' ord' pos body itp) m m' /\ inv (remapped n s addr' ord') m' (fun c j => P c (was j)) (fun c j => sub (flow c j) (body c j)) /\
    holds addr' (lpos A) m' pos /\ holds addr' (lfo A) m' F /\
    (forall c j, 0 <= c < nc -> 0 <= j < N -> m' master (gfo A, c * N + j) = F c j) /\
    (forall r a, ~ In (fst a) (all_arrays A) -> m' r a = m r a).
Proof.
  intros Hi Hv' Hw Hrd F. pose proof (inv_body s m P V pos body Hi) as Hi1. pose proof (arr_neq A HA) as H. decompose [and] H. clear H.
  assert (X : exists m1, runs_to n (update_buffers z n nc master A s addr' ord') (local_on n (body_step pos body) m) m1 /\
     inv (remapped n s addr' ord') m1 (fun c j => P c (was j)) (fun c j => V c (was j)) /\
     (forall r i, m1 r (gpos A, i) = local_on n (body_step pos body) m r (gpos A, i) /\ m1 r (gvel A, i) = local_on n (body_step pos body) m r (gvel A, i)) /\
     (forall r a, ~ In (fst a) (all_arrays A) -> m1 r a = local_on n (body_step pos body) m r a)).
  { unfold carries in Hw. destruct (update_flag n s addr') eqn:Hf.
    - destruct (update_buffers_ok s addr' ord' _ P V Hi1 Hv' ltac:(congruence)) as (m1 & R1 & (K1 & K2 & K3 & K4) & Fr & _ & F1).
      exists m1. split; [exact R1|]. split; [|split; [intros r i; destruct (Fr r i) as (A1 & A2 & _); auto|exact F1]].
      split; [exact K1|]. split; [exact K2|]. split; intros r c i j Hr Hc Hij; cbn [remapped address] in Hij; rewrite (Hw r i j Hr Hij); [now apply K3|now apply K4].
    - destruct (update_buffers_stale s addr' ord' _ P V Hi1 Hv' Hf) as (m1 & R1 & Fr). exists m1. split; [exact R1|]. split; [|split].
      + destruct Hi1 as (Hv & Hn & HP & HV). pose proof (noflag_num s addr' Hf) as Hc. split; [exact Hv'|]. cbn [remapped address num]. rewrite Hf. split; [exact Hc|].
        assert (K : forall l Q, l <> gpm A -> l <> gvm A -> holds (address s) l (local_on n (body_step pos body) m) Q -> holds addr' l m1 (fun c j => Q c (was j))).
        { intros l Q A1 A2 HQ r c i j Hr Hcc Hij. rewrite Fr by (cbn; auto). rewrite <- (HQ r c i (was j) Hr Hcc (Hw r i j Hr Hij)). unfold lag_local. now rewrite <- (Hc r Hr), (Hn r Hr). }
        split; apply K; auto.
      + intros r i. split; apply Fr; cbn; auto.
      + intros r a Ha. apply Fr; intros E; apply Ha; rewrite E; unfold all_arrays; cbn [app In]; tauto. }
  destruct X as (m1 & R1 & Hi2 & HB1 & F1).
  assert (FB : forall r a, ~ In (fst a) (all_arrays A) -> m1 r a = m r a).
  { intros r a Ha. rewrite F1 by auto. apply local_on_frame. intros. apply body_step_frame; intros E; apply Ha; rewrite E; unfold all_arrays; cbn [app In]; tauto. }
  assert (HB : forall c j, 0 <= c < nc -> 0 <= j < N -> m1 master (gpos A, c * N + j) = pos c j /\ m1 master (gvel A, c * N + j) = body c j).
  { intros c j Hc Hj. destruct (HB1 master (c * N + j)) as [-> ->]. rewrite local_on_in by auto. now apply body_step_values. }
  destruct (after_update_ok (remapped n s addr' ord') m1 _ _ pos body flow itp (reader_frame _ _ _ _ _ FB Hrd) Hi2) as (m2 & R2 & K1 & K2 & K3 & K4 & K5); [intros; now apply HB|intros; now apply HB|].
  exists m2. split; [|split; [exact K1|split; [exact K2|split; [exact K3|split; [exact K4|]]]]].
  - destruct Hi as (Hv & _). refine (runs_to_ext _ _ _ _ _ _ _); [intros r _; symmetry; now apply interact_split|].
    refine (runs_to_app _ (fun r => [BLocal (body_step pos body r)]) _ _ _ _ (runs_to_local n _ m) _). exact (runs_to_app _ _ _ _ _ _ R1 R2).
  - intros r a Ha. rewrite K5; [now apply FB|]. intros Hx. apply Ha. revert Hx. unfold all_arrays, locals. cbn [app In]. tauto.
Qed.

Lemma interact_ok s addr' ord' (m : mem_) P V pos body flow : inv s m P V -> valid addr' ord' -> (update_flag n s addr' = false -> addr' = address s) ->
  exists m', runs_to n (interact' s addr' ord' pos body flow) m m' /\ inv (remapped n s addr' ord') m' P (fun c j => sub (flow c j) (body c j)) /\
    holds addr' (lpos A) m' pos /\
    holds addr' (lfo A) m' (fun c j => add (mul stiff (P c j)) (mul damp (sub (flow c j) (body c j)))) /\
    (forall c j, 0 <= c < nc -> 0 <= j < N -> m' master (gfo A, c * N + j) = add (mul stiff (P c j)) (mul damp (sub (flow c j) (body c j)))) /\
    (forall r a, ~ In (fst a) (all_arrays A) -> m' r a = m r a).
Proof.
  intros Hi Hv' Hs. apply (interact_any s addr' ord' m P V pos body flow _ (fun j => j) Hi Hv').
  - intros r i j Hr Hij. destruct (update_flag n s addr'); [reflexivity|]. now rewrite <- (Hs eq_refl).
  - apply given_reader. intros r Hr. cbn [remapped num]. destruct (update_flag n s addr') eqn:Hf; [apply count_eq|now apply noflag_num].
Qed.
Lemma interact_stale s addr' ord' (m : mem_) P V pos body flow (was : Z -> Z) : inv s m P V -> valid addr' ord' -> update_flag n s addr' = false ->
  (forall r i j, 0 <= r < n -> ith_node addr' r i j -> ith_node (address s) r i (was j)) ->
  exists m', runs_to n (interact' s addr' ord' pos body flow) m m' /\ inv (remapped n s addr' ord') m' (fun c j => P c (was j)) (fun c j => sub (flow c j) (body c j)) /\
    (forall c j, 0 <= c < nc -> 0 <= j < N -> m' master (gfo A, c * N + j) = add (mul stiff (P c (was j))) (mul damp (sub (flow c j) (body c j)))).
Proof.
  intros Hi Hv' Hf Hw. destruct (interact_any s addr' ord' m P V pos body flow (fun r => given_flow nc A (num (remapped n s addr' ord') r) (where_eq addr' r) flow) was Hi Hv') as (m' & R & K1 & _ & _ & K2 & _).
  - intros r i j Hr Hij. rewrite Hf. now apply Hw.
  - apply given_reader. intros r Hr. cbn [remapped num]. rewrite Hf. now apply noflag_num.
  - exists m'. auto.
Qed.

Lemma advance_ok s dt (m : mem_) P V : inv s m P V ->
  exists m', runs_to n (advance add mul nc A s dt) m m' /\ inv s m' (fun c j => add (P c j) (mul dt (V c j))) V /\ (forall r a, fst a <> lpm A -> m' r a = m r a).
Proof.
  intros (Hv & Hn & HP & HV). pose proof (arr_neq A HA) as H. decompose [and] H. clear H.
  set (f := fun r => fill (lpm A) (nc * num s r) (fun x m => add (m (lpm A, x)) (mul dt (m (lvm A, x))))).
  assert (F : forall r a, fst a <> lpm A -> local_on n f m r a = m r a). { intros. apply local_on_frame. intros. now apply fill_miss. }
  exists (local_on n f m). split; [apply (runs_to_local n f m)|]. split; [|exact F]. split; [exact Hv|]. split; [exact Hn|]. split.
  - intros r c i j Hr Hc Hij. rewrite local_on_in by auto. pose proof (ith_range _ _ _ _ Hij) as [Hi Hj]. pose proof (HP r c i j Hr Hc Hij) as E1. pose proof (HV r c i j Hr Hc Hij) as E2. unfold f, lag_local in *.
    rewrite fill_hit by (rewrite (Hn r Hr); now apply pair_range). now rewrite E1, E2.
  - apply (holds_frame _ _ m); auto.
Qed.
End V.
