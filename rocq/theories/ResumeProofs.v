(** Proofs about restarting the interactors of a coupled simulation (C57). *)
From Coq Require Import QArith String FunctionalExtensionality Permutation.
From Verif Require Import Base SpecGrid SpecGhost SpecGhostSum SpecStep SpecLag SpecIB SpecVbf SpecBodies SpecCoupled Comm Blocking SpecBlocking BlockFacts Lagrangian LagProofs LagComm RunsTo Vbf VbfProofs VbfBook
  Coupled SpecTracks CoupledProofs IoLag SpecIOLag IoLagProofs SpecResume Resume ResumeSerial.
Open Scope Z_scope.
Open Scope list_scope.

Section One.
Context {T : Type}.
Variables (z fl : T) (nc : Z).
Hypothesis Hnc : 0 <= nc.

Lemma mismatch_shapes (a : actor T) : v_count (a_body a) <> nc -> shapes_ok nc [mismatch_fields nc a].
Proof. intros H. constructor; [|constructor]. cbn. constructor; [|constructor; [|constructor]]; right; auto. Qed.
Lemma mismatch_names (a : actor T) : NoDup (field_names [mismatch_fields nc a]).
Proof. cbn. repeat constructor; cbn; intuition discriminate. Qed.
Lemma mismatch_labels (a : actor T) : NoDup (labels 0 [mismatch_fields nc a]).
Proof. cbn. repeat constructor; auto. Qed.
Lemma mismatch_same (a a' : actor T) : a_body a = a_body a' -> Forall2 same_add [mismatch_fields nc a] [mismatch_fields nc a'].
Proof. intros H. constructor; [|constructor]. split; [reflexivity|]. cbn. rewrite <- H. repeat constructor. Qed.
Lemma mismatch_arrays (a : actor T) : NoDup (all_arrays (a_arrays a)) -> NoDup (SpecIOLag.arrays [mismatch_fields nc a]).
Proof.
  intros H. pose proof (arr_neq _ H) as X. assert (gpos (a_arrays a) <> gpm (a_arrays a) /\ gpos (a_arrays a) <> gvm (a_arrays a) /\ gpm (a_arrays a) <> gvm (a_arrays a)) as (A & B & C) by (clear -X; decompose [and] X; repeat split; congruence).
  clear -A B C. cbn. repeat constructor; cbn; intuition.
Qed.

(** Saving and loading the mismatches of one body. *)
Lemma file_exists (a : actor T) (m : mem T) (time : T) : v_count (a_body a) <> nc -> exists F, lag_saved_as nc [mismatch_fields nc a] m F.
Proof.
  intros H. destruct (entries_ok nc _ (mismatch_shapes a H) (mismatch_labels a) (mismatch_names a)) as (st & X1 & X2 & _). eexists. exists st, (expected 0 [mismatch_fields nc a]), (lag_writes nc (expected 0 [mismatch_fields nc a]) m), time. repeat split; eauto.
Qed.
Lemma file_loaded (a a' : actor T) (m m1 : mem T) F : v_count (a_body a) <> nc -> a_body a = a_body a' -> NoDup (all_arrays (a_arrays a')) -> lag_saved_as nc [mismatch_fields nc a] m F ->
  exists m2, lag_loaded_as fl nc [mismatch_fields nc a'] F m1 m2 /\ (forall m2', lag_loaded_as fl nc [mismatch_fields nc a'] F m1 m2' -> m2' = m2) /\
    (forall c j, 0 <= c < nc -> 0 <= j < v_count (a_body a) ->
      m2 (a_master a', (gpm (a_arrays a'), c * v_count (a_body a) + j)) = m (a_master a, (gpm (a_arrays a), c * v_count (a_body a) + j)) /\
      m2 (a_master a', (gvm (a_arrays a'), c * v_count (a_body a) + j)) = m (a_master a, (gvm (a_arrays a), c * v_count (a_body a) + j)) /\
      m2 (a_master a', (gpos (a_arrays a'), c * v_count (a_body a) + j)) = m (a_master a, (gpos (a_arrays a), c * v_count (a_body a) + j))) /\
    (forall r x, ~ In (fst x) [gpos (a_arrays a'); gpm (a_arrays a'); gvm (a_arrays a')] -> m2 (r, x) = m1 (r, x)).
Proof.
  intros Hc Hb Ha (st & es & ws & time & H1 & H2 & H3 & ->).
  destruct (entries_ok nc [mismatch_fields nc a']) as (st' & X1 & X2 & _); [apply mismatch_shapes; congruence|apply mismatch_labels|apply mismatch_names|].
  destruct (lag_restart fl nc [mismatch_fields nc a] [mismatch_fields nc a'] m m1 time ws st es st' Hnc (mismatch_shapes a Hc) (mismatch_labels a) (mismatch_names a) (mismatch_same a a' Hb)
    (mismatch_arrays a' Ha)) as (m2 & L & [R1 R2]); auto; [eexists; split; [now left|discriminate]|].
  exists m2. split; [exists st'; auto|]. split; [|split].
  - intros m2' (st2 & Y1 & Y2). rewrite X1 in Y1. injection Y1 as <-. apply functional_extensionality. intros [r x]. specialize (Y2 r). specialize (L r). rewrite L in Y2. injection Y2 as E. symmetry. exact (f_equal (fun f => f x) E).
  - intros c j Hcc Hj. destruct (R1 _ _ (or_introl eq_refl)) as [G1 G2]. cbn [la_master la_grid la_n mismatch_fields la_fields] in G1, G2.
    assert (Hr : 0 <= c * v_count (a_body a) + j < zprod [nc; v_count (a_body a)]) by (pose proof (pair_range nc (v_count (a_body a)) c j Hj Hcc); cbn; lia).
    split; [|split].
    + apply (G2 "position_mismatch"%string _ _ [nc; v_count (a_body a)]); [now left|rewrite <- Hb; now left|exact Hr].
    + apply (G2 "velocity_mismatch"%string _ _ [nc; v_count (a_body a)]); [right; now left|rewrite <- Hb; right; now left|exact Hr].
    + now apply G1.
  - intros r [f i] Hf. apply R2. intros a0 [<-|[]] _. cbn [mismatch_fields la_grid la_fields map fst snd]. cbn [fst In] in Hf. split; [intros ->; tauto|]. cbn [In]. tauto.
Qed.

(** _init_local_buffers and the scatters. *)
Lemma reinit_ok n (a : actor T) addr ord (m : mem T) P V : 0 <= a_master a < n -> NoDup (all_arrays (a_arrays a)) -> mapping_ok n (a_master a) (v_count (a_body a)) addr ord ->
  (forall c j, 0 <= c < nc -> 0 <= j < v_count (a_body a) -> m (a_master a, (gpm (a_arrays a), c * v_count (a_body a) + j)) = P c j /\ m (a_master a, (gvm (a_arrays a), c * v_count (a_body a) + j)) = V c j) ->
  exists m', segs_end n [SBlk (reinit z nc a addr ord)] m m' /\
    consistent n nc (a_master a) (a_arrays a) (v_count (a_body a)) (vb_init addr ord) (by_rank m') P V /\
    (forall r x, ~ In (fst x) (locals (a_arrays a)) -> m' (r, x) = m (r, x)).
Proof.
  intros Hma HA Hv HPV. set (A := a_arrays a) in *. set (N := v_count (a_body a)) in *. set (ma := a_master a) in *. pose proof Hv as (Hv1 & Hv2 & Hv3).
  pose proof (arr_neq A HA) as H. assert (Q1 : gpm A <> lpm A /\ gvm A <> lvm A /\ gvm A <> lpm A /\ lpm A <> lvm A) by (clear -H; decompose [and] H; repeat split; congruence). assert (Q2 : ~ In (gpm A) (locals A) /\ ~ In (gvm A) (locals A)).
  { clear -H. unfold locals. cbn [In]. decompose [and] H. split; intros X; decompose [or] X; congruence. }
  clear H. destruct Q1 as (D1 & D2 & D3 & D4). destruct Q2 as (E1 & E2).
  set (mi := local_on n (fun _ => init_local_buffers z A) (by_rank m)).
  destruct (lag_scatter_runs n addr nc ma ord (gpm A) (lpm A) Hma Hv1 Hv2 Hnc ltac:(auto) mi) as (m4 & R4 & S4); auto.
  destruct (lag_scatter_runs n addr nc ma ord (gvm A) (lvm A) Hma Hv1 Hv2 Hnc ltac:(auto) m4) as (m5 & R5 & S5); auto.
  exists (at_place m5). split; [|split].
  - econstructor; [|constructor]. unfold reinit. fold A. fold ma.
    refine (runs_to_app _ (fun _ => [BLocal (init_local_buffers z A)]) _ _ mi _ _ _); [apply (runs_to_local n (fun _ => init_local_buffers z A))|]. exact (runs_to_app _ _ _ _ _ _ R4 R5).
  - unfold by_rank, at_place. cbn [fst snd]. split; [exact Hv|]. split; [intros r Hr; cbn [vb_init num address]; apply count_eq|]. cbn [vb_init address]. split.
    + apply (holds_frame n nc addr (lpm A) m4); [intros r i Hr; apply (scatter_frame n nc ma _ _ _ _ _ _ _ S5); cbn; auto|].
      apply (scattered_value n nc ma N addr ord (gpm A) (lpm A) mi m4 P Hv S4). intros c j Hc Hj. unfold mi. rewrite (init_locals_frame z n A) by (cbn; auto). apply (proj1 (HPV c j Hc Hj)).
    + apply (scattered_value n nc ma N addr ord (gvm A) (lvm A) m4 m5 V Hv S5). intros c j Hc Hj. rewrite (scatter_frame n nc ma _ _ _ _ _ _ _ S4) by (cbn; auto).
      unfold mi. rewrite (init_locals_frame z n A) by (cbn; auto). apply (proj2 (HPV c j Hc Hj)).
  - intros r x Hx. unfold at_place. cbn [fst snd]. rewrite (scatter_frame n nc ma _ _ _ _ _ _ _ S5) by (intros E; apply Hx; rewrite E; unfold locals; cbn; tauto).
    rewrite (scatter_frame n nc ma _ _ _ _ _ _ _ S4) by (intros E; apply Hx; rewrite E; unfold locals; cbn; tauto). unfold mi. rewrite (init_locals_frame z n A) by exact Hx. reflexivity.
Qed.
End One.

Section Many.
Context {T : Type}.
Variables (z fl : T) (val : T -> Q) (dx shift : Q) (nc : Z) (nb : nat) (dims loc : list Z) (actors actors' : nat -> actor T) (ord : nat -> list Z -> list Z) (files : nat -> lfile T) (m : mem T).
Hypothesis Hnc : 0 <= nc.
Hypothesis Hdx : (0 < dx)%Q.
Hypothesis Hok : grid_ok dims loc.
Hypothesis Hbody : forall b, a_body (actors b) = a_body (actors' b).
Hypothesis Hcount : forall b, (b < nb)%nat -> v_count (a_body (actors b)) <> nc.
Hypothesis Hpos : forall b, (b < nb)%nat -> 0 <= v_count (a_body (actors b)).
Hypothesis Harr : forall b, (b < nb)%nat -> NoDup (all_arrays (a_arrays (actors' b))).
Hypothesis Hapart : forall b b' x, (b < nb)%nat -> (b' < nb)%nat -> b <> b' -> In x (all_arrays (a_arrays (actors' b))) -> ~ In x (all_arrays (a_arrays (actors' b'))).
Hypothesis Hma : forall b, (b < nb)%nat -> 0 <= a_master (actors' b) < zprod dims.
Hypothesis Hfile : forall b, (b < nb)%nat -> lag_saved_as nc [mismatch_fields nc (actors b)] m (files b).
Hypothesis Hdom : forall b, (b < nb)%nat -> Forall (in_domain dx shift dims loc) (stored_positions val nc (actors b) m).
Hypothesis Hord : forall b addr, (b < nb)%nat -> NoDup (ord b addr) /\ forall s, In s (ord b addr) <-> In s addr /\ s <> a_master (actors' b).
Notation res := (resumed z fl val dx shift dims loc nc actors' ord files).
Notation held b f := (fun c j => m (a_master (actors b), (f (a_arrays (actors b)), c * v_count (a_body (actors b)) + j))).

Lemma stored_same b (m2 : mem T) : (forall c j, 0 <= c < nc -> 0 <= j < v_count (a_body (actors b)) ->
    m2 (a_master (actors' b), (gpos (a_arrays (actors' b)), c * v_count (a_body (actors b)) + j)) = m (a_master (actors b), (gpos (a_arrays (actors b)), c * v_count (a_body (actors b)) + j))) ->
  stored_positions val nc (actors' b) m2 = stored_positions val nc (actors b) m.
Proof.
  intros H. unfold stored_positions. rewrite <- Hbody. apply map_ext_in. intros j Hj. apply zrange_In in Hj. apply map_ext_in. intros c Hc. apply zrange_In in Hc. f_equal. apply H; lia.
Qed.
Lemma stored_length b : Z.of_nat (length (stored_positions val nc (actors b) m)) = Z.max 0 (v_count (a_body (actors b))).
Proof. unfold stored_positions. rewrite map_length, zrange_length. lia. Qed.

Lemma resumed_ok k : (k <= nb)%nat -> forall m1 ss, exists m' ss', res k m1 ss m' ss' /\ (forall m'' ss'', res k m1 ss m'' ss'' -> m'' = m' /\ ss'' = ss') /\
  (forall b, (b < k)%nat -> consistent (zprod dims) nc (a_master (actors' b)) (a_arrays (actors' b)) (v_count (a_body (actors' b))) (ss' b) (by_rank m') (held b gpm) (held b gvm) /\
     map_nodes false dims loc dx shift (Z.of_nat (length dims)) (stored_positions val nc (actors b) m) = Mapped (address (ss' b))) /\
  (forall r x, (forall b, (b < k)%nat -> ~ In (fst x) (all_arrays (a_arrays (actors' b)))) -> m' (r, x) = m1 (r, x)).
Proof.
  induction k as [|k IH]; intros Hk m1 ss.
  - exists m1, ss. split; [constructor|]. split; [intros m'' ss'' H; inversion H; auto|]. split; [intros b Hb; lia|auto].
  - destruct (IH ltac:(lia) m1 ss) as (m2 & ss2 & R & U & C & Fr). assert (Hkn : (k < nb)%nat) by lia.
    destruct (file_loaded fl nc Hnc (actors k) (actors' k) m m2 (files k) (Hcount k Hkn) (Hbody k) (Harr k Hkn) (Hfile k Hkn)) as (m3 & L & LU & LV & LF).
    pose proof (stored_same k m3 (fun c j Hc Hj => proj2 (proj2 (LV c j Hc Hj)))) as Est.
    destruct (map_in_domain false dims loc dx shift Hdx (stored_positions val nc (actors k) m) Hok (Hdom k Hkn)) as (addr & Em & Fa).
    assert (Hv : mapping_ok (zprod dims) (a_master (actors' k)) (v_count (a_body (actors' k))) addr (ord k addr)).
    { split; [|split; [apply (Hord k addr Hkn)|]].
      - clear -Fa. induction Fa; constructor; tauto.
      - assert (E : length (stored_positions val nc (actors k) m) = length addr) by (clear -Fa; induction Fa; cbn; congruence). pose proof (stored_length k) as E2. pose proof (Hpos k Hkn). rewrite <- (Hbody k). lia. }
    destruct (reinit_ok z nc Hnc (zprod dims) (actors' k) addr (ord k addr) m3 (held k gpm) (held k gvm) (Hma k Hkn) (Harr k Hkn) Hv) as (m4 & R4 & C4 & F4).
    { intros c j Hc Hj. rewrite <- Hbody in Hj |- *. destruct (LV c j Hc Hj) as (A1 & A2 & _). auto. }
    assert (Sub : forall x, In x [gpos (a_arrays (actors' k)); gpm (a_arrays (actors' k)); gvm (a_arrays (actors' k))] -> In x (all_arrays (a_arrays (actors' k)))) by (intros x Hx; unfold all_arrays; cbn [app In] in *; tauto).
    assert (SubL : forall x, In x (locals (a_arrays (actors' k))) -> In x (all_arrays (a_arrays (actors' k)))) by (intros x Hx; unfold all_arrays; apply in_or_app; now right).
    assert (Fk : forall r x, ~ In (fst x) (all_arrays (a_arrays (actors' k))) -> m4 (r, x) = m2 (r, x)) by (intros r x Hx; rewrite F4 by auto; apply LF; auto).
    exists m4, (set_at ss2 k (vb_init addr (ord k addr))). split; [|split; [|split]].
    + econstructor; eauto. now rewrite Est.
    + intros m'' ss'' H. inversion H as [|? ? ? m2' ss2' m3' addr' ? Ra Rb Rc Rd]; subst. destruct (U _ _ Ra) as [-> ->]. apply LU in Rb as ->. rewrite Est, Em in Rc. injection Rc as <-.
      split; [exact (segs_det _ _ _ _ _ Rd R4)|reflexivity].
    + intros b Hb. destruct (Nat.eq_dec b k) as [-> |Hne].
      * rewrite ResumeSerial.set_same. split; [exact C4|exact Em].
      * rewrite ResumeSerial.set_other by exact Hne. destruct (C b ltac:(lia)) as ((Hv' & Hn' & HP & HV) & HM). split; [|exact HM]. split; [exact Hv'|]. split; [exact Hn'|].
        assert (E : forall r x i, In x (all_arrays (a_arrays (actors' b))) -> by_rank m4 r (x, i) = by_rank m2 r (x, i)) by (intros r x i Hx; apply Fk; cbn [fst]; apply (Hapart b k); auto; lia).
        split; (eapply holds_frame; [|eassumption]); intros r i Hr; apply E; unfold all_arrays, locals; cbn [app In]; tauto.
    + intros r x Hx. rewrite Fk by (apply Hx; lia). apply Fr. intros b Hb. apply Hx. lia.
Qed.
End Many.
