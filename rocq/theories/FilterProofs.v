(** Proofs about the Laplacian filters. *)
From Coq Require Import FunctionalExtensionality.
From Verif Require Import Base SpecGrid SpecGhost SpecStencil SpecStep SpecPenalise SpecFilter Ghost2D Ghost3D Cart CartFacts Comm Spmd GhostGeo GhostProofs FieldProofs Stencil StencilProofs HaloProofs HaloKernels HaloThms KernelList KernelProofs TimeStep StepProofs StepHistory PyNum PenaliseProofs Filter.
Arguments run_lops : simpl never.
Arguments addr_eq : simpl never.
Arguments place_dec : simpl never.

Lemma STo_val g n b i : 0 <= g -> 0 <= b -> 0 <= i < n + 2 * g -> slice_in 0 (n + 2 * g) (STo (g + b)) i = (i <? g + b).
Proof.
  intros. unfold slice_in. cbn [slice_start slice_stop]. unfold py_start. replace (g + b <? 0) with false by (symmetry; apply Z.ltb_ge; lia).
  apply Bool.eq_true_iff_eq. rewrite andb_true_iff, Z.leb_le, !Z.ltb_lt. lia.
Qed.
Lemma SFrom_val g n b i : 0 <= g -> 1 <= b <= n -> 0 <= i < n + 2 * g -> slice_in 0 (n + 2 * g) (SFrom (- g - b)) i = (n + g - b <=? i).
Proof.
  intros. unfold slice_in. cbn [slice_start slice_stop]. unfold py_start. replace (- g - b <? 0) with true by (symmetry; apply Z.ltb_lt; lia).
  apply Bool.eq_true_iff_eq. rewrite andb_true_iff, !Z.leb_le, !Z.ltb_lt. lia.
Qed.

Section F3.
Context {T : Type}.
Variables (lap : T -> T -> T -> T) (sub : T -> T -> T) (z : T).
Variables (per : bool) (pz py px n0 n1 n2 g : Z) (full : bool) (bw : Z).
Notation topo := [pz; py; px].
Notation loc := [n0; n1; n2].
Notation sizes := (ghosted g loc).
Notation N := (global_size topo loc).
Hypothesis (G : grid3 pz py px n0 n1 n2 g).
Hypothesis (Hbw : 1 <= bw /\ bw <= n0 /\ bw <= n1 /\ bw <= n2).
Notation Q := (Qext per topo loc g).

Definition zviews (r : Z) : list (list pslice) :=
  zero_views3 g bw (previous_grid_along per topo r 0) (next_grid_along per topo r 0)
                   (previous_grid_along per topo r 1) (next_grid_along per topo r 1)
                   (previous_grid_along per topo r 2) (next_grid_along per topo r 2).

Let Hok : grid_ok topo loc := g3_ok _ _ _ _ _ _ _ G.
Let Hs : Forall (fun x => 0 <= x) sizes.
Proof. apply (sizes_pos topo loc g Hok); unfold grid3 in G; lia. Qed.

Lemma zone_axis c d n i : 0 <= c < d -> g <= n -> bw <= n -> 0 <= g ->
  (g <= i < g + n \/ (per = false /\ (c * n + (i - g) < 0 \/ d * n <= c * n + (i - g)))) -> 0 <= i < n + 2 * g ->
  (c = 0 /\ i < g + bw \/ c = d - 1 /\ n + g - bw <= i <-> c * n + (i - g) < bw \/ d * n - bw <= c * n + (i - g)).
Proof.
  intros Hc Hn Hb Hg Ht Hi. split.
  - intros [[-> H]|[-> H]]; [left; lia|right; lia].
  - intros [H|H].
    + left. assert (c = 0); [|subst; split; lia]. destruct (Z.eq_dec c 0); auto. exfalso. assert (n <= c * n) by nia. assert (n <= d * n) by nia.
      destruct Ht as [Ht|[_ [Ht|Ht]]]; lia.
    + right. assert (c = d - 1).
      { destruct (Z.eq_dec c (d - 1)); auto. exfalso. assert (c * n + 2 * n <= d * n) by nia. assert (0 <= c * n) by nia. destruct Ht as [Ht|[_ [Ht|Ht]]]; lia. }
      subst. split; lia.
Qed.

Lemma zone3 r I : 0 <= r < zprod topo -> inb sizes I -> Q r I -> zeroed loc g zviews r I = zoneb per N bw (ghost_pos topo loc g r I).
Proof.
  intros Hr HI HQ. unfold grid3 in G. destruct Hbw as (B0 & B1 & B2 & B3).
  assert (Hpos : positive topo) by (repeat constructor; lia).
  pose proof (tr_axis _ _ _ _ _ (tracked_ext per topo loc g Hok) r I) as Hax.
  pose proof (unravel_inb topo r Hpos Hr) as Hc.
  pose proof (axis_none per topo r 0 Hpos ltac:(simpl; lia) Hr) as [N0 N1].
  pose proof (axis_none per topo r 1 Hpos ltac:(simpl; lia) Hr) as [N2 N3].
  pose proof (axis_none per topo r 2 Hpos ltac:(simpl; lia) Hr) as [N4 N5].
  pose proof (Hax 0%nat Hr HI HQ ltac:(simpl; lia)) as T0. pose proof (Hax 1%nat Hr HI HQ ltac:(simpl; lia)) as T1. pose proof (Hax 2%nat Hr HI HQ ltac:(simpl; lia)) as T2.
  clear Hax. unfold axis_inner, axis_outside in *.
  apply Bool.eq_true_iff_eq. unfold zeroed, zviews, zero_views3. rewrite !existsb_app', !orb_true_iff, !ifnone, N0, N1, N2, N3, N4, N5. clear N0 N1 N2 N3 N4 N5.
  unfold zoneb. rewrite andb_true_iff, negb_true_iff.
  unfold ghost_pos, block_start, global_size in *. revert Hc T0 T1 T2. generalize (unravel topo r). intros cs Hc.
  inversion Hc as [|? ? c0 C0 Hc0 HC0]; subst. inversion HC0 as [|? ? c1 C1 Hc1 HC1]; subst. inversion HC1 as [|? ? c2 C2 Hc2 HC2]; subst. inversion HC2; subst.
  inversion HI as [|? ? i0 I0 H0 HI0]; subst. inversion HI0 as [|? ? i1 I1 H1 HI1]; subst. inversion HI1 as [|? ? i2 I2 H2 HI2]; subst. inversion HI2; subst.
  simpl. intros T0 T1 T2.
  rewrite !STo_val, !SFrom_val, !SAll_out by lia. rewrite !andb_true_r, ?andb_true_l, ?orb_false_r, !orb_true_iff, !Z.ltb_lt, !Z.leb_le.
  pose proof (zone_axis c0 pz n0 i0 Hc0 ltac:(lia) ltac:(lia) ltac:(lia) T0 H0) as Z0.
  pose proof (zone_axis c1 py n1 i1 Hc1 ltac:(lia) ltac:(lia) ltac:(lia) T1 H1) as Z1.
  pose proof (zone_axis c2 px n2 i2 Hc2 ltac:(lia) ltac:(lia) ltac:(lia) T2 H2) as Z2.
  rewrite <- Z0, <- Z1, <- Z2. clear. tauto.
Qed.

(** Reading next to a cell that is not in the boundary zone. *)
Lemma zone_wrap P a d : inb N P -> zoneb per N bw P = false -> (a < 3)%nat -> Z.abs d <= 1 ->
  exists q, wrapv per N (vadd P (axis_vec 3 a d)) = Some q /\ q = norm per N (vadd P (axis_vec 3 a d)).
Proof.
  intros HP Hz Ha Hd. assert (Haw : away per 1 N P).
  { unfold zoneb in Hz. unfold away. destruct per; [now left|right]. cbn [negb andb] in Hz. apply Forall_forall. intros ab Hab.
    assert (Hx : (fst ab <? bw) || (snd ab - bw <=? fst ab) = false).
    { destruct (_ || _) eqn:E; auto. assert (existsb (fun ab => (fst ab <? bw) || (snd ab - bw <=? fst ab)) (combine P N) = true) by (apply existsb_exists; eauto). congruence. }
    apply orb_false_iff in Hx. rewrite Z.ltb_ge, Z.leb_gt in Hx. lia. }
  assert (HN : length N = 3%nat) by reflexivity.
  destruct (away_star per 1 N P (axis_vec 3 a d) HP ltac:(lia) Haw) as [q Hq].
  { exists a, d. rewrite HN. auto. }
  exists q. split; auto. eapply wrapv_norm; [|exact Hq]. pose proof (inb_length _ _ HP). rewrite vadd_length; rewrite ?axis_vec_len; lia.
Qed.

(** *** One pass *)
Definition buf_is (buf : nat) (m : mem T) (v : list Z -> T) : Prop :=
  forall r x, 0 <= r < zprod topo -> inb loc x -> field m sizes r buf (map (fun i => i + g) x) = v (vadd (block_start topo loc r) x).

Lemma lap_local buf a : (a < 3)%nat -> star_local 3 [buf] 1 (lap_kern lap buf a) /\ overwrites (lap_kern lap buf a).
Proof.
  intros Ha. split; [|intros rd o o'; reflexivity]. intros rd rd' o E. unfold lap_kern.
  rewrite !E; auto; try (now left); eexists a, _; split; auto; (split; [|reflexivity]); lia.
Qed.

Lemma copy_post n (m : mem T) dst src r I : dst <> src -> 0 <= r < n -> inb sizes I ->
  field (den n [PLoc (fun _ => copy_lops n0 n1 n2 g dst src)] m) sizes r dst I = field m sizes r src I.
Proof. intros Hne Hr HI. exact (sum_post (fun _ b => b) sizes n Hs m dst src r I Hne Hr HI). Qed.
Lemma copy_frame n (m : mem T) dst src r f a : 0 <= r < n -> f <> dst -> den n [PLoc (fun _ => copy_lops n0 n1 n2 g dst src)] m (r, (f, a)) = m (r, (f, a)).
Proof. intros Hr Hf. exact (sum_frame (fun _ b => b) z sizes n m dst src r f a Hr Hf). Qed.

Section Pass.
Variables (buf flux : nat) (Hbf : buf <> flux).
Notation HALO a := (halo3 per pz py px n0 n1 n2 g full 1 [buf] [(flux, lap_kern lap buf a)] (Some (z, bw))).

Let Hn3 : 1 <= pz /\ 1 <= py /\ 1 <= px. Proof. unfold grid3 in G; lia. Qed.
Let Hg1 : 1 <= g. Proof. unfold grid3 in G; lia. Qed.
Let Hgn : g <= n0 /\ g <= n1 /\ g <= n2. Proof. unfold grid3 in G; lia. Qed.

Lemma strips_l : Forall (fun v => length v = length sizes) (strips3 g 1 (s0 n0 g) (s1 n1 g) (s2 n2 g)).
Proof. repeat constructor. Qed.
Lemma zviews_l r : Forall (fun v => length v = length sizes) (zviews r).
Proof. unfold zviews, zero_views3. rewrite !Forall_app. repeat split; apply ifF; reflexivity. Qed.
Lemma nd1 : NoDup (map fst [(flux, lap_kern lap buf 0)]).
Proof. repeat constructor; auto. Qed.
Lemma dis1 : forall f, In f [buf] -> ~ In f (map fst [(flux, lap_kern lap buf 0)]).
Proof. simpl. intros f [<-|[]] [E|[]]. congruence. Qed.

Lemma pass_ok a : (a < 3)%nat -> Forall (phase_ok (zprod topo)) (filter_pass lap z per pz py px n0 n1 n2 g full bw buf flux a).
Proof.
  intros Ha. unfold filter_pass. apply Forall_app. split; [|constructor; [exact I|constructor]].
  apply (halo_ok per topo loc g 1 [buf] _ [(flux, lap_kern lap buf a)] (strips3 g 1 (s0 n0 g) (s1 n1 g) (s2 n2 g)) zviews z Hok ltac:(lia) Hg1
    (exch3_facts per pz py px n0 n1 n2 g full [buf] Hn3 Hg1 Hgn)).
  - exact dis1.
  - intros o K [E|[]]. inversion E; subst. now apply lap_local.
Qed.

Lemma halo_tracked (m : mem T) v a r I : (a < 3)%nat -> buf_is buf m v -> 0 <= r < zprod topo -> inb sizes I -> Q r I ->
  field (den (zprod topo) (HALO a) m) sizes r flux I = filt lap z per N bw a v (ghost_pos topo loc g r I).
Proof.
  intros Ha Hv Hr HI HQ.
  pose proof (halo_value per topo loc g 1 [buf] _ [(flux, lap_kern lap buf a)] (strips3 g 1 (s0 n0 g) (s1 n1 g) (s2 n2 g)) zviews z Hok ltac:(lia) Hg1
    (exch3_facts per pz py px n0 n1 n2 g full [buf] Hn3 Hg1 Hgn) nd1 dis1) as HV.
  specialize (HV ltac:(intros o K [E|[]]; inversion E; subst; now apply lap_local) strips_l zviews_l m r I flux (lap_kern lap buf a) Hr HI (or_introl eq_refl)).
  unfold halo_post in HV. etransitivity; [exact HV|]. clear HV. rewrite zone3 by auto. unfold filt. destruct (zoneb per N bw (ghost_pos topo loc g r I)) eqn:Ez; auto.
  assert (Hin : inner g loc I).
  { destruct HQ as [H|[H1 H2]]; auto. exfalso.
    apply owner_none_iff in H2 as [-> (b & Hb & Ho)]; auto; [|apply inb_length in HI; exact HI].
    unfold zoneb in Ez. cbn [negb andb] in Ez. assert (X : existsb (fun ab => (fst ab <? bw) || (snd ab - bw <=? fst ab)) (combine (ghost_pos topo loc g r I) N) = true); [|congruence].
    apply existsb_exists. exists (nth b (ghost_pos topo loc g r I) 0, nth b N 0). unfold axis_outside in Ho. split.
    - rewrite <- (combine_nth (ghost_pos topo loc g r I) N b 0 0) by (apply gp_length; auto; apply inb_length in HI; exact HI).
      apply nth_In. rewrite combine_length, (gp_length topo loc g r I) by (auto; apply inb_length in HI; exact HI).
      change (length N) with 3%nat. simpl in Hb. rewrite ?Nat.min_id. lia.
    - cbn [fst snd]. apply orb_true_iff. rewrite Z.ltb_lt, Z.leb_le. lia. }
  destruct (passes3 n0 n1 n2 g 1 I ltac:(lia) Hg1 Hgn Hin) as [_ P1].
  rewrite iter_over; [|now apply lap_local|exact P1].
  destruct (sub_ok g loc I Hin) as (x & Hx & ->).
  assert (Egp : ghost_pos topo loc g r (map (fun i => i + g) x) = vadd (block_start topo loc r) x).
  { unfold ghost_pos. rewrite map_map. rewrite (map_ext _ (fun x => x)) by (intros; lia). now rewrite map_id. }
  rewrite Egp in *. unfold lap_kern. change (length N) with 3%nat.
  pose proof (pos_inb topo loc Hok r x Hr Hx) as HP.
  assert (Hrep : represents topo loc g [buf] m (fun _ => v)) by (intros r' f x' Hr' [<-|[]] Hx'; now apply Hv).
  assert (R : forall d, Z.abs d <= 1 -> field (run_copies (all_copies (zprod topo) (exchange3 per pz py px n0 n1 n2 g full [buf])) m) sizes r buf (vadd (map (fun i => i + g) x) (axis_vec 3 a d)) =
     v (norm per N (vadd (vadd (block_start topo loc r) x) (axis_vec 3 a d)))).
  { intros d Hd. destruct (zone_wrap _ a d HP Ez Ha Hd) as (q & Hq & ->).
    assert (Hst : star (length loc) 1 (axis_vec 3 a d)) by (exists a, d; auto).
    rewrite (read_star per topo loc g 1 [buf] _ ltac:(lia) (exch3_facts per pz py px n0 n1 n2 g full [buf] Hn3 Hg1 Hgn)); auto; [|now left].
    apply (refreshed_global per topo loc g [buf] m (fun _ => v)); auto; [now left| |].
    - rewrite vadd_length; rewrite ?map_length, ?axis_vec_len; apply inb_length in Hx; simpl in *; lia.
    - rewrite ghost_pos_shift; auto; [apply inb_length in Hx; exact Hx|]. apply axis_vec_len. }
  rewrite !R by lia. reflexivity.
Qed.

Lemma halo_other (m : mem T) a r f x : 0 <= r < zprod topo -> f <> buf -> f <> flux -> den (zprod topo) (HALO a) m (r, (f, x)) = m (r, (f, x)).
Proof.
  intros Hr H1 H2.
  pose proof (halo_frame topo loc g 1 (all_copies (zprod topo) (exchange3 per pz py px n0 n1 n2 g full [buf])) [(flux, lap_kern lap buf a)]
    (strips3 g 1 (s0 n0 g) (s1 n1 g) (s2 n2 g)) zviews z m r f x Hr ltac:(simpl; intuition)) as HF.
  etransitivity; [exact HF|]. apply (copies_frame per topo loc g [buf]); [|simpl; intuition].
  exact (exch3_facts per pz py px n0 n1 n2 g full [buf] Hn3 Hg1 Hgn).
Qed.

Definition both_are (m : mem T) (v : list Z -> T) : Prop :=
  forall r f I, 0 <= r < zprod topo -> f = buf \/ f = flux -> inb sizes I -> Q r I -> field m sizes r f I = v (ghost_pos topo loc g r I).
Definition same_else (m m' : mem T) : Prop := forall r f x, 0 <= r < zprod topo -> f <> buf -> f <> flux -> m' (r, (f, x)) = m (r, (f, x)).

Lemma both_buf m v : both_are m v -> buf_is buf m v.
Proof.
  intros H r x Hr Hx. rewrite (H r buf); auto.
  - f_equal. unfold ghost_pos. rewrite map_map. rewrite (map_ext _ (fun x => x)) by (intros; lia). now rewrite map_id.
  - apply inner_inb; [lia|now apply add_inner].
  - left. now apply add_inner.
Qed.

Lemma pass_post (m : mem T) v a : (a < 3)%nat -> buf_is buf m v ->
  both_are (den (zprod topo) (filter_pass lap z per pz py px n0 n1 n2 g full bw buf flux a) m) (filt lap z per N bw a v) /\
  same_else m (den (zprod topo) (filter_pass lap z per pz py px n0 n1 n2 g full bw buf flux a) m).
Proof.
  intros Ha Hv. unfold filter_pass. rewrite den_app. split.
  - intros r f I Hr Hf HI HQ.
    assert (E : field (den (zprod topo) (HALO a) m) sizes r flux I = filt lap z per N bw a v (ghost_pos topo loc g r I)) by (now apply halo_tracked).
    rewrite <- E. destruct Hf as [-> | ->].
    + now apply copy_post.
    + unfold field. apply copy_frame; auto.
  - intros r f x Hr H1 H2. rewrite copy_frame by auto. now apply halo_other.
Qed.

Lemma axes_post axes : Forall (fun a => (a < 3)%nat) axes -> axes <> [] -> forall (m : mem T) v, buf_is buf m v ->
  both_are (den (zprod topo) (flat_map (filter_pass lap z per pz py px n0 n1 n2 g full bw buf flux) axes) m) (filts lap z per N bw axes v) /\
  same_else m (den (zprod topo) (flat_map (filter_pass lap z per pz py px n0 n1 n2 g full bw buf flux) axes) m).
Proof.
  induction 1 as [|a axes Ha Hax IH]; intros Hne m v Hv; [congruence|]. cbn [flat_map]. rewrite den_app. unfold filts. cbn [fold_left]. fold (filts lap z per N bw axes (filt lap z per N bw a v)).
  destruct (pass_post m v a Ha Hv) as [P1 P2]. destruct axes as [|b axes]; [split; auto|].
  destruct (IH ltac:(discriminate) _ _ (both_buf _ _ P1)) as [Q1 Q2]. split; auto. intros r f x Hr H1 H2. rewrite Q2 by auto. auto.
Qed.

Lemma iter_comm {A} (f : A -> A) n x : Nat.iter n f (f x) = f (Nat.iter n f x).
Proof. induction n; simpl; congruence. Qed.
Lemma passes_post axes order : Forall (fun a => (a < 3)%nat) axes -> axes <> [] -> forall (m : mem T) v, buf_is buf m v ->
  ((1 <= order)%nat -> both_are (den (zprod topo) (filter_passes lap z per pz py px n0 n1 n2 g full bw buf flux order axes) m) (filts_n lap z per N bw order axes v)) /\
  same_else m (den (zprod topo) (filter_passes lap z per pz py px n0 n1 n2 g full bw buf flux order axes) m).
Proof.
  intros Hax Hne. unfold filter_passes, filts_n. induction order as [|n IH]; intros m v Hv.
  - split; [lia|]. intros r f x _ _ _. reflexivity.
  - cbn [repeat concat]. rewrite den_app. destruct (axes_post axes Hax Hne m v Hv) as [P1 P2].
    destruct (IH _ _ (both_buf _ _ P1)) as [Q1 Q2]. split.
    + intros _. destruct n as [|n]; [exact P1|]. specialize (Q1 ltac:(lia)). change (Nat.iter (S (S n)) ?f v) with (f (Nat.iter (S n) f v)).
      rewrite <- iter_comm. exact Q1.
    + intros r f x Hr H1 H2. rewrite Q2 by auto. auto.
Qed.

(** filter_apply on [fld], from the inner cells of fld alone. *)
Lemma apply_post axes order fld : Forall (fun a => (a < 3)%nat) axes -> axes <> [] -> (1 <= order)%nat -> fld <> buf -> fld <> flux ->
  forall (m : mem T) v, buf_is fld m v ->
  let m' := den (zprod topo) (filter_apply lap sub z per pz py px n0 n1 n2 g full bw buf flux order axes fld) m in
  (forall r I, 0 <= r < zprod topo -> inb sizes I -> Q r I -> field m' sizes r fld I = sub (field m sizes r fld I) (filts_n lap z per N bw order axes v (ghost_pos topo loc g r I))) /\
  (forall r f x, 0 <= r < zprod topo -> f <> buf -> f <> flux -> f <> fld -> m' (r, (f, x)) = m (r, (f, x))).
Proof.
  intros Hax Hne Ho H1 H2 m v Hv m'. unfold m', filter_apply. rewrite !den_app.
  set (m1 := den (zprod topo) [PLoc (fun _ => copy_lops n0 n1 n2 g buf fld)] m).
  assert (Hb : buf_is buf m1 v).
  { intros r x Hr Hx. unfold m1. rewrite copy_post; auto. apply inner_inb; [lia|now apply add_inner]. }
  destruct (passes_post axes order Hax Hne m1 v Hb) as [P1 P2]. specialize (P1 Ho).
  set (m2 := den (zprod topo) (filter_passes _ _ _ _ _ _ _ _ _ _ _ _ _ _ _ _) m1) in *.
  split.
  - intros r I Hr HI HQ. rewrite (sum_post sub sizes (zprod topo) Hs); auto. f_equal.
    + unfold field. rewrite P2 by auto. unfold m1. apply copy_frame; auto.
    + apply P1; auto.
  - intros r f x Hr F1 F2 F3. rewrite (sum_frame sub z) by auto. rewrite P2 by auto. unfold m1. now apply copy_frame.
Qed.
Lemma apply_ok axes order fld : Forall (fun a => (a < 3)%nat) axes -> Forall (phase_ok (zprod topo)) (filter_apply lap sub z per pz py px n0 n1 n2 g full bw buf flux order axes fld).
Proof.
  intros Hax. unfold filter_apply, filter_passes. repeat (apply Forall_app; split); try (constructor; [exact I|constructor]).
  induction order as [|n IH]; cbn [repeat concat]; [constructor|]. apply Forall_app. split; auto.
  clear -Hax Hbf Hn3 Hg1 Hgn Hok G. induction Hax as [|a axes Ha Hax IH]; cbn [flat_map]; [constructor|]. apply Forall_app. split; auto. now apply pass_ok.
Qed.
End Pass.
Lemma clear_frame flux (m : mem T) r f x : f <> flux -> den (zprod topo) [clear_boundary z per pz py px n0 n1 n2 g bw flux] m (r, (f, x)) = m (r, (f, x)).
Proof.
  intros Hf. unfold den, clear_boundary. cbn [fold_left den1]. unfold den_loc. cbn [fst snd]. destruct (_ && _); auto.
  unfold zero_lops3. rewrite set_lops_views. apply run_sets_frame. simpl. intuition.
Qed.

(** *** The filters *)
Lemma filter_ok ft buf flux order fld : buf <> flux -> Forall (phase_ok (zprod topo)) (filter_3d lap sub z per pz py px n0 n1 n2 g full bw ft buf flux order fld).
Proof.
  intros Hbf. destruct ft; cbn [filter_3d]; unfold multiplicative_filter, convolution_filter;
    (apply Forall_app; split; [constructor; [exact I|constructor]|]).
  - apply apply_ok; auto; repeat constructor.
  - apply Forall_app; split; [apply apply_ok; auto; repeat constructor|]. apply Forall_app; split; apply apply_ok; auto; repeat constructor.
Qed.

(** Q' is either the inner cells or Qext. *)
Section OnQ.
Variable Q' : Z -> list Z -> Prop.
Hypothesis HQ1 : forall r I, Q' r I -> Q r I.
Hypothesis HQ2 : forall r I, inner g loc I -> Q' r I.

Lemma rep_buf fld Fs m u : In fld Fs -> rep_on Q' topo loc g Fs m u -> buf_is fld m (u fld).
Proof.
  intros Hf H r x Hr Hx. rewrite (H r fld); auto.
  - f_equal. unfold ghost_pos. rewrite map_map. rewrite (map_ext _ (fun x => x)) by (intros; lia). now rewrite map_id.
  - apply inner_inb; [unfold grid3 in G; lia|now apply add_inner].
  - apply HQ2. now apply add_inner.
Qed.
Lemma apply_rep buf flux axes order fld Fs (m : mem T) u : buf <> flux -> Forall (fun a => (a < 3)%nat) axes -> axes <> [] -> (1 <= order)%nat ->
  ~ In buf Fs -> ~ In flux Fs -> In fld Fs -> rep_on Q' topo loc g Fs m u ->
  rep_on Q' topo loc g Fs (den (zprod topo) (filter_apply lap sub z per pz py px n0 n1 n2 g full bw buf flux order axes fld) m)
    (on_fields [fld] (fun v P => sub (v P) (filts_n lap z per N bw order axes v P)) u).
Proof.
  intros Hbf Hax Hne Ho Hb Hfl Hf HR.
  destruct (apply_post buf flux Hbf axes order fld Hax Hne Ho ltac:(intros ->; auto) ltac:(intros ->; auto) m (u fld) (rep_buf fld Fs m u Hf HR)) as [P1 P2].
  intros r f I Hr Hfin HI HQ. unfold on_fields. destruct (in_dec Nat.eq_dec f [fld]) as [Hi|Hn].
  - destruct Hi as [<-|[]]. rewrite P1 by auto. f_equal. now apply HR.
  - unfold field. rewrite P2; auto; try (intros ->; auto). now apply HR. apply Hn. now left.
Qed.
Lemma on_fields_seq {U} fld (h1 h2 : (list Z -> U) -> list Z -> U) u f P :
  on_fields [fld] h2 (on_fields [fld] h1 u) f P = on_fields [fld] (fun v => h2 (h1 v)) u f P.
Proof.
  unfold on_fields. destruct (in_dec Nat.eq_dec f [fld]) as [H|]; auto. 
Qed.
Lemma clear_rep flux Fs (m : mem T) u : ~ In flux Fs -> rep_on Q' topo loc g Fs m u ->
  rep_on Q' topo loc g Fs (den (zprod topo) [clear_boundary z per pz py px n0 n1 n2 g bw flux] m) u.
Proof. intros Hf HR r f I Hr Hfin HI HQ. unfold field. rewrite clear_frame by (intros ->; auto). now apply HR. Qed.

Lemma filter_rep ft buf flux order fld Fs (m : mem T) u : buf <> flux -> (1 <= order)%nat -> ~ In buf Fs -> ~ In flux Fs -> In fld Fs ->
  rep_on Q' topo loc g Fs m u ->
  rep_on Q' topo loc g Fs (den (zprod topo) (filter_3d lap sub z per pz py px n0 n1 n2 g full bw ft buf flux order fld) m) (on_fields [fld] (serial_filter lap sub z per N bw ft order) u).
Proof.
  intros Hbf Ho Hb Hfl Hf HR. destruct ft; cbn [filter_3d]; unfold serial_filter.
  - unfold multiplicative_filter. rewrite den_app. apply apply_rep; auto; try (repeat constructor); try discriminate. now apply clear_rep.
  - unfold convolution_filter. rewrite !den_app.
    eapply rep_on_ext.
    2:{ apply apply_rep; auto; try (repeat constructor); try discriminate. apply apply_rep; auto; try (repeat constructor); try discriminate. apply apply_rep; auto; try (repeat constructor); try discriminate. apply clear_rep; eauto. }
    intros f P. rewrite !on_fields_seq. unfold on_fields. destruct (in_dec _ _ _); reflexivity.
Qed.
Lemma vector_filter_rep ft buf flux order flds Fs : buf <> flux -> (1 <= order)%nat -> ~ In buf Fs -> ~ In flux Fs -> incl flds Fs -> NoDup flds ->
  forall (m : mem T) u, rep_on Q' topo loc g Fs m u ->
  rep_on Q' topo loc g Fs (den (zprod topo) (vector_filter_3d lap sub z per pz py px n0 n1 n2 g full bw ft buf flux order flds) m) (on_fields flds (serial_filter lap sub z per N bw ft order) u).
Proof.
  intros Hbf Ho Hb Hfl Hinc Hn. induction Hn as [|f flds Hf Hn IH]; intros m u HR; [exact HR|].
  unfold vector_filter_3d. cbn [flat_map]. rewrite den_app. eapply rep_on_ext; [intros; apply on_fields_cons; exact Hf|].
  apply IH; [intros x Hx; apply Hinc; now right|]. apply filter_rep; auto. apply Hinc. now left.
Qed.
End OnQ.

Lemma vector_filter_ok ft buf flux order flds : buf <> flux -> Forall (phase_ok (zprod topo)) (vector_filter_3d lap sub z per pz py px n0 n1 n2 g full bw ft buf flux order flds).
Proof. intros H. unfold vector_filter_3d. induction flds; cbn [flat_map]; [constructor|]. apply Forall_app. split; auto. now apply filter_ok. Qed.

Lemma vector_filter_serial ft buf flux order flds Fs (m : mem T) u : buf <> flux -> (1 <= order)%nat -> ~ In buf Fs -> ~ In flux Fs -> incl flds Fs -> NoDup flds ->
  exists m', spmd_ends (zprod topo) (vector_filter_3d lap sub z per pz py px n0 n1 n2 g full bw ft buf flux order flds) m m' /\
    (represents topo loc g Fs m u -> represents topo loc g Fs m' (on_fields flds (serial_filter lap sub z per N bw ft order) u)) /\
    (represents_ext per topo loc g Fs m u -> represents_ext per topo loc g Fs m' (on_fields flds (serial_filter lap sub z per N bw ft order) u)).
Proof.
  intros Hbf Ho Hb Hfl Hinc Hn. exists (den (zprod topo) (vector_filter_3d lap sub z per pz py px n0 n1 n2 g full bw ft buf flux order flds) m).
  split; [apply spmd_safe; now apply vector_filter_ok|]. assert (Hg : 0 <= g) by (unfold grid3 in G; lia). split; intros HR.
  - apply rep_inner; auto. apply rep_inner in HR; auto. apply (vector_filter_rep (Qinner g loc)); auto. intros r I HI. now left.
  - apply rep_ext. apply rep_ext in HR. apply (vector_filter_rep (Qext per topo loc g)); auto. intros r I HI. now left.
Qed.
End F3.

Lemma filter_args_spec order width :
  (filter_args order width = ValueError <-> py_lt0 order = true \/ is_int order = false \/ py_le0 width = true \/ is_int width = false) /\
  (forall o w, filter_args order width = Ok (o, w) <-> order = PyInt o /\ width = PyInt w /\ 0 <= o /\ 1 <= w).
Proof.
  unfold filter_args. destruct order as [o|q], width as [w|q']; simpl; rewrite ?orb_false_r, ?orb_true_r.
  - destruct (Z.ltb_spec o 0), (Z.leb_spec w 0); split; try (intros o' w'); split; intros Hx; auto; try discriminate;
      try (destruct Hx as (E1 & E2 & A & B); injection E1 as ->; injection E2 as ->; try lia; reflexivity).
    + destruct Hx as [|[|[|]]]; discriminate.
    + injection Hx as -> ->. repeat split; auto; lia.
  - destruct (o <? 0); split; try (intros o' w'); split; intros Hx; auto; try discriminate; destruct Hx as (E1 & E2 & _); discriminate.
  - split; try (intros o' w'); split; intros Hx; auto; try discriminate; destruct Hx as (E1 & E2 & _); discriminate.
  - split; try (intros o' w'); split; intros Hx; auto; try discriminate; destruct Hx as (E1 & E2 & _); discriminate.
Qed.

(** Order 0: the stale flux buffer is subtracted. *)
Lemma order_zero_refuted :
  ~ (forall per pz py px n0 n1 n2 g full bw ft buf flux fld Fs (m m' : mem Z) u, grid3 pz py px n0 n1 n2 g ->
       1 <= bw -> bw <= n0 -> bw <= n1 -> bw <= n2 -> buf <> flux -> ~ In buf Fs -> ~ In flux Fs -> In fld Fs ->
       represents_ext per [pz; py; px] [n0; n1; n2] g Fs m u ->
       spmd_ends (zprod [pz; py; px]) (filter_3d (fun a b c => 2 * c - a - b) Z.sub 0 per pz py px n0 n1 n2 g full bw ft buf flux 0 fld) m m' ->
       represents [pz; py; px] [n0; n1; n2] g Fs m' u).
Proof.
  intros H.
  set (ps := filter_3d (fun a b c => 2 * c - a - b) Z.sub 0 true 1 1 1 1 1 1 1 false 1 Multiplicative 0 1 0 2).
  specialize (H true 1 1 1 1 1 1 1 false 1 Multiplicative 0%nat 1%nat 2%nat [2%nat] (fun _ => 1) (den (zprod [1; 1; 1]) ps (fun _ => 1)) (fun _ _ => 1)).
  specialize (H ltac:(unfold grid3; lia) ltac:(lia) ltac:(lia) ltac:(lia) ltac:(lia) ltac:(lia) ltac:(simpl; intuition lia) ltac:(simpl; intuition lia) ltac:(now left)).
  specialize (H ltac:(intros r f I _ _ _ _; reflexivity)).
  specialize (H ltac:(apply spmd_safe; repeat constructor)).
  specialize (H 0 2%nat [0; 0; 0] ltac:(cbn [zprod]; lia) (or_introl eq_refl) ltac:(repeat constructor; lia)). vm_compute in H. discriminate.
Qed.
