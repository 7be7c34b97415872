(** Several bodies on one forcing field. *)
From Coq Require Import QArith.
From Verif Require Import Base SpecGrid SpecGhost SpecGhostSum SpecStencil SpecLag SpecIB SpecVbf Comm Blocking SpecBlocking Spmd BlockFacts KernelList Lagrangian LagProofs LagComm EulLag RunsTo IBThms Vbf Bodies SpecBodies VbfProofs.
Open Scope Z_scope.

Lemma nodup_mid (l k q : list nat) : NoDup (l ++ k ++ q) -> NoDup (l ++ q).
Proof.
  induction l as [|x l IHl]; cbn [app]; intros H; [now apply nodup_app_r in H|]. inversion H as [|? ? Hn H']; subst. constructor; [|auto]. intros Hx. apply Hn. apply in_app_iff in Hx. rewrite !in_app_iff. tauto.
Qed.
(** ** Chaining *)
Section Chain.
Context {T B : Type}.
Variables (n : Z) (comps : list nat) (ids : B -> list nat) (ready finished : B -> (Z -> @lmem T) -> Prop) (prog : B -> Z -> list (@bop T)).
Variables (forc : (Z -> list Z -> T) -> (Z -> @lmem T) -> Prop) (effect : B -> (Z -> list Z -> T) -> Z -> list Z -> T).
Definition agree (l : list nat) (m m' : Z -> @lmem T) : Prop := forall r a, In (fst a) l -> m' r a = m r a.
Hypothesis ready_frame : forall b m m', agree (ids b) m m' -> ready b m -> ready b m'.
Hypothesis finished_frame : forall b m m', agree (ids b) m m' -> finished b m -> finished b m'.
Hypothesis step : forall b m u, ready b m -> NoDup (comps ++ ids b) -> forc u m -> exists m', runs_to n (prog b) m m' /\ finished b m' /\ forc (effect b u) m' /\
  (forall r a, ~ In (fst a) comps -> ~ In (fst a) (ids b) -> m' r a = m r a).
Fixpoint seq_prog (bs : list B) (r : Z) : list (@bop T) := match bs with [] => [] | b :: bs' => prog b r ++ seq_prog bs' r end.

Lemma nodup_disj (l k : list nat) x : NoDup (l ++ k) -> In x l -> In x k -> False.
Proof. induction l as [|y l IH]; cbn; intros H Hl Hk; [contradiction|]. inversion H; subst. destruct Hl as [-> |Hl]; [apply H2; apply in_or_app; auto|eauto]. Qed.

Lemma chain bs : forall m u, NoDup (comps ++ flat_map ids bs) -> Forall (fun b => ready b m) bs -> forc u m ->
  exists m', runs_to n (seq_prog bs) m m' /\ Forall (fun b => finished b m') bs /\ forc (fold_left (fun u b => effect b u) bs u) m' /\
    (forall r a, ~ In (fst a) comps -> ~ In (fst a) (flat_map ids bs) -> m' r a = m r a).
Proof.
  induction bs as [|b bs IH]; intros m u Hd Hr Hf.
  - exists m. split; [apply runs_to_nil|]. auto.
  - cbn [flat_map] in Hd. apply Forall_inv in Hr as Hb. apply Forall_inv_tail in Hr.
    assert (Hd1 : NoDup (comps ++ ids b)) by (rewrite app_assoc in Hd; now apply nodup_app_l in Hd).
    assert (Hd2 : NoDup (comps ++ flat_map ids bs)).
    { clear -Hd. revert Hd. induction comps as [|x l IHl]; cbn [app]; intros H; [now apply nodup_app_r in H|]. inversion H; subst. constructor; [|auto]. intros Hx. apply H2. apply in_app_iff in Hx. rewrite !in_app_iff. tauto. }
    assert (Hd3 : NoDup (ids b ++ flat_map ids bs)) by (now apply nodup_app_r in Hd).
    destruct (step b m u Hb Hd1 Hf) as (m1 & R1 & F1 & U1 & E1).
    destruct (IH m1 (effect b u) Hd2) as (m2 & R2 & F2 & U2 & E2); [|exact U1|].
    { rewrite Forall_forall in *. intros b' Hb'. apply (ready_frame b' m); [|auto]. intros r a Ha. apply E1.
      - intros Hx. apply (nodup_disj _ _ _ Hd2 Hx). apply in_flat_map. eauto.
      - intros Hx. apply (nodup_disj _ _ _ Hd3 Hx). apply in_flat_map. eauto. }
    exists m2. split; [exact (runs_to_app _ _ _ _ _ _ R1 R2)|]. split; [|split; [exact U2|]].
    + constructor; [|exact F2]. apply (finished_frame b m1); [|exact F1]. intros r a Ha. apply E2.
      * intros Hx. exact (nodup_disj _ _ _ Hd1 Hx Ha).
      * intros Hx. exact (nodup_disj _ _ _ Hd3 Ha Hx).
    + intros r a A1 A2. cbn [flat_map] in A2. rewrite in_app_iff in A2. rewrite E2 by tauto. apply E1; tauto.
Qed.
End Chain.

Section B.
Context {T : Type}.
Variables (add sub mul : T -> T -> T) (z : T) (times0 : T -> T).
Hypothesis Hm : comm_monoid add z.
Hypothesis Ht0 : forall x, times0 x = z.

(** Index of a component array. *)
Fixpoint index_of (f : nat) (l : list nat) : Z := match l with [] => 0 | x :: l' => if (x =? f)%nat then 0 else 1 + index_of f l' end.
Lemma index_of_nonneg f l : 0 <= index_of f l.
Proof. induction l as [|x l IH]; cbn [index_of]; [lia|]. destruct (x =? f)%nat; lia. Qed.
Lemma index_nth comps c f : NoDup comps -> 0 <= c -> nth_error comps (Z.to_nat c) = Some f -> index_of f comps = c.
Proof.
  revert c. induction comps as [|x l IH]; intros c Hd Hc H; [destruct (Z.to_nat c); discriminate|]. inversion Hd as [|? ? Hx Hl]; subst. cbn [index_of].
  destruct (Z.eq_dec c 0) as [-> |Hn]; [injection H as ->; now rewrite Nat.eqb_refl|]. replace (Z.to_nat c) with (S (Z.to_nat (c - 1))) in H by lia. cbn [nth_error] in H.
  destruct (Nat.eqb_spec x f) as [-> |_]; [apply nth_error_In in H; contradiction|]. rewrite (IH (c - 1)); auto; lia.
Qed.
Lemma in_index comps f : In f comps -> nth_error comps (Z.to_nat (index_of f comps)) = Some f.
Proof.
  induction comps as [|x l IH]; [contradiction|]. cbn [In index_of]. intros [-> |H]; [now rewrite Nat.eqb_refl|]. destruct (Nat.eqb_spec x f) as [-> |_]; [reflexivity|].
  pose proof (index_of_nonneg f l). replace (Z.to_nat (1 + index_of f l)) with (S (Z.to_nat (index_of f l))) by lia. now apply IH.
Qed.
Lemma nth_len (comps : list nat) c f : 0 <= c -> nth_error comps (Z.to_nat c) = Some f -> 0 <= c < Z.of_nat (length comps).
Proof. intros Hc H. assert (Z.to_nat c < length comps)%nat by (apply nth_error_Some; congruence). lia. Qed.

Lemma reset_out comps sizes (m : @lmem T) a : ~ In (fst a) comps -> reset_forcing z comps sizes m a = m a.
Proof.
  unfold reset_forcing. revert m. induction comps as [|f l IH]; intros m H; [reflexivity|]. cbn [fold_left]. rewrite IH by (intros X; apply H; now right). apply fill_miss. intros E. apply H. left. auto.
Qed.
Lemma reset_in comps sizes (m : @lmem T) f I : In f comps -> inb sizes I -> reset_forcing z comps sizes m (f, ravel sizes I) = z.
Proof.
  unfold reset_forcing. intros Hf HI. apply ravel_bound in HI. revert m. induction comps as [|x l IH]; intros m; [contradiction|]. cbn [fold_left].
  destruct (in_dec Nat.eq_dec f l) as [Hl|Hl]; [now apply IH|]. destruct Hf as [-> |Hf]; [|contradiction].
  change (reset_forcing z l sizes (fill f (zprod sizes) (fun _ _ => z) m) (f, ravel sizes I) = z). rewrite reset_out by exact Hl. now apply fill_hit.
Qed.

Notation body_effect := (body_effect add sub mul z).
Notation node_force := (node_force add sub mul).
Section Grid.
Variables (dims loc : list Z) (g : Z) (dx shift : Q) (comps : list nat).
Notation n := (zprod dims).
Notation nc := (Z.of_nat (length comps)).
Notation forc := (forc z dims loc g comps).
Notation call_ready := (call_ready z dims loc g dx shift comps).
Notation call_done := (call_done add sub mul z dims comps).
Lemma fstate_agree A N master s st (m m' : Z -> @lmem T) : agree (all_arrays A) m m' -> fstate n nc master A N s m st -> fstate n nc master A N s m' st.
Proof.
  intros H ((Hv & Hn & HP & HV) & Hf).
  assert (X : forall f, In f [lpm A; lvm A; gfo A] -> In f (all_arrays A)) by (intros f; unfold all_arrays, locals; cbn [app In]; tauto).
  split; [split; [exact Hv|split; [exact Hn|]]|].
  - split; [apply (holds_frame _ _ _ _ m)|apply (holds_frame _ _ _ _ m)]; auto; intros; apply H; apply X; cbn; tauto.
  - intros c j Hc Hj. rewrite H; auto. apply X. cbn; tauto.
Qed.
Lemma bufs_agree bufs bufsz (m m' : Z -> @lmem T) : agree bufs m m' -> Forall2 (fun b sz => zero_buf z n b sz m) bufs bufsz -> Forall2 (fun b sz => zero_buf z n b sz m') bufs bufsz.
Proof.
  intros H F. induction F as [|b sz bs szs Hb F IH]; constructor.
  - intros r K Hr HK. rewrite H by (cbn; now left). now apply Hb.
  - apply IH. intros r a Ha. apply H. now right.
Qed.
Lemma agree_sub l k (m m' : Z -> @lmem T) : (forall x, In x k -> In x l) -> agree l m m' -> agree k m m'.
Proof. intros H A r a Ha. apply A. auto. Qed.
Lemma ready_agree bufsz b m m' : agree (call_ids b) m m' -> call_ready bufsz b m -> call_ready bufsz b m'.
Proof.
  intros H [H1 H2 H3 H4 H5 H6 H7 H8]. constructor; auto.
  - apply (fstate_agree _ _ _ _ _ m); auto. apply (agree_sub (call_ids b)); auto. intros x. unfold call_ids. rewrite in_app_iff. tauto.
  - apply (bufs_agree _ _ m); auto. apply (agree_sub (call_ids b)); auto. intros x. unfold call_ids. rewrite in_app_iff. tauto.
Qed.
Lemma done_agree bufsz b m m' : agree (call_ids b) m m' -> call_done bufsz b m -> call_done bufsz b m'.
Proof.
  intros H [H1 H2]. split.
  - apply (fstate_agree _ _ _ _ _ m); auto. apply (agree_sub (call_ids b)); auto. intros x. unfold call_ids. rewrite in_app_iff. tauto.
  - apply (bufs_agree _ _ m); auto. apply (agree_sub (call_ids b)); auto. intros x. unfold call_ids. rewrite in_app_iff. tauto.
Qed.

(** Reset and Lagrangian part. *)
Definition pre_part (b : interactor T) (r : Z) : list (@bop T) :=
  (if i_reset b then [BLocal (reset_forcing z comps (ghosted g loc))] else []) ++ lag_part add sub mul z n nc b r.
Hypothesis Hg : 0 <= g.
Lemma pre_ok bufsz bs (m : Z -> @lmem T) u : call_ready bufsz bs m -> NoDup (comps ++ call_ids bs) -> forc u m ->
  exists m', runs_to n (pre_part (fst bs)) m m' /\ call_done bufsz bs m' /\ forc (fun c P => if i_reset (fst bs) then z else u c P) m' /\
    (forall r c i j, 0 <= r < n -> 0 <= c < nc -> ith_node (c_address (fst bs)) r i j -> m' r (lag_local (c_address (fst bs)) (lfo (i_arrays (fst bs))) r c i) = node_force (fst bs) (snd bs) c j) /\
    (forall r a, ~ In (fst a) comps -> ~ In (fst a) (call_ids bs) -> m' r a = m r a).
Proof.
  intros [H1 H2 H3 H4 H5 H6 H7 H8] Hd Hf. destruct bs as [b st]. cbn [fst snd] in *.
  assert (HA : NoDup (all_arrays (i_arrays b))) by (apply nodup_app_r in Hd; now apply nodup_app_l in Hd).
  assert (D1 : forall f, In f comps -> ~ In f (call_ids (b, st))) by (intros f A1 A2; exact (nodup_disj _ _ _ Hd A1 A2)).
  set (mr := local_on n (fun _ => if i_reset b then reset_forcing z comps (ghosted g loc) else fun m => m) m).
  assert (Rr : runs_to n (fun _ => if i_reset b then [BLocal (reset_forcing z comps (ghosted g loc))] else []) m mr).
  { unfold mr. destruct (i_reset b); [apply (runs_to_local n (fun _ => _))|]. refine (eq_ind _ (fun x => runs_to n _ m x) (runs_to_nil n m) _ _).
    apply FunctionalExtensionality.functional_extensionality. intros r. unfold local_on. destruct (_ && _); reflexivity. }
  assert (Fr : forall r a, ~ In (fst a) comps -> mr r a = m r a).
  { intros r a Ha. unfold mr. apply local_on_frame. intros r0 m0. destruct (i_reset b); [now apply reset_out|reflexivity]. }
  assert (Hfr : forc (fun c P => if i_reset b then z else u c P) mr).
  { destruct Hf as [F1 F2]. split.
    - intros c f r I Hc Hcf Hr HI. unfold mr. rewrite local_on_in by auto. destruct (i_reset b); [apply reset_in; [eapply nth_error_In; eauto|]|now apply F1].
      now apply (GhostGeo.inner_inb g loc I Hg).
    - intros f r I Hfc Hr HI Hn. unfold mr. rewrite local_on_in by auto. destruct (i_reset b); [now apply reset_in|now apply F2]. }
  assert (Hs : fstate n nc (i_master b) (i_arrays b) (Z.of_nat (length (c_nodes b))) (i_state b) mr st).
  { apply (fstate_agree _ _ _ _ _ m); auto. intros r a Ha. apply Fr. intros X. apply (D1 _ X). apply in_or_app. now left. }
  destruct Hs as [Hi Hfo].
  destruct (interact_ok add sub mul z (i_stiff b) (i_damp b) n nc (i_master b) (i_arrays b) (Z.of_nat (length (c_nodes b))) HA ltac:(lia) H1 (i_state b) (c_address b) (c_order b) mr (pm st) (vm st) (c_pos b) (c_body b) (c_flow b) Hi H5) as (m1 & R1 & Hi1 & _ & K2 & K3 & K4).
  { intros Hfl. apply H6. intros r Hr. rewrite <- (noflag_num n (i_state b) (c_address b) Hfl r Hr). destruct Hi as (_ & Hn & _). auto. }
  exists m1. split; [|split; [|split; [|split]]].
  - unfold pre_part. exact (runs_to_app _ _ _ _ _ _ Rr R1).
  - split; [split; [exact Hi1|exact K3]|]. cbn [fst]. apply (bufs_agree _ _ m); auto. intros r a Ha. rewrite K4.
    + apply Fr. intros X. apply (D1 _ X). apply in_or_app. now right.
    + intros X. apply nodup_app_r in Hd. exact (nodup_disj _ _ _ Hd X Ha).
  - destruct Hfr as [F1 F2].
    assert (Hnot : forall f, In f comps -> ~ In f (all_arrays (i_arrays b))) by (intros f A1 A2; apply (D1 _ A1); apply in_or_app; now left).
    split; intros; (rewrite K4; [auto|apply Hnot; cbn [fst]; eauto using nth_error_In]).
  - exact K2.
  - intros r a A1 A2. rewrite K4; [now apply Fr|]. intros X. apply A2. apply in_or_app. now left.
Qed.
End Grid.
Notation forc := (forc z).
Notation call_ready := (call_ready z).
Notation call_done := (call_done add sub mul z).

Lemma step_2d py px ny nx g dx shift comps bs (m : Z -> @lmem T) u : grid2 py px ny nx g -> (0 < dx)%Q ->
  let bufsz := [[g; nx + 2 * g]; [ny + 2 * g; g]] in
  call_ready [py; px] [ny; nx] g dx shift comps bufsz bs m -> NoDup (comps ++ call_ids bs) -> forc [py; px] [ny; nx] g comps u m ->
  exists m', runs_to (py * px) (full_interaction2 add sub mul z times0 py px ny nx g dx shift comps (fst bs)) m m' /\
    call_done [py; px] comps bufsz bs m' /\ forc [py; px] [ny; nx] g comps (body_effect dx shift bs u) m' /\
    (forall r a, ~ In (fst a) comps -> ~ In (fst a) (call_ids bs) -> m' r a = m r a).
Proof.
  intros Hg Hdx bufsz Hr Hd Hf. assert (En : zprod [py; px] = py * px) by (cbn; lia). pose proof Hg as (J1 & J2 & J3 & J4 & J5).
  destruct (pre_ok [py; px] [ny; nx] g dx shift comps ltac:(lia) bufsz bs m u Hr Hd Hf) as (m1 & R1 & [D1 D2] & F1 & L1 & E1).
  destruct bs as [b st]. cbn [fst snd] in *. pose proof Hr as [H1 H2 H3 H4 H5 H6 H7 H8]. cbn [fst snd] in *.
  assert (exists rb cb, i_bufs b = [rb; cb]) as (rb & cb & Eb). { inversion H8 as [|rb ? l1 ? ? Q1]; subst. inversion Q1 as [|cb ? l2 ? ? Q2]; subst. inversion Q2; subst. eauto. }
  unfold call_ids in Hd, E1. cbn [fst] in Hd, E1. rewrite Eb in *. assert (Hcomps : NoDup comps) by (now apply nodup_app_l in Hd).
  assert (HL : In (lfo (i_arrays b)) (all_arrays (i_arrays b))) by (unfold all_arrays, locals; cbn [app In]; tauto).
  assert (Hnd : NoDup (lfo (i_arrays b) :: comps ++ [rb; cb])).
  { constructor.
    - rewrite in_app_iff. intros [X|X]; [apply (nodup_disj _ _ _ Hd X); apply in_or_app; now left|]. apply nodup_app_r in Hd. exact (nodup_disj _ _ _ Hd HL X).
    - now apply nodup_mid in Hd. }
  inversion D2 as [|? ? ? ? Z1 D2']; subst. inversion D2' as [|? ? ? ? Z2 _]; subst. rewrite En in *.
  destruct F1 as [F1 F2]. rewrite En in *.
  destruct (spread_2d add mul z (i_weight b) Hm times0 py px ny nx g (i_width b) dx shift (c_nodes b) (c_address b) comps (lfo (i_arrays b)) rb cb (node_force b st) m1
    (fun f P => if i_reset b then z else u (index_of f comps) P) Hg H2 Hdx Ht0 Hnd Z1 Z2 H3 H4) as (m2 & R2 & V2 & G2 & (Y1 & Y2) & E2).
  { intros r c f i j Hrr Hc Hcf Hij. apply L1; auto. now apply (nth_len comps c f). }
  { intros f r I Hfc Hrr HI. pose proof (index_of_nonneg f comps). exact (F1 (index_of f comps) f r I ltac:(lia) (in_index comps f Hfc) Hrr HI). }
  { exact F2. }
  exists m2. split; [|split; [|split]].
  - unfold full_interaction2. rewrite Eb. cbn [nth]. refine (runs_to_ext _ _ _ _ _ _ (runs_to_app _ _ _ _ _ _ R1 R2)). intros r _. unfold pre_part. rewrite En. now rewrite app_assoc.
  - split; cbn [fst snd]; rewrite ?Eb, ?En.
    + rewrite <- En. apply (fstate_agree _ _ _ _ _ _ _ m1); [|rewrite En; exact D1]. intros r a Ha. apply E2.
      * intros X. apply (nodup_disj _ _ _ Hd X). apply in_or_app. now left.
      * intros X. apply nodup_app_r in Hd. exact (nodup_disj _ _ _ Hd Ha X).
    + repeat constructor; assumption.
  - split; rewrite En.
    + intros c f r I Hc Hcf Hrr HI. rewrite (V2 c f r I Hc Hcf Hrr HI). unfold body_effect. cbn [fst snd]. rewrite (index_nth comps c f Hcomps Hc Hcf). reflexivity.
    + exact G2.
  - intros r a A1 A2. unfold call_ids in A2. cbn [fst] in A2. rewrite Eb in A2. rewrite in_app_iff in A2. rewrite E2 by tauto. apply E1; auto. rewrite in_app_iff. tauto.
Qed.
Lemma step_3d pz py px n0 n1 n2 g dx shift comps bs (m : Z -> @lmem T) u : grid3 pz py px n0 n1 n2 g -> (0 < dx)%Q ->
  let bufsz := [[g; n1 + 2 * g; n2 + 2 * g]; [n0 + 2 * g; g; n2 + 2 * g]; [n0 + 2 * g; n1 + 2 * g; g]] in
  call_ready [pz; py; px] [n0; n1; n2] g dx shift comps bufsz bs m -> NoDup (comps ++ call_ids bs) -> forc [pz; py; px] [n0; n1; n2] g comps u m ->
  exists m', runs_to (pz * py * px) (full_interaction3 add sub mul z times0 pz py px n0 n1 n2 g dx shift comps (fst bs)) m m' /\
    call_done [pz; py; px] comps bufsz bs m' /\ forc [pz; py; px] [n0; n1; n2] g comps (body_effect dx shift bs u) m' /\
    (forall r a, ~ In (fst a) comps -> ~ In (fst a) (call_ids bs) -> m' r a = m r a).
Proof.
  intros Hg Hdx bufsz Hr Hd Hf. assert (En : zprod [pz; py; px] = pz * py * px) by (cbn; lia). pose proof Hg as (J1 & J2 & J3 & J4 & J5 & J6 & J7).
  destruct (pre_ok [pz; py; px] [n0; n1; n2] g dx shift comps ltac:(lia) bufsz bs m u Hr Hd Hf) as (m1 & R1 & [D1 D2] & F1 & L1 & E1).
  destruct bs as [b st]. cbn [fst snd] in *. pose proof Hr as [H1 H2 H3 H4 H5 H6 H7 H8]. cbn [fst snd] in *.
  assert (exists bz by_ bx, i_bufs b = [bz; by_; bx]) as (bz & by_ & bx & Eb). { inversion H8 as [|bz ? l1 ? ? Q1]; subst. inversion Q1 as [|by_ ? l2 ? ? Q2]; subst. inversion Q2 as [|bx ? l3 ? ? Q3]; subst. inversion Q3; subst. eauto. }
  unfold call_ids in Hd, E1. cbn [fst] in Hd, E1. rewrite Eb in *. assert (Hcomps : NoDup comps) by (now apply nodup_app_l in Hd).
  assert (HL : In (lfo (i_arrays b)) (all_arrays (i_arrays b))) by (unfold all_arrays, locals; cbn [app In]; tauto).
  assert (Hnd : NoDup (lfo (i_arrays b) :: comps ++ [bz; by_; bx])).
  { constructor.
    - rewrite in_app_iff. intros [X|X]; [apply (nodup_disj _ _ _ Hd X); apply in_or_app; now left|]. apply nodup_app_r in Hd. exact (nodup_disj _ _ _ Hd HL X).
    - now apply nodup_mid in Hd. }
  inversion D2 as [|? ? ? ? Z1 D2']; subst. inversion D2' as [|? ? ? ? Z2 D2'']; subst. inversion D2'' as [|? ? ? ? Z3 _]; subst. rewrite En in *.
  destruct F1 as [F1 F2]. rewrite En in *.
  destruct (spread_3d add mul z (i_weight b) Hm times0 pz py px n0 n1 n2 g (i_width b) dx shift (c_nodes b) (c_address b) comps (lfo (i_arrays b)) bz by_ bx (node_force b st) m1
    (fun f P => if i_reset b then z else u (index_of f comps) P) Hg H2 Hdx Ht0 Hnd Z1 Z2 Z3 H3 H4) as (m2 & R2 & V2 & G2 & (Y1 & Y2 & Y3) & E2).
  { intros r c f i j Hrr Hc Hcf Hij. apply L1; auto. now apply (nth_len comps c f). }
  { intros f r I Hfc Hrr HI. pose proof (index_of_nonneg f comps). exact (F1 (index_of f comps) f r I ltac:(lia) (in_index comps f Hfc) Hrr HI). }
  { exact F2. }
  exists m2. split; [|split; [|split]].
  - unfold full_interaction3. rewrite Eb. cbn [nth]. refine (runs_to_ext _ _ _ _ _ _ (runs_to_app _ _ _ _ _ _ R1 R2)). intros r _. unfold pre_part. rewrite En. now rewrite app_assoc.
  - split; cbn [fst snd]; rewrite ?Eb, ?En.
    + rewrite <- En. apply (fstate_agree _ _ _ _ _ _ _ m1); [|rewrite En; exact D1]. intros r a Ha. apply E2.
      * intros X. apply (nodup_disj _ _ _ Hd X). apply in_or_app. now left.
      * intros X. apply nodup_app_r in Hd. exact (nodup_disj _ _ _ Hd Ha X).
    + repeat constructor; assumption.
  - split; rewrite En.
    + intros c f r I Hc Hcf Hrr HI. rewrite (V2 c f r I Hc Hcf Hrr HI). unfold body_effect. cbn [fst snd]. rewrite (index_nth comps c f Hcomps Hc Hcf). reflexivity.
    + exact G2.
  - intros r a A1 A2. unfold call_ids in A2. cbn [fst] in A2. rewrite Eb in A2. rewrite in_app_iff in A2. rewrite E2 by tauto. apply E1; auto. rewrite in_app_iff. tauto.
Qed.

Lemma seq_all (prog : interactor T -> Z -> list (@bop T)) (bs : list (interactor T * @node_state T)) r : seq_prog (fun b => prog (fst b)) bs r = all_interactions prog (map fst bs) r.
Proof. induction bs as [|b bs IH]; [reflexivity|]. cbn [seq_prog map all_interactions]. now rewrite IH. Qed.
Theorem bodies_2d py px ny nx g dx shift comps bs (m : Z -> @lmem T) u : grid2 py px ny nx g -> (0 < dx)%Q ->
  let bufsz := [[g; nx + 2 * g]; [ny + 2 * g; g]] in
  NoDup (comps ++ flat_map call_ids bs) -> Forall (fun b => call_ready [py; px] [ny; nx] g dx shift comps bufsz b m) bs -> forc [py; px] [ny; nx] g comps u m ->
  exists m', runs_to (py * px) (all_interactions (full_interaction2 add sub mul z times0 py px ny nx g dx shift comps) (map fst bs)) m m' /\
    Forall (fun b => call_done [py; px] comps bufsz b m') bs /\
    forc [py; px] [ny; nx] g comps (fold_left (fun u b => body_effect dx shift b u) bs u) m' /\
    (forall r a, ~ In (fst a) comps -> ~ In (fst a) (flat_map call_ids bs) -> m' r a = m r a).
Proof.
  intros Hg Hdx bufsz Hd Hr Hf.
  destruct (chain (py * px) comps call_ids (call_ready [py; px] [ny; nx] g dx shift comps bufsz) (call_done [py; px] comps bufsz) (fun b => full_interaction2 add sub mul z times0 py px ny nx g dx shift comps (fst b))
    (forc [py; px] [ny; nx] g comps) (body_effect dx shift) (ready_agree _ _ _ _ _ _ bufsz) (done_agree _ _ bufsz)
    (fun b m u H1 H2 H3 => step_2d py px ny nx g dx shift comps b m u Hg Hdx H1 H2 H3) bs m u Hd Hr Hf) as (m' & R & X).
  exists m'. split; [|exact X]. refine (runs_to_ext _ _ _ _ _ _ R). intros r _. apply seq_all.
Qed.
Theorem bodies_3d pz py px n0 n1 n2 g dx shift comps bs (m : Z -> @lmem T) u : grid3 pz py px n0 n1 n2 g -> (0 < dx)%Q ->
  let bufsz := [[g; n1 + 2 * g; n2 + 2 * g]; [n0 + 2 * g; g; n2 + 2 * g]; [n0 + 2 * g; n1 + 2 * g; g]] in
  NoDup (comps ++ flat_map call_ids bs) -> Forall (fun b => call_ready [pz; py; px] [n0; n1; n2] g dx shift comps bufsz b m) bs -> forc [pz; py; px] [n0; n1; n2] g comps u m ->
  exists m', runs_to (pz * py * px) (all_interactions (full_interaction3 add sub mul z times0 pz py px n0 n1 n2 g dx shift comps) (map fst bs)) m m' /\
    Forall (fun b => call_done [pz; py; px] comps bufsz b m') bs /\
    forc [pz; py; px] [n0; n1; n2] g comps (fold_left (fun u b => body_effect dx shift b u) bs u) m' /\
    (forall r a, ~ In (fst a) comps -> ~ In (fst a) (flat_map call_ids bs) -> m' r a = m r a).
Proof.
  intros Hg Hdx bufsz Hd Hr Hf.
  destruct (chain (pz * py * px) comps call_ids (call_ready [pz; py; px] [n0; n1; n2] g dx shift comps bufsz) (call_done [pz; py; px] comps bufsz) (fun b => full_interaction3 add sub mul z times0 pz py px n0 n1 n2 g dx shift comps (fst b))
    (forc [pz; py; px] [n0; n1; n2] g comps) (body_effect dx shift) (ready_agree _ _ _ _ _ _ bufsz) (done_agree _ _ bufsz)
    (fun b m u H1 H2 H3 => step_3d pz py px n0 n1 n2 g dx shift comps b m u Hg Hdx H1 H2 H3) bs m u Hd Hr Hf) as (m' & R & X).
  exists m'. split; [|exact X]. refine (runs_to_ext _ _ _ _ _ _ R). intros r _. apply seq_all.
Qed.
End B.
