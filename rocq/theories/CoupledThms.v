(** Coupled runs in two and three dimensions. *)
From Coq Require Import QArith FunctionalExtensionality.
From Verif Require Import SpecResume Base SpecGrid SpecGhost SpecGhostSum SpecStencil SpecStep SpecPenalise SpecFilter SpecDouble SpecLag SpecIB SpecVbf SpecNS SpecCoupled SpecBodies Comm Blocking SpecBlocking Spmd BlockFacts KernelList
  Cart CartFacts Ghost2D Ghost3D GhostProofs Stencil StencilProofs HaloThms PenaliseProofs GhostGeo HaloProofs HaloKernels KernelProofs StepProofs Lagrangian LagProofs LagComm EulLag EulLagThms EulLagProofs RunsTo IBThms IBProg Vbf Bodies VbfProofs VbfThms BodiesProofs
  PyNum Doubling NavierStokes NSBase NSHalo NSSteps NSThms Writes Coupled SpecTracks CoupledProofs.
From Verif Require StepHistory.
Open Scope Z_scope.
Arguments run_lops : simpl never.
Arguments addr_eq : simpl never.
Arguments place_dec : simpl never.

(** ** Whose mismatch a node continues with *)
Section Fit.
Context {T F : Type}.
Variables (dims loc : list Z) (dx shift : Q) (nb : nat) (actors : nat -> actor T) (flow_ok : F -> Prop).
Notation n := (zprod dims).
Definition nums_ok (ss : nat -> vb) : Prop := forall b, (b < nb)%nat -> forall r, 0 <= r < n -> num (ss b) r = node_count (address (ss b)) r.
Lemma nums_maps ss (e : event T F) : nums_ok ss -> nums_ok (event_maps dims ss e).
Proof.
  intros H b Hb r Hr. destruct e as [b' p|b' p| | |]; cbn [event_maps]; auto; unfold set_at; destruct (Nat.eqb_spec b b') as [-> |]; auto; cbn [remapped num address];
    (destruct (update_flag _ _ _) eqn:Ef; [apply count_eq|now apply (noflag_num n)]).
Qed.
Lemma fits_continues ss b p : nums_ok ss -> (b < nb)%nat -> fits dims (continues n) (ss b) b (p : pose T).
Proof.
  intros Hn Hb r i j Hr Hij. unfold continues. rewrite (same_counts_flag n (ss b) (p_address p)) by (now apply Hn). destruct (update_flag n (ss b) (p_address p)) eqn:Ef; cbn [negb]; [reflexivity|].
  apply occupant_spec; auto. rewrite <- (Hn b Hb r Hr). symmetry. now apply (noflag_num n (ss b)).
Qed.
Lemma all_fit_continues es : forall ss, nums_ok ss -> Forall (event_ok dims loc nb actors dx shift flow_ok) es -> all_fit dims (continues n) ss es.
Proof.
  induction es as [|e es IH]; intros ss Hn He; [exact I|]. inversion He as [|? ? H1 H2]; subst. split; [|apply IH; auto; now apply nums_maps].
  destruct e; cbn [event_fits event_ok] in *; auto; apply fits_continues; tauto.
Qed.
Lemma all_fit_own es : forall ss a, nums_ok ss -> (forall b, (b < nb)%nat -> address (ss b) = a b) -> moves_ok n a es -> Forall (event_ok dims loc nb actors dx shift flow_ok) es ->
  all_fit dims (fun _ _ j => j) ss es.
Proof.
  induction es as [|e es IH]; intros ss a Hn Ha Hm He; [exact I|]. inversion He as [|? ? H1 H2]; subst.
  assert (G : forall b p, (b < nb)%nat -> moves_change_counts n (a b) [p_address p] -> fits dims (fun _ _ j => j) (ss b) b (p : pose T)).
  { intros b p Hb [Hc _] r i j Hr Hij. destruct (update_flag n (ss b) (p_address p)) eqn:Ef; [reflexivity|]. rewrite Ha by auto. rewrite <- Hc; [exact Hij|].
    intros r0 Hr0. rewrite <- (noflag_num n (ss b) (p_address p) Ef r0 Hr0). rewrite (Hn b Hb r0 Hr0). now rewrite Ha. }
  split.
  - destruct e; cbn [event_fits event_ok moves_ok] in *; auto; apply G; tauto.
  - apply (IH _ (match e with EFull b p | ELag b p => set_at a b (p_address p) | _ => a end)); auto.
    + now apply nums_maps.
    + intros b Hb. destruct e; cbn [event_maps]; auto; unfold set_at; destruct (Nat.eqb_spec b b0) as [-> |]; auto.
    + destruct e; cbn [moves_ok] in Hm; tauto.
Qed.
Lemma tracks_nums z g Fs fs bufsz ss m st : tracks z dims loc g Fs fs nb actors bufsz ss m st -> nums_ok ss.
Proof. intros H b Hb. destruct (tr_node _ _ _ _ _ _ _ _ _ _ _ _ H b Hb) as [(_ & Hn & _) _]. exact Hn. Qed.
End Fit.

(** ** The forcing arrays as deposited forcing *)
Section Dep.
Context {T : Type}.
Variables (z : T) (dims loc : list Z) (g : Z) (fs : list nat).
Hypothesis Hok : grid_ok dims loc.
Hypothesis Hg : 1 <= g.
Lemma inner_owner r I : 0 <= r < zprod dims -> inner g loc I -> owner false dims loc (ghost_pos dims loc g r I) <> None.
Proof.
  intros Hr HI Ho. apply owner_out in Ho. assert (X : exists x, inb loc x /\ I = map (fun i => i + g) x).
  { exists (map (fun i => i - g) I). split.
    - unfold inner in HI. clear -HI. revert I HI. induction loc as [|k l IH]; intros I HI; cbn [map] in HI; inversion HI; subst; cbn [map]; constructor; auto. lia.
    - rewrite map_map. symmetry. rewrite <- (map_id I) at 2. apply map_ext. intros; lia. }
  destruct X as (x & Hx & ->). rewrite sub_pos in Ho. pose proof (block_inside dims loc r x Hok Hr Hx) as B. apply inbb_spec in B. congruence.
Qed.
Lemma forc_deposited frc (m : mem T) : forc z dims loc g fs frc (by_rank m) -> deposited z dims loc g fs (fun f => frc (component_of f fs)) m.
Proof.
  intros [F1 F2]. split.
  - intros r f x Hr Hf Hx. rewrite component_index. pose proof (index_of_nonneg f fs) as H0.
    pose proof (F1 (index_of f fs) f r (map (fun i => i + g) x) H0 (in_index fs f Hf) Hr (add_inner loc g x Hx)) as E. unfold field. etransitivity; [exact E|]. now rewrite sub_pos.
  - intros r f I Hr Hf HI Ho. apply (F2 f r I); auto. intros Hin. exact (inner_owner r I Hr Hin Ho).
Qed.
Lemma zero_forc (m : mem T) : (forall r f I, 0 <= r < zprod dims -> In f fs -> inb (ghosted g loc) I -> field m (ghosted g loc) r f I = z) -> forc z dims loc g fs (fun _ _ => z) (by_rank m).
Proof.
  intros H. split; intros; apply (H r f I); eauto using nth_error_In. apply (GhostGeo.inner_inb g loc I); [lia|assumption].
Qed.
End Dep.

(** ** Spreading *)
Section Spread.
Context {T : Type}.
Variables (add mul : T -> T -> T) (z : T) (times0 : T -> T) (dx shift : Q).
Hypothesis Hm : comm_monoid add z.
Hypothesis Ht0 : forall x, times0 x = z.
Hypothesis Hdx : (0 < dx)%Q.
Lemma spread2_ok py px ny nx g fs (a : actor T) p (force : Z -> Z -> T) (m : Z -> @lmem T) (u : Z -> list Z -> T) :
  grid2 py px ny nx g -> 1 <= v_width (a_body a) <= g -> pose_ok [py; px] [ny; nx] dx shift (a_master a) (a_body a) p ->
  Forall2 (fun f sz => zero_buf z (zprod [py; px]) f sz m) (a_bufs a) [[g; nx + 2 * g]; [ny + 2 * g; g]] -> NoDup (fs ++ actor_ids a) ->
  (forall r c i j, 0 <= r < zprod [py; px] -> 0 <= c < Z.of_nat (length fs) -> ith_node (p_address p) r i j -> m r (lag_local (p_address p) (lfo (a_arrays a)) r c i) = force c j) ->
  forc z [py; px] [ny; nx] g fs u m ->
  exists m', runs_to (zprod [py; px]) (spread_2 add mul times0 dx shift py px ny nx g fs a p) m m' /\
    forc z [py; px] [ny; nx] g fs (fun c P => add (u c P) (total add z (map (fun j => contribution (q_cell dx shift) (q_dist dx shift) (v_width (a_body a)) z mul (v_weight (a_body a)) (node_at (p_nodes p) j) (force c j) P)
      (zrange 0 (v_count (a_body a)))))) m' /\
    Forall2 (fun f sz => zero_buf z (zprod [py; px]) f sz m') (a_bufs a) [[g; nx + 2 * g]; [ny + 2 * g; g]] /\
    (forall r x, ~ In (fst x) fs -> ~ In (fst x) (a_bufs a) -> m' r x = m r x).
Proof.
  intros Hg Hw [P1 P2 P3 P4 P5] HB Hd HL [F1 F2]. assert (En : zprod [py; px] = py * px) by (cbn; lia). rewrite En in *.
  assert (exists rb cb, a_bufs a = [rb; cb]) as (rb & cb & Eb). { inversion HB as [|rb ? l1 ? ? Q1]; subst. inversion Q1 as [|cb ? l2 ? ? Q2]; subst. inversion Q2; subst. eauto. }
  unfold actor_ids in Hd. unfold spread_2. rewrite Eb in *. cbn [nth]. assert (Hfs : NoDup fs) by (now apply nodup_app_l in Hd).
  assert (Hl : In (lfo (a_arrays a)) (all_arrays (a_arrays a))) by (unfold all_arrays, locals; cbn [app In]; tauto).
  assert (Hnd : NoDup (lfo (a_arrays a) :: fs ++ [rb; cb])).
  { constructor.
    - rewrite in_app_iff. intros [X|X]; [apply (nodup_disj _ _ _ Hd X); apply in_or_app; now left|]. apply nodup_app_r in Hd. exact (nodup_disj _ _ _ Hd Hl X).
    - now apply nodup_mid in Hd. }
  inversion HB as [|? ? ? ? Z1 D2']; subst. inversion D2' as [|? ? ? ? Z2 _]; subst.
  destruct (spread_2d add mul z (v_weight (a_body a)) Hm times0 py px ny nx g (v_width (a_body a)) dx shift (p_nodes p) (p_address p) fs (lfo (a_arrays a)) rb cb force m
    (fun f P => u (index_of f fs) P) Hg Hw Hdx Ht0 Hnd Z1 Z2 P1 P4) as (m2 & R2 & V2 & G2 & (Y1 & Y2) & E2).
  { intros r c f i j Hrr Hc Hcf Hij. apply HL; auto. now apply (nth_len fs c f). }
  { intros f r I Hfc Hrr HI. pose proof (index_of_nonneg f fs). exact (F1 (index_of f fs) f r I ltac:(lia) (in_index fs f Hfc) Hrr HI). }
  { exact F2. }
  exists m2. split; [exact R2|]. split; [split; rewrite ?En|split; [repeat constructor; assumption|exact E2]].
  - intros c f r I Hc Hcf Hrr HI. rewrite (V2 c f r I Hc Hcf Hrr HI). rewrite (index_nth fs c f Hfs Hc Hcf). now rewrite P2.
  - exact G2.
Qed.
Lemma spread3_ok pz py px n0 n1 n2 g fs (a : actor T) p (force : Z -> Z -> T) (m : Z -> @lmem T) (u : Z -> list Z -> T) :
  let bufsz := [[g; n1 + 2 * g; n2 + 2 * g]; [n0 + 2 * g; g; n2 + 2 * g]; [n0 + 2 * g; n1 + 2 * g; g]] in
  grid3 pz py px n0 n1 n2 g -> 1 <= v_width (a_body a) <= g -> pose_ok [pz; py; px] [n0; n1; n2] dx shift (a_master a) (a_body a) p ->
  Forall2 (fun f sz => zero_buf z (zprod [pz; py; px]) f sz m) (a_bufs a) bufsz -> NoDup (fs ++ actor_ids a) ->
  (forall r c i j, 0 <= r < zprod [pz; py; px] -> 0 <= c < Z.of_nat (length fs) -> ith_node (p_address p) r i j -> m r (lag_local (p_address p) (lfo (a_arrays a)) r c i) = force c j) ->
  forc z [pz; py; px] [n0; n1; n2] g fs u m ->
  exists m', runs_to (zprod [pz; py; px]) (spread_3 add mul times0 dx shift pz py px n0 n1 n2 g fs a p) m m' /\
    forc z [pz; py; px] [n0; n1; n2] g fs (fun c P => add (u c P) (total add z (map (fun j => contribution (q_cell dx shift) (q_dist dx shift) (v_width (a_body a)) z mul (v_weight (a_body a)) (node_at (p_nodes p) j) (force c j) P)
      (zrange 0 (v_count (a_body a)))))) m' /\
    Forall2 (fun f sz => zero_buf z (zprod [pz; py; px]) f sz m') (a_bufs a) bufsz /\
    (forall r x, ~ In (fst x) fs -> ~ In (fst x) (a_bufs a) -> m' r x = m r x).
Proof.
  intros bufsz Hg Hw [P1 P2 P3 P4 P5] HB Hd HL [F1 F2]. assert (En : zprod [pz; py; px] = pz * py * px) by (cbn; lia). unfold bufsz in *. rewrite En in *.
  assert (exists bz by_ bx, a_bufs a = [bz; by_; bx]) as (bz & by_ & bx & Eb). { inversion HB as [|bz ? l1 ? ? Q1]; subst. inversion Q1 as [|by_ ? l2 ? ? Q2]; subst. inversion Q2 as [|bx ? l3 ? ? Q3]; subst. inversion Q3; subst. eauto. }
  unfold actor_ids in Hd. unfold spread_3. rewrite Eb in *. cbn [nth]. assert (Hfs : NoDup fs) by (now apply nodup_app_l in Hd).
  assert (Hl : In (lfo (a_arrays a)) (all_arrays (a_arrays a))) by (unfold all_arrays, locals; cbn [app In]; tauto).
  assert (Hnd : NoDup (lfo (a_arrays a) :: fs ++ [bz; by_; bx])).
  { constructor.
    - rewrite in_app_iff. intros [X|X]; [apply (nodup_disj _ _ _ Hd X); apply in_or_app; now left|]. apply nodup_app_r in Hd. exact (nodup_disj _ _ _ Hd Hl X).
    - now apply nodup_mid in Hd. }
  inversion HB as [|? ? ? ? Z1 D2']; subst. inversion D2' as [|? ? ? ? Z2 D3']; subst. inversion D3' as [|? ? ? ? Z3 _]; subst.
  destruct (spread_3d add mul z (v_weight (a_body a)) Hm times0 pz py px n0 n1 n2 g (v_width (a_body a)) dx shift (p_nodes p) (p_address p) fs (lfo (a_arrays a)) bz by_ bx force m
    (fun f P => u (index_of f fs) P) Hg Hw Hdx Ht0 Hnd Z1 Z2 Z3 P1 P4) as (m2 & R2 & V2 & G2 & (Y1 & Y2 & Y3) & E2).
  { intros r c f i j Hrr Hc Hcf Hij. apply HL; auto. now apply (nth_len fs c f). }
  { intros f r I Hfc Hrr HI. pose proof (index_of_nonneg f fs). exact (F1 (index_of f fs) f r I ltac:(lia) (in_index fs f Hfc) Hrr HI). }
  { exact F2. }
  exists m2. split; [exact R2|]. split; [split; rewrite ?En|split; [repeat constructor; assumption|exact E2]].
  - intros c f r I Hc Hcf Hrr HI. rewrite (V2 c f r I Hc Hcf Hrr HI). rewrite (index_nth fs c f Hfs Hc Hcf). now rewrite P2.
  - exact G2.
Qed.
End Spread.

(** ** Two dimensions *)
Section Two.
Context {T C : Type}.
Variables (add sub mul : T -> T -> T) (z : T) (times0 : T -> T) (scale : T -> T) (sum : list T -> T) (dx shift : Q).
Variables (damp : C -> C -> T -> T) (coord : nat -> Z -> C) (width : Z) (conv : (list Z -> T) -> list Z -> T) (Kcx Kcy : @kfun T).
Variables (py px ny nx g : Z) (full : bool) (dd : nat) (xg : Z -> nat -> Z -> C).
Variables (w psi vx vy fx fy buf D S : nat) (nb : nat) (actors : nat -> actor T).
Notation dims := [py; px].
Notation loc := [ny; nx].
Notation N := (global_size dims loc).
Notation n := (zprod dims).
Notation step := (time_step_2d add z damp conv py px ny nx g full dd width xg w psi vx vy fx fy buf D S Kcx Kcy).
Notation serial := (serial_ns_2d add z damp coord width conv Kcx Kcy N w psi vx vy fx fy).
Notation W := [w; psi; vx; vy; fx; fy; buf; D; S].
Notation bufsz := [[g; nx + 2 * g]; [ny + 2 * g; g]].
Hypothesis HS : ns2_setting py px ny nx g width dd xg coord w psi vx vy fx fy buf D S Kcx Kcy.
Hypothesis Hm : comm_monoid add z.
Hypothesis Ht0 : forall x, times0 x = z.
Hypothesis Hdx : (0 < dx)%Q.
Hypothesis HA : actors_ok dims g nb actors W.

Lemma slab_one : at_most_one_split dims.
Proof.
  destruct HS as [_ _ _ _ Hdd _ _ _ _]. unfold distributed_dim2 in Hdd. unfold at_most_one_split. cbn [filter]. destruct (Z.eqb_spec py 1) as [-> |]; destruct (Z.eqb_spec px 1) as [-> |]; cbn [negb andb] in Hdd; try discriminate; cbn; try lia;
    match goal with |- context [1 <? ?x] => destruct (1 <? x); cbn; lia end.
Qed.
Lemma flow2_step s (m : mem T) u frc : flow2_ok z w vx vy fx fy s -> represents_ext false dims loc g [w; psi; vx; vy] m u -> forc z dims loc g [fx; fy] frc (by_rank m) ->
  (forall c P, inb N P -> edgeb false N P = true -> frc c P = z) ->
  exists m', spmd_ends n (step s) m m' /\ represents_ext false dims loc g [w; psi; vx; vy] m' (serial u (with_forcing2 [fx; fy] frc s)) /\ forc z dims loc g [fx; fy] (fun _ _ => z) (by_rank m') /\
    (forall r a, ~ In (fst a) W -> m' (r, a) = m (r, a)).
Proof.
  intros [Hsh Hq] Hu Hf Ho. set (s' := with_forcing2 [fx; fy] frc s).
  assert (Es : step s = step s') by (unfold time_step_2d, s', with_forcing2; cbn [n2_frc]; destruct (n2_frc s) as [[K fv]|]; reflexivity).
  assert (Hn : n2_frc s' <> None) by (unfold s', with_forcing2; cbn [n2_frc]; destruct (n2_frc s) as [[K fv]|]; [discriminate|contradiction]).
  assert (Hsh' : ns2_shapes w vx vy fx fy s') by (unfold ns2_shapes in *; unfold s', with_forcing2; cbn [n2_adv n2_dif n2_frc]; destruct (n2_frc s) as [[K fv]|]; exact Hsh).
  assert (Hok' : ns2_step_ok z N w vx vy fx fy s').
  { unfold ns2_shapes, ns2_step_ok, s', with_forcing2 in *. cbn [n2_adv n2_dif n2_frc] in *. destruct (n2_frc s) as [[K fv]|]; [|contradiction]. cbn [option_map fst] in *. repeat split; try tauto.
    intros f P Hff HP HE. now apply Ho. }
  pose proof HS as [G Hg2 H4 Hw Hdd Hxg Hnd HKx HKy]. pose proof (g2_ok _ _ _ _ _ G) as Hok.
  pose proof (step2_phases add z damp coord width conv Kcx Kcy py px ny nx g full dd xg w psi vx vy fx fy buf D S HS s' Hsh') as Hph.
  pose proof (spmd_safe _ _ m Hph) as R. exists (den n (step s') m). rewrite Es. split; [exact R|]. split; [|split].
  - pose proof (hist2 add z damp coord width conv Kcx Kcy py px ny nx g full dd xg w psi vx vy fx fy buf D S HS [s'] m (den n (step s') m) u ltac:(constructor; [exact Hok'|constructor]) Hu) as X. cbn [fold_left] in X. apply X.
    econstructor; [|exact R|constructor]. split; [intros r f I _ _ _ _; reflexivity|]. unfold s', with_forcing2. cbn [n2_frc]. destruct (n2_frc s) as [[K fv]|]; [|contradiction]. cbn [option_map forcing_of snd].
    apply (forc_deposited z dims loc g [fx; fy] Hok). exact Hf.
  - apply (zero_forc z dims loc g [fx; fy]); [lia|]. intros r f I Hr Hff HI. exact (step2_forcing add z damp coord width conv Kcx Kcy py px ny nx g full dd xg w psi vx vy fx fy buf D S HS s' m _ Hsh' Hn R r f I Hr Hff HI).
  - intros r a Ha. apply (den_frame W); auto. apply step2_in.
Qed.

Notation flow_step := (fun frc u s => serial u (with_forcing2 [fx; fy] frc s)).
Theorem coupled_more_2d carry es ss m st bk : tracks z dims loc g [w; psi; vx; vy] [fx; fy] nb actors bufsz ss m st -> off_edge z dims loc st -> ghosts_ok actors false es ->
  Forall (event_ok dims loc nb actors dx shift (flow2_ok z w vx vy fx fy)) es -> all_fit dims carry ss es -> booked [fx; fy] nb actors m bk ->
  let segs := coupled_segs add sub mul z scale sum dx shift dims loc g [vx; vy] [fx; fy] actors (exch_2d py px ny nx g full [vx; vy]) (spread_2 add mul times0 dx shift py px ny nx g [fx; fy]) step ss es in
  exists m', segs_end n segs m m' /\ (forall m'', segs_end n segs m m'' -> m'' = m') /\
    tracks z dims loc g [w; psi; vx; vy] [fx; fy] nb actors bufsz (final_maps dims ss es) m'
      (serial_coupled add sub mul z scale sum dx shift [vx; vy] flow_step (fun b => a_body (actors b)) carry st es) /\
    booked [fx; fy] nb actors m' (collects add sub mul z scale sum dx shift [vx; vy] flow_step (fun b => a_body (actors b)) carry st bk es).
Proof.
  intros Ht Ho Hgh He Hf Hbk. pose proof HS as [G Hg2 H4 Hw Hdd Hxg Hnd HKx HKy]. clear H4 Hw Hdd Hxg HKx HKy.
  assert (Hok : grid_ok dims loc) by (eapply g2_ok; eauto). assert (Hg1 : 1 <= g) by (clear -Hg2; lia).
  assert (EF : exch_facts false dims loc g [vx; vy] (exch_2d py px ny nx g full [vx; vy])) by (unfold grid2 in G; clear -G; apply exch2_facts; lia).
  assert (EX : forall m : mem T, if full then full_exchanged false dims loc g [vx; vy] m (run_copies (exch_2d py px ny nx g full [vx; vy]) m) else face_exchanged false dims loc g [vx; vy] m (run_copies (exch_2d py px ny nx g full [vx; vy]) m)).
  { intros m0. unfold grid2 in G. clear -G. destruct full; [apply full2|apply edges2]; try lia; apply Permutation.Permutation_refl. }
  assert (HfF : forall f, In f [fx; fy] -> ~ In f [w; psi; vx; vy]).
  { intros f Hf1 Hf2. apply (nodup_disj [w; psi; vx; vy] [fx; fy; buf; D; S] f Hnd Hf2). cbn in Hf1 |- *. tauto. }
  assert (Hnf : NoDup [fx; fy]) by (apply (nodup_app_l [fx; fy] [buf; D; S]); exact (nodup_app_r [w; psi; vx; vy] [fx; fy; buf; D; S] Hnd)).
  assert (I1 : incl [w; psi; vx; vy] W) by (intros x Hx; cbn in Hx |- *; clear -Hx; tauto).
  assert (I2 : incl [vx; vy] [w; psi; vx; vy]) by (intros x Hx; cbn in Hx |- *; clear -Hx; tauto).
  assert (I3 : incl [fx; fy] W) by (intros x Hx; cbn in Hx |- *; clear -Hx; tauto).
  edestruct (coupled_more add sub mul z scale sum dx shift dims loc g [w; psi; vx; vy] [vx; vy] [fx; fy] W nb actors bufsz (exch_2d py px ny nx g full [vx; vy])
    (spread_2 add mul times0 dx shift py px ny nx g [fx; fy]) step (flow2_ok z w vx vy fx fy) flow_step full) with (fr := false) as (m' & R1 & R2 & _ & R3); [..|exists m'; split; [exact R1|]; split; [intros m'' R''; exact (segs_det _ _ _ _ _ R'' R1)|]; split; [exact R2|exact R3]]; eauto; try discriminate.
  - right. exact slab_one.
  - intros b p force m0 u Hb Hp. apply (spread2_ok add mul z times0 dx shift Hm Ht0 Hdx py px ny nx g [fx; fy] (actors b) p force m0 u G); auto. now apply (proj2 HA).
  - intros s m0 u frc. apply flow2_step.
Qed.
Theorem coupled_2d carry es ss m st : tracks z dims loc g [w; psi; vx; vy] [fx; fy] nb actors bufsz ss m st -> off_edge z dims loc st -> ghosts_ok actors false es ->
  Forall (event_ok dims loc nb actors dx shift (flow2_ok z w vx vy fx fy)) es -> all_fit dims carry ss es ->
  let segs := coupled_segs add sub mul z scale sum dx shift dims loc g [vx; vy] [fx; fy] actors (exch_2d py px ny nx g full [vx; vy]) (spread_2 add mul times0 dx shift py px ny nx g [fx; fy]) step ss es in
  exists m', segs_end n segs m m' /\ (forall m'', segs_end n segs m m'' -> m'' = m') /\
    tracks z dims loc g [w; psi; vx; vy] [fx; fy] nb actors bufsz (final_maps dims ss es) m'
      (serial_coupled add sub mul z scale sum dx shift [vx; vy] flow_step (fun b => a_body (actors b)) carry st es).
Proof.
  intros Ht Ho Hgh He Hf. destruct (coupled_more_2d carry es ss m st (fun _ => None) Ht Ho Hgh He Hf ltac:(intros b k _ _ X; discriminate)) as (m' & R1 & R2 & R3 & _). eauto.
Qed.
End Two.

(** ** Three dimensions *)
Section Three.
Context {T C : Type}.
Variables (add sub mul : T -> T -> T) (z : T) (times0 : T -> T) (scale : T -> T) (sum : list T -> T) (dx shift : Q).
Variables (damp : C -> C -> T -> T) (coord : nat -> Z -> C) (width : Z) (conv : (list Z -> T) -> list Z -> T) (Kcx Kcy Kcz : @kfun T)
          (lap : T -> T -> T -> T) (fsub : T -> T -> T) (filt : option (filter_type * nat * Z)).
Variables (pz py px n0 n1 n2 g : Z) (full : bool) (xg : Z -> nat -> Z -> C).
Variables (w0 w1 w2 p0 p1 p2 vx vy vz fx fy fz b0 b1 b2 buf D S : nat) (nb : nat) (actors : nat -> actor T).
Notation dims := [pz; py; px].
Notation loc := [n0; n1; n2].
Notation N := (global_size dims loc).
Notation n := (zprod dims).
Notation ws := [w0; w1; w2].
Notation vs := [vx; vy; vz].
Notation fs := [fx; fy; fz].
Notation bs := [b0; b1; b2].
Notation Fs0 := [w0; w1; w2; p0; p1; p2; vx; vy; vz].
Notation step := (fun sr => time_step_3d add z damp conv lap fsub filt pz py px n0 n1 n2 g full width xg w0 w1 w2 p0 p1 p2 vx vy vz fx fy fz b0 b1 b2 buf D S Kcx Kcy Kcz (snd sr) (fst sr)).
Notation serial := (serial_ns_3d add z damp coord width conv Kcx Kcy Kcz lap fsub filt N w0 w1 w2 p0 p1 p2 vx vy vz b0 b1 b2 fx fy fz).
Notation W := [w0; w1; w2; p0; p1; p2; vx; vy; vz; fx; fy; fz; b0; b1; b2; buf; D; S].
Notation bufsz := [[g; n1 + 2 * g; n2 + 2 * g]; [n0 + 2 * g; g; n2 + 2 * g]; [n0 + 2 * g; n1 + 2 * g; g]].
Hypothesis HS : ns3_setting pz py px n0 n1 n2 g width filt xg coord w0 w1 w2 p0 p1 p2 vx vy vz fx fy fz b0 b1 b2 buf D S Kcx Kcy Kcz.
Hypothesis Hm : comm_monoid add z.
Hypothesis Ht0 : forall x, times0 x = z.
Hypothesis Hdx : (0 < dx)%Q.
Hypothesis HA : actors_ok dims g nb actors W.
Hypothesis Hcor : full = true \/ at_most_one_split dims.

Lemma flow3_step s (m : mem T) u frc : flow3_ok z ws vs bs fs (fst s) -> represents_ext false dims loc g Fs0 m u -> forc z dims loc g fs frc (by_rank m) ->
  (forall c P, inb N P -> edgeb false N P = true -> frc c P = z) ->
  exists m', spmd_ends n (step s) m m' /\ represents_ext false dims loc g Fs0 m' (serial u (with_forcing3 fs frc (fst s))) /\ forc z dims loc g fs (fun _ _ => z) (by_rank m') /\
    (forall r a, ~ In (fst a) W -> m' (r, a) = m (r, a)).
Proof.
  destruct s as [s race]. cbn [fst snd]. intros [Hsh Hq] Hu Hf Ho. set (s' := with_forcing3 fs frc s).
  assert (Es : step (s, race) = step (s', race)) by (cbn [fst snd]; unfold time_step_3d, s', with_forcing3; cbn [n3_frc]; destruct (n3_frc s) as [[K fv]|]; reflexivity).
  assert (Hn : n3_frc s' <> None) by (unfold s', with_forcing3; cbn [n3_frc]; destruct (n3_frc s) as [[K fv]|]; [discriminate|contradiction]).
  assert (Hsh' : ns3_shapes ws vs bs fs s') by (unfold ns3_shapes in *; unfold s', with_forcing3; cbn [n3_crs n3_upd n3_dif n3_frc]; destruct (n3_frc s) as [[K fv]|]; exact Hsh).
  assert (Hok' : ns3_step_ok z N ws vs bs fs s').
  { unfold ns3_shapes, ns3_step_ok, s', with_forcing3 in *. cbn [n3_crs n3_upd n3_dif n3_frc] in *. destruct (n3_frc s) as [[K fv]|]; [|contradiction]. cbn [option_map fst] in *. destruct Hsh as (A1 & A2 & A3 & A4).
    split; [exact A1|]. split; [exact A2|]. split; [exact A3|]. split; [intros K' HK'; split; [now apply A4|now apply Hq]|]. intros f P Hff HP HE. now apply Ho. }
  pose proof HS as [G H2 Hw Hev Hxg Hnd HKc Hfilt]. pose proof (g3_ok _ _ _ _ _ _ _ G) as Hok.
  pose proof (step3_phases add z damp coord width conv Kcx Kcy Kcz lap fsub filt pz py px n0 n1 n2 g full xg w0 w1 w2 p0 p1 p2 vx vy vz fx fy fz b0 b1 b2 buf D S HS s' race Hsh') as Hph.
  pose proof (spmd_safe _ _ m Hph) as R. exists (den n (step (s', race)) m). cbn [fst snd] in Es. rewrite Es. split; [exact R|]. split; [|split].
  - pose proof (hist3 add z damp coord width conv Kcx Kcy Kcz lap fsub filt pz py px n0 n1 n2 g full xg w0 w1 w2 p0 p1 p2 vx vy vz fx fy fz b0 b1 b2 buf D S HS [(s', race)] m (den n (step (s', race)) m) u ltac:(constructor; [exact Hok'|constructor]) Hu) as X.
    cbn [fold_left map fst] in X. apply X.
    econstructor; [|exact R|constructor]. split; [intros r f I _ _ _ _; reflexivity|]. cbn [fst]. unfold s', with_forcing3. cbn [n3_frc]. destruct (n3_frc s) as [[K fv]|]; [|contradiction]. cbn [option_map forcing_of snd].
    apply (forc_deposited z dims loc g fs Hok). exact Hf.
  - apply (zero_forc z dims loc g fs); [unfold grid3 in G; lia|]. intros r f I Hr Hff HI.
    exact (step3_forcing add z damp coord width conv Kcx Kcy Kcz lap fsub filt pz py px n0 n1 n2 g full xg w0 w1 w2 p0 p1 p2 vx vy vz fx fy fz b0 b1 b2 buf D S HS s' race m _ Hsh' Hn R r f I Hr Hff HI).
  - intros r a Ha. apply (den_frame W); auto. apply step3_in.
Qed.

Notation flow_step := (fun frc u s => serial u (with_forcing3 fs frc (fst s))).
Theorem coupled_more_3d carry es ss m st bk : tracks z dims loc g Fs0 fs nb actors bufsz ss m st -> off_edge z dims loc st -> ghosts_ok actors false es ->
  Forall (event_ok dims loc nb actors dx shift (fun s => flow3_ok z ws vs bs fs (fst s))) es -> all_fit dims carry ss es -> booked fs nb actors m bk ->
  let segs := coupled_segs add sub mul z scale sum dx shift dims loc g vs fs actors (exch_3d pz py px n0 n1 n2 g full vs) (spread_3 add mul times0 dx shift pz py px n0 n1 n2 g fs) step ss es in
  exists m', segs_end n segs m m' /\ (forall m'', segs_end n segs m m'' -> m'' = m') /\
    tracks z dims loc g Fs0 fs nb actors bufsz (final_maps dims ss es) m'
      (serial_coupled add sub mul z scale sum dx shift vs flow_step (fun b => a_body (actors b)) carry st es) /\
    booked fs nb actors m' (collects add sub mul z scale sum dx shift vs flow_step (fun b => a_body (actors b)) carry st bk es).
Proof.
  intros Ht Ho Hgh He Hf Hbk. pose proof HS as [G H2 Hw Hev Hxg Hnd HKc Hfilt]. clear H2 Hw Hev Hxg HKc Hfilt.
  assert (Hok : grid_ok dims loc) by (eapply g3_ok; eauto). assert (Hg1 : 1 <= g) by (clear -G; unfold grid3 in G; lia).
  assert (EF : exch_facts false dims loc g vs (exch_3d pz py px n0 n1 n2 g full vs)) by (unfold grid3 in G; clear -G; apply exch3_facts; lia).
  assert (EX : forall m : mem T, if full then full_exchanged false dims loc g vs m (run_copies (exch_3d pz py px n0 n1 n2 g full vs) m) else face_exchanged false dims loc g vs m (run_copies (exch_3d pz py px n0 n1 n2 g full vs) m)).
  { intros m0. unfold grid3 in G. clear -G. destruct full; [apply full3|apply faces3]; try lia; apply Permutation.Permutation_refl. }
  assert (HfF : forall f, In f fs -> ~ In f Fs0).
  { intros f Hf1 Hf2. apply (nodup_disj Fs0 [fx; fy; fz; b0; b1; b2; buf; D; S] f Hnd Hf2). cbn in Hf1 |- *. clear -Hf1. tauto. }
  assert (Hnf : NoDup fs) by (apply (nodup_app_l fs [b0; b1; b2; buf; D; S]); exact (nodup_app_r Fs0 [fx; fy; fz; b0; b1; b2; buf; D; S] Hnd)).
  assert (I1 : incl Fs0 W) by (intros x Hx; cbn in Hx |- *; clear -Hx; tauto).
  assert (I2 : incl vs Fs0) by (intros x Hx; cbn in Hx |- *; clear -Hx; tauto).
  assert (I3 : incl fs W) by (intros x Hx; cbn in Hx |- *; clear -Hx; tauto).
  edestruct (coupled_more add sub mul z scale sum dx shift dims loc g Fs0 vs fs W nb actors bufsz (exch_3d pz py px n0 n1 n2 g full vs)
    (spread_3 add mul times0 dx shift pz py px n0 n1 n2 g fs) step (fun s => flow3_ok z ws vs bs fs (fst s)) flow_step full) with (fr := false) as (m' & R1 & R2 & _ & R3); [..|exists m'; split; [exact R1|]; split; [intros m'' R''; exact (segs_det _ _ _ _ _ R'' R1)|]; split; [exact R2|exact R3]]; eauto; try discriminate.
  - intros b p force m0 u Hb Hp. apply (spread3_ok add mul z times0 dx shift Hm Ht0 Hdx pz py px n0 n1 n2 g fs (actors b) p force m0 u G); auto. now apply (proj2 HA).
  - intros s m0 u frc. apply flow3_step.
Qed.
Theorem coupled_3d carry es ss m st : tracks z dims loc g Fs0 fs nb actors bufsz ss m st -> off_edge z dims loc st -> ghosts_ok actors false es ->
  Forall (event_ok dims loc nb actors dx shift (fun s => flow3_ok z ws vs bs fs (fst s))) es -> all_fit dims carry ss es ->
  let segs := coupled_segs add sub mul z scale sum dx shift dims loc g vs fs actors (exch_3d pz py px n0 n1 n2 g full vs) (spread_3 add mul times0 dx shift pz py px n0 n1 n2 g fs) step ss es in
  exists m', segs_end n segs m m' /\ (forall m'', segs_end n segs m m'' -> m'' = m') /\
    tracks z dims loc g Fs0 fs nb actors bufsz (final_maps dims ss es) m'
      (serial_coupled add sub mul z scale sum dx shift vs flow_step (fun b => a_body (actors b)) carry st es).
Proof.
  intros Ht Ho Hgh He Hf. destruct (coupled_more_3d carry es ss m st (fun _ => None) Ht Ho Hgh He Hf ltac:(intros b k _ _ X; discriminate)) as (m' & R1 & R2 & R3 & _). eauto.
Qed.
End Three.

(** ** Independence of the decomposition *)
Section Same.
Context {T F F' : Type}.
Variables (add sub mul : T -> T -> T) (z : T) (scale : T -> T) (sum : list T -> T) (dx shift : Q) (vels : list nat).
Variables (step : (Z -> list Z -> T) -> (nat -> list Z -> T) -> F -> nat -> list Z -> T) (step' : (Z -> list Z -> T) -> (nat -> list Z -> T) -> F' -> nat -> list Z -> T).
Variables (bodies bodies' : nat -> vbody T) (sf : F -> F' -> Prop).
Hypothesis Hb : forall b, bodies b = bodies' b.
Hypothesis Hs : forall s s', sf s s' -> forall f u, step f u s = step' f u s'.
Notation own := (fun _ _ j : Z => j).
Lemma serial_same es es' : Forall2 (same_event sf) es es' -> forall s s', same_state s s' ->
  same_state (serial_coupled add sub mul z scale sum dx shift vels step bodies (fun _ _ j => j) s es) (serial_coupled add sub mul z scale sum dx shift vels step' bodies' (fun _ _ j => j) s' es').
Proof.
  induction 1 as [|e e' es es' He _ IH]; intros s s' Hss; [exact Hss|]. unfold serial_coupled in *. cbn [fold_left]. apply IH. clear IH. destruct Hss as (E1 & E2 & E3).
  assert (M : forall b p p', p_nodes p = p_nodes p' -> p_vel p = p_vel p' -> met add sub mul scale sum dx shift vels bodies (fun _ _ j => j) b p s = met add sub mul scale sum dx shift vels bodies' (fun _ _ j => j) b p' s').
  { intros b p p' Hn Hv. unfold met, flow_at. now rewrite Hb, Hn, Hv, E1, E3. }
  destruct He as [b p p' Hn Hv|b p p' Hn Hv|b dt|x x' Hx|]; unfold same_state; cbn [serial_event cs_u cs_f cs_st].
  - split; [exact E1|]. rewrite (M b p p' Hn Hv). split; [|now rewrite E3]. unfold spread_onto. now rewrite Hb, Hn, E2.
  - split; [exact E1|]. split; [exact E2|]. rewrite (M b p p' Hn Hv). now rewrite E3.
  - split; [exact E1|]. split; [exact E2|]. now rewrite Hb, E3.
  - rewrite E1, E2. split; [now apply Hs|]. split; [reflexivity|exact E3].
  - auto.
Qed.
Lemma calls_same es es' : Forall2 (same_event (T := T) sf) es es' -> Forall2 (same_event sf) (calls es) (calls es').
Proof. induction 1 as [|e e' es es' He _ IH]; [constructor|]. destruct He; cbn [calls filter]; try (constructor; [constructor; assumption|exact IH]); exact IH. Qed.
Lemma serial_calls carry es : forall s, serial_coupled add sub mul z scale sum dx shift vels step bodies carry s es = serial_coupled add sub mul z scale sum dx shift vels step bodies carry s (calls es).
Proof. unfold serial_coupled. induction es as [|e es IH]; intros s; [reflexivity|]. cbn [fold_left]. rewrite IH. now destruct e. Qed.
End Same.
Section Agree.
Context {T : Type}.
Variables (z : T) (dims loc dims' loc' : list Z) (g : Z) (Fs fs : list nat) (nb : nat) (actors actors' : nat -> actor T) (bufsz bufsz' : list (list Z)).
Lemma forc_agree f (m m' : mem T) : forc z dims loc g fs f (by_rank m) -> forc z dims' loc' g fs f (by_rank m') -> SpecStep.agree dims loc dims' loc' g fs m m'.
Proof.
  intros [F1 _] [F1' _] r x r' x' c Hr Hx Hr' Hx' Hc E. pose proof (index_of_nonneg c fs) as H0. pose proof (in_index fs c Hc) as Hi.
  pose proof (F1 _ c r _ H0 Hi Hr (add_inner loc g x Hx)) as A. pose proof (F1' _ c r' _ H0 Hi Hr' (add_inner loc' g x' Hx')) as A'. unfold field.
  rewrite sub_pos in A, A'. etransitivity; [exact A|]. symmetry. etransitivity; [exact A'|]. now rewrite E.
Qed.
(** Two memories that show the same serial state agree. *)
Lemma tracks_agree ss ss' (m m' : mem T) s s' : 1 <= g -> grid_ok dims loc -> grid_ok dims' loc' -> (forall b, a_body (actors b) = a_body (actors' b)) -> same_state s s' ->
  tracks z dims loc g Fs fs nb actors bufsz ss m s -> tracks z dims' loc' g Fs fs nb actors' bufsz' ss' m' s' ->
  SpecStep.agree dims loc dims' loc' g (Fs ++ fs) m m' /\
  forall b c j, (b < nb)%nat -> 0 <= c < Z.of_nat (length fs) -> 0 <= j < v_count (a_body (actors b)) ->
    m (a_master (actors b), (gfo (a_arrays (actors b)), c * v_count (a_body (actors b)) + j)) = m' (a_master (actors' b), (gfo (a_arrays (actors' b)), c * v_count (a_body (actors b)) + j)).
Proof.
  intros Hg Hok Hok' Hb (E1 & E2 & E3) [T1 T2 T3 _ _ _] [T1' T2' T3' _ _ _]. rewrite <- E1 in T1'. rewrite <- E2 in T2'. split.
  - intros r x r' x' f Hr Hx Hr' Hx' Hf. apply in_app_iff in Hf as [Hf|Hf]; [|now apply (forc_agree _ m m' T2 T2')]. eapply StepHistory.ext_agree; eauto.
  - intros b c j Hbn Hc Hj. destruct (T3 b Hbn) as [_ X]. destruct (T3' b Hbn) as [_ X']. rewrite <- Hb, <- E3 in X'. etransitivity; [exact (X c j Hc Hj)|]. symmetry. exact (X' c j Hc Hj).
Qed.
End Agree.
