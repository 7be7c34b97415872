(** Proofs about restarting a rod driver (C72): the serial runs. *)
From Coq Require Import QArith.
From Verif Require AdaptiveProofs CoupledThms RestartProofs IoEulProofs.
From Verif Require FieldProofs.
From Verif Require Import SpecGhost Stencil Comm Lagrangian Vbf SpecTracks Base SpecGrid SpecGhostSum SpecStencil SpecStep SpecLag SpecIB SpecVbf SpecCoupled SpecDiag SpecLoop SpecAdaptive SpecDriver SpecMoving SpecRod SpecRodRestart SpecBodies Coupled ResumeSerial.
Open Scope Z_scope.

Section P.
Context {T F B L W : Type}.
Variables (bodies : nat -> vbody T) (rules : nat -> body_rules T B L).
Variables (add sub mul : T -> T -> T) (z : T) (scale : T -> T) (sum : list T -> T) (dx shift : Q) (vels : list nat).
Variable flow_step : (Z -> list Z -> T) -> (nat -> list Z -> T) -> F -> nat -> list Z -> T.
Variables (nc : Z) (N : list Z) (kept all : list nat) (flow_ok : F -> Prop).
Hypothesis Hkept : incl kept all.
Hypothesis Hvels : forall c, 0 <= c < nc -> In (nth (Z.to_nat c) vels 0%nat) kept.
Hypothesis Hflow : forall f f' u u' s, flow_ok s -> (forall c P, 0 <= c < nc -> inb N P -> f c P = f' c P) -> (forall a P, In a kept -> inb N P -> u a P = u' a P) ->
  forall a P, In a all -> inb N P -> flow_step f u s a P = flow_step f' u' s a P.
Notation alike := (alike bodies N nc 1 kept all).
Notation cfg := (cstate T * (nat -> B))%type.
Notation doc := (do_call bodies rules add sub mul z scale sum dx shift vels flow_step nc).
Notation docs := (do_calls bodies rules add sub mul z scale sum dx shift vels flow_step nc).
Notation wh := (calls_where bodies rules add sub mul z scale sum dx shift vels flow_step nc).
(** Body and place of a call: the body's nodes, with their supports, inside the grid. *)
Definition inside (p : nat * list (list Q)) : Prop := (fst p < 1)%nat /\ Z.of_nat (length (snd p)) = v_count (bodies (fst p)) /\
  Forall (fun x => Forall (inb N) (support_points (q_cell dx shift) (v_width (bodies (fst p))) x)) (snd p).
Definition both (m fl : bool) (y y' : cfg) : Prop := snd y = snd y' /\ alike (fun _ => m) fl (fst y) (fst y').
Lemma one_body M (m fl : bool) s s' : (m = true -> M 0%nat = true) -> alike M fl s s' -> alike (fun _ => m) fl s s'.
Proof.
  intros E [H1 H2 H3 H4]. constructor; auto. intros b Hb Hm. assert (b = 0)%nat as -> by (clear -Hb; lia). apply H4; auto.
Qed.
Lemma listed_same count (f f' : Z -> Z -> T) : (forall c j, 0 <= c < nc -> 0 <= j < count -> f c j = f' c j) -> listed nc count f = listed nc count f'.
Proof.
  intros H. unfold listed. rewrite !flat_map_concat_map. f_equal. apply map_ext_in. intros c Hc. apply map_ext_in. intros j Hj. apply zrange_In in Hc, Hj. apply H; lia.
Qed.
Notation step := (alike_step add sub mul z scale sum dx shift vels flow_step bodies N nc 1 kept all flow_ok Hkept Hvels Hflow).
Lemma call_full m fl y y' : both m fl y y' -> inside (0%nat, b_nodes (rules 0%nat) (snd y 0%nat)) -> both true fl (doc (OFull 0) y) (doc (OFull 0) y').
Proof.
  intros [E A] I. split; [exact E|]. unfold do_call. cbn [fst call_of serial_coupled fold_left]. rewrite <- E.
  eapply one_body; [|refine (step (fun _ => m) fl _ _ (EFull 0 _) A _ _)]; [reflexivity|exact I|exact Logic.I].
Qed.
Lemma call_lag m fl y y' : both m fl y y' -> inside (0%nat, b_nodes (rules 0%nat) (snd y 0%nat)) -> both true fl (doc (OLag 0) y) (doc (OLag 0) y').
Proof.
  intros [E A] I. assert (A' : alike (fun _ => true) fl (fst (doc (OLag 0) y)) (fst (doc (OLag 0) y'))).
  { unfold do_call. cbn [fst call_of serial_coupled fold_left]. rewrite <- E.
    eapply one_body; [|refine (step (fun _ => m) fl _ _ (ELag 0 _) A _ _)]; [reflexivity|exact I|exact Logic.I]. }
  split; [|exact A']. unfold do_call in *. cbn [snd fst moved] in *. rewrite <- E in *. f_equal. f_equal. f_equal. apply listed_same. intros c j Hc Hj.
  exact (proj2 (al_vm _ _ _ _ _ _ _ _ _ _ A' 0%nat (le_n 1) eq_refl) c j Hc Hj).
Qed.
Lemma call_move m fl y y' d : both m fl y y' -> both m fl (doc (OMove 0 d) y) (doc (OMove 0 d) y').
Proof. intros [E A]. unfold do_call, both. cbn [fst snd call_of serial_coupled fold_left moved]. now rewrite <- E. Qed.
Lemma call_advance fl y y' d : both true fl y y' -> both true fl (doc (OAdvance 0 d) y) (doc (OAdvance 0 d) y').
Proof.
  intros [E A]. split; [exact E|]. unfold do_call. cbn [fst call_of serial_coupled fold_left].
  refine (step (fun _ => true) fl _ _ (EAdvance 0 d) A _ eq_refl). exact (le_n 1).
Qed.
Lemma call_flow m fl y y' s : both m fl y y' -> flow_ok s -> both m true (doc (OFlow s) y) (doc (OFlow s) y').
Proof.
  intros [E A] Hs. split; [exact E|]. unfold do_call. cbn [fst call_of serial_coupled fold_left].
  exact (step (fun _ => m) fl _ _ (EFlow s) A Hs Logic.I).
Qed.
Lemma both_less m fl y y' : both true fl y y' -> both m fl y y'.
Proof. intros [E A]. split; [exact E|]. revert A. now apply one_body. Qed.
Lemma where_head o l y : wh (o :: l) y = acting rules o (snd y) ++ wh l (doc o y).
Proof. reflexivity. Qed.
Lemma stages_both l : Forall (fun o => o = OLag 0 \/ exists dt, o = OMove 0 dt) l -> forall m fl y y', both m fl y y' -> Forall inside (wh l y) ->
  wh l y = wh l y' /\ both m fl (docs l y) (docs l y') /\ (In (OLag 0) l -> both true fl (docs l y) (docs l y')).
Proof.
  induction 1 as [|o l Ho Hl IH]; intros m fl y y' A I; [split; [reflexivity|split; [exact A|intros []]]|].
  rewrite !where_head in *. apply Forall_app in I. destruct I as [I1 I2]. cbn [do_calls fold_left].
  destruct Ho as [-> |[d ->]].
  - cbn [acting] in I1. pose proof (call_lag _ _ _ _ A (Forall_inv I1)) as A'.
    destruct (IH _ _ _ _ A' I2) as (E & X & _). split; [cbn [acting]; rewrite E, (proj1 A); reflexivity|]. split; [apply both_less; exact X|intros _; exact X].
  - destruct (IH _ _ _ _ (call_move _ _ _ _ d A) I2) as (E & X & Y). split; [cbn [acting]; now rewrite E|]. split; [exact X|]. intros [D|D]; [discriminate|auto].
Qed.
Variables (steps : W -> nat) (part : W -> T) (stages : T -> list (action T F)) (flow : W -> W -> F).
Hypothesis Hst : rod_stages stages.
Hypothesis Hload : stages_load stages.
Hypothesis Hfl : forall t d, flow_ok (flow t d).
Notation sub1 h := (rod_substep bodies rules add sub mul z scale sum dx shift vels flow_step nc stages h).
Notation adv := (rod_advance bodies rules add sub mul z scale sum dx shift vels flow_step nc steps part stages flow).
Notation places := (rod_where bodies rules add sub mul z scale sum dx shift vels flow_step nc steps part stages).
Lemma substeps_both h n m fl y y' : both m fl y y' -> Forall inside (flat_map (fun i => wh (stages h) (Nat.iter i (sub1 h) y)) (seq 0 n)) ->
  flat_map (fun i => wh (stages h) (Nat.iter i (sub1 h) y)) (seq 0 n) = flat_map (fun i => wh (stages h) (Nat.iter i (sub1 h) y')) (seq 0 n) /\
  both m fl (Nat.iter n (sub1 h) y) (Nat.iter n (sub1 h) y').
Proof.
  intros A. induction n as [|n IH]; intros I; [split; [reflexivity|exact A]|].
  rewrite seq_S in *. cbn [plus] in *. rewrite !flat_map_app in *. apply Forall_app in I. destruct I as [I1 I2]. destruct (IH I1) as [E X].
  cbn [flat_map] in *. rewrite !app_nil_r in *. destruct (stages_both _ (Hst h) _ _ _ _ X I2) as (E2 & _ & Y). split; [now rewrite E, E2|].
  cbn [Nat.iter nat_rect]. apply both_less. apply call_advance. apply Y. apply Hload.
Qed.
(** One iteration. *)
Lemma advance_both t d m fl y y' : both m fl y y' -> Forall inside (places t d y) -> places t d y = places t d y' /\ both true true (adv t d y) (adv t d y').
Proof.
  intros A I. unfold rod_where in *. cbv zeta in *. apply Forall_app in I. destruct I as [I1 I2]. destruct (substeps_both (part d) (steps d) _ _ _ _ A I1) as [E X]. split.
  - rewrite E, (proj1 X). reflexivity.
  - unfold rod_advance. apply call_flow with (fl := fl); [|apply Hfl]. exact (call_full _ _ _ _ X (Forall_inv I2)).
Qed.

(** Runs. *)
Variables (before : W -> W -> bool) (plus : W -> W -> W) (zero : W) (due : W -> W -> bool) (limits : list W) (final : W).
Variables (le : T -> T -> Prop) (mag : list T -> T) (lim : T -> W) (pre : W -> W).
Hypothesis Hvels' : incl vels kept.
Notation sstep := (serial_iteration before plus zero due limits final le mag lim pre N vels (fun x : cfg => cs_u (fst x)) (fun _ : nat => adv)).
Notation acted := (rod_acted bodies rules add sub mul z scale sum dx shift vels flow_step nc steps part stages sstep).
Notation next := (timers_next plus zero due limits).
Notation dues := (timers_due due limits).
Lemma timers_same d ts ts' : timers_as due limits ts ts' -> dues ts = dues ts' /\ next d ts = next d ts'.
Proof.
  unfold timers_as, timers_due, timers_next, timers_due. clear. revert ts ts'. induction limits as [|l ls IH]; intros ts ts' H; [split; reflexivity|].
  destruct ts as [|t ts], ts' as [|t' ts']; cbn [combine] in *; [split; reflexivity|inversion H|inversion H|]. inversion H as [|? ? ? ? H1 H2]; subst. destruct (IH ts ts' H2) as [E1 E2]. cbn [map combine fst snd] in *.
  destruct H1 as [D|[D1 D2]].
  - inversion D; subst. split; [now rewrite E1|now rewrite E2].
  - rewrite D1, D2. cbn [fst]. split; [now rewrite E1|now rewrite E2].
Qed.
Lemma timers_refl ts : timers_as due limits ts ts.
Proof. unfold timers_as. induction (combine limits ts); constructor; auto. Qed.
(** Same time; timers, saved quantities and bodies as said. *)
Definition beside (m fl : bool) (s s' : sconfig W cfg) : Prop := s_time s = s_time s' /\ timers_as due limits (s_timers s) (s_timers s') /\ both m fl (s_state s) (s_state s').
Lemma speed_same (u u' : nat -> list Z -> T) U : (forall a P, In a kept -> inb N P -> u a P = u' a P) -> is_max le (inb N) (speed mag u vels) U -> is_max le (inb N) (speed mag u' vels) U.
Proof.
  intros E. assert (X : forall P, inb N P -> speed mag u vels P = speed mag u' vels P).
  { intros P HP. unfold speed. f_equal. apply map_ext_in. intros a Ha. apply E; auto. }
  unfold is_max. intros [[P [HP E']] H1]. split; [exists P; split; [exact HP|]; now rewrite <- X|]. intros Q HQ. rewrite <- X by exact HQ. now apply H1.
Qed.
Lemma pair_step m fl s s' h s1 : beside m fl s s' -> sstep s h s1 -> Forall inside (places (s_time s) (h_dt h) (s_state s)) ->
  exists h' s1', sstep s' h' s1' /\ h_due h = h_due h' /\ h_dt h = h_dt h' /\ places (s_time s) (h_dt h) (s_state s) = places (s_time s') (h_dt h') (s_state s') /\
    beside true true s1 s1' /\ s_timers s1 = s_timers s1'.
Proof.
  intros (Et & Tm & A) H I. inversion H as [U G M]; try subst d; subst. cbn [h_dt h_due] in *. set (d := pre (lim U)) in *. destruct (advance_both _ _ _ _ _ _ A I) as [E X].
  destruct (timers_same d _ _ Tm) as [E1 E2].
  exists {| h_due := dues (s_timers s'); h_state := s_state s'; h_dt := d |},
    {| s_count := S (s_count s'); s_time := plus (s_time s') d; s_timers := next d (s_timers s'); s_state := adv (s_time s') d (s_state s') |}.
  split.
  - apply (si before plus zero due limits final le mag lim pre N vels (fun x : cfg => cs_u (fst x)) (fun _ : nat => adv) s' U); [now rewrite <- Et|].
    revert M. apply speed_same. exact (kept_u _ _ _ _ _ _ Hkept _ _ _ _ (proj2 A)).
  - cbn [h_due h_dt s_timers]. split; [exact E1|]. split; [reflexivity|]. split; [rewrite <- Et; exact E|]. split; [|exact E2].
    split; [cbn [s_time]; now rewrite Et|]. split; [cbn [s_timers]; rewrite E2; apply timers_refl|]. cbn [s_state]. rewrite <- Et. exact X.
Qed.
Lemma both_sym m fl y y' : both m fl y y' -> both m fl y' y.
Proof.
  intros [E [H1 H2 H3 H4]]. split; [now symmetry|]. constructor; intros.
  - symmetry. now apply H1.
  - symmetry. now apply H2.
  - symmetry. now apply H3.
  - destruct (H4 b H H0) as [X Y]. split; intros; symmetry; auto.
Qed.
Lemma timers_sym ts ts' : timers_as due limits ts ts' -> timers_as due limits ts' ts.
Proof.
  unfold timers_as. induction 1 as [|a b l l' H1 H2 IH]; constructor; [|exact IH]. destruct H1 as [->|[X Y]]; auto.
Qed.
Lemma beside_sym m fl s s' : beside m fl s s' -> beside m fl s' s.
Proof. intros (E & Tm & A). split; [now symmetry|]. split; [now apply timers_sym|now apply both_sym]. Qed.
(* the other way round: a step of the second is one of the first *)
Lemma pair_back m fl s s' h' s1' : beside m fl s s' -> sstep s' h' s1' -> (forall h s1, sstep s h s1 -> Forall inside (places (s_time s) (h_dt h) (s_state s))) ->
  exists h s1, sstep s h s1 /\ h_due h = h_due h' /\ h_dt h = h_dt h' /\ places (s_time s) (h_dt h) (s_state s) = places (s_time s') (h_dt h') (s_state s') /\
    beside true true s1 s1' /\ s_timers s1 = s_timers s1'.
Proof.
  intros R H I. assert (I' : Forall inside (places (s_time s') (h_dt h') (s_state s'))).
  { destruct R as (Et & Tm & A). inversion H as [U G M]; try subst d; subst. cbn [h_dt] in *. set (d := pre (lim U)) in *.
    assert (S1 : exists h s1, sstep s h s1 /\ h_dt h = d).
    { eexists. eexists. split; [apply (si before plus zero due limits final le mag lim pre N vels (fun x : cfg => cs_u (fst x)) (fun _ : nat => adv) s U); [now rewrite Et|]|reflexivity].
      revert M. apply speed_same. intros a P Ha HP. symmetry. exact (kept_u _ _ _ _ _ _ Hkept _ _ _ _ (proj2 A) a P Ha HP). }
    destruct S1 as (h & s1 & S1 & Ed). pose proof (I h s1 S1) as J. rewrite Ed in J. destruct (advance_both _ _ _ _ _ _ A J) as [E _]. rewrite <- Et, <- E. exact J. }
  destruct (pair_step _ _ _ _ _ _ (beside_sym _ _ _ _ R) H I') as (h & s1 & H1 & E1 & E2 & E3 & E4 & E5).
  exists h, s1. split; [exact H1|]. split; [now symmetry|]. split; [now symmetry|]. split; [now symmetry|]. split; [now apply beside_sym|now symmetry].
Qed.
Variables (s0 s0' : sconfig W cfg).
Hypothesis Hin : forall hs s l, acted s0 hs s l -> Forall inside l.
Hypothesis H0 : beside false false s0 s0'.
Notation matched := (fun h h' : happening W cfg => h_due h = h_due h' /\ h_dt h = h_dt h').
Definition arrived (hs : list (happening W cfg)) (s s' : sconfig W cfg) : Prop :=
  beside false false s s' /\ (hs <> [] -> beside true true s s' /\ s_timers s = s_timers s').
Lemma full_less s s' : beside true true s s' -> beside false false s s'.
Proof.
  intros (E & Tm & [A1 [X1 X2 X3 X4]]). split; [exact E|]. split; [exact Tm|]. split; [exact A1|]. constructor; auto.
Qed.
Lemma forward hs s l : acted s0 hs s l -> exists hs' s', acted s0' hs' s' l /\ Forall2 matched hs hs' /\ arrived hs s s'.
Proof.
  induction 1 as [|hs s l h s1 R IH I].
  - exists [], s0'. split; [constructor|]. split; [constructor|]. split; [exact H0|now intros []].
  - destruct IH as (hs' & s' & R' & M & Ar & _). pose proof (Hin _ _ _ (ra_snoc _ _ _ _ _ _ _ _ _ _ _ _ _ _ _ _ _ _ _ _ _ _ _ R I)) as J. apply Forall_app in J. destruct J as [_ J].
    destruct (pair_step _ _ _ _ _ _ Ar I J) as (h' & s1' & I' & E1 & E2 & E3 & E4 & E5). exists (hs' ++ [h']), s1'. split; [rewrite E3; now apply ra_snoc|].
    split; [apply Forall2_app; auto|]. split; [now apply full_less|auto].
Qed.
Lemma backward hs' s' l : acted s0' hs' s' l -> exists hs s, acted s0 hs s l /\ Forall2 matched hs hs' /\ arrived hs s s'.
Proof.
  induction 1 as [|hs' s' l h' s1' R' IH I'].
  - exists [], s0. split; [constructor|]. split; [constructor|]. split; [exact H0|now intros []].
  - destruct IH as (hs & s & R & M & Ar & _).
    assert (J : forall h s1, sstep s h s1 -> Forall inside (places (s_time s) (h_dt h) (s_state s))).
    { intros h s1 I. pose proof (Hin _ _ _ (ra_snoc _ _ _ _ _ _ _ _ _ _ _ _ _ _ _ _ _ _ _ _ _ _ _ R I)) as J. apply Forall_app in J. tauto. }
    destruct (pair_back _ _ _ _ _ _ Ar I' J) as (h & s1 & I & E1 & E2 & E3 & E4 & E5). exists (hs ++ [h]), s1. split; [rewrite <- E3; now apply ra_snoc|].
    split; [apply Forall2_app; auto|]. split; [now apply full_less|auto].
Qed.

Notation runs := (serial_iterations before plus zero due limits final le mag lim pre N vels (fun x : cfg => cs_u (fst x)) (fun _ : nat => adv)).
Lemma run_acted a hs s : runs a hs s -> exists l, acted a hs s l.
Proof. induction 1 as [a|a hs s h s1 R IH I]; [exists []; constructor|]. destruct (IH) as [l A]. eexists. eapply ra_snoc; eauto. Qed.
Lemma acted_run a hs s l : acted a hs s l -> runs a hs s.
Proof. induction 1 as [|hs s l h s1 R IH I]; [constructor|]. eapply sis_snoc; eauto. Qed.
Variables (dims loc : list Z) (mnT mx : T -> T -> T).
Hypothesis HN : N = global_size dims loc.
Hypothesis Hord : ordered le mnT mx.
Notation over_ := (serial_over before final).
Lemma finishes : (exists hs s, runs s0 hs s /\ over_ s) <-> (exists hs s, runs s0' hs s /\ over_ s).
Proof.
  split; intros (hs & s & R & O); destruct (run_acted _ _ _ R) as [l A].
  - destruct (forward _ _ _ A) as (hs' & s' & A' & _ & (E & _) & _). exists hs', s'. split; [eapply acted_run; eauto|]. unfold serial_over in *. now rewrite <- E.
  - destruct (backward _ _ _ A) as (hs' & s' & A' & _ & (E & _) & _). exists hs', s'. split; [eapply acted_run; eauto|]. unfold serial_over in *. now rewrite E.
Qed.
Lemma side_by_side hs s hs' s' : runs s0 hs s -> runs s0' hs' s' -> length hs = length hs' \/ (over_ s /\ over_ s') -> Forall2 matched hs hs' /\ arrived hs s s'.
Proof.
  intros R R' HL. destruct (run_acted _ _ _ R) as [l A]. destruct (forward _ _ _ A) as (hs2 & s2 & A2 & M & Ar).
  pose proof (acted_run _ _ _ _ A2) as R2. assert (E : length hs2 = length hs') .
  { destruct HL as [HL|[O O']]; [rewrite <- HL; symmetry; exact (AdaptiveProofs.same_length _ _ _ M)|].
    assert (O2 : over_ s2) by (unfold serial_over in *; rewrite <- (proj1 (proj1 Ar)); exact O). rewrite HN in R2, R'.
    pose proof (AdaptiveProofs.serial_over_last dims loc before plus zero due limits final le mnT mx mag lim pre vels _ _ Hord _ _ _ R2 O2 _ _ R') as X1.
    pose proof (AdaptiveProofs.serial_over_last dims loc before plus zero due limits final le mnT mx mag lim pre vels _ _ Hord _ _ _ R' O' _ _ R2) as X2. clear -X1 X2. lia. }
  rewrite HN in R2, R'. destruct (AdaptiveProofs.serial_det dims loc before plus zero due limits final le mnT mx mag lim pre vels _ _ Hord _ _ _ _ _ R2 R' E) as [-> ->]. auto.
Qed.
End P.

(** What two decompositions show of such states. *)
Section Agree.
Context {T : Type}.
Variables (z : T) (dims loc dims' loc' : list Z) (g : Z) (Fs fs : list nat) (nb : nat) (actors actors' : nat -> actor T) (bufsz bufsz' : list (list Z)) (kept : list nat).
Notation N := (global_size dims loc).
Notation bodies := (fun b => a_body (actors b)).
Hypothesis Hg : 1 <= g.
Hypothesis Hok : grid_ok dims loc.
Hypothesis Hok' : grid_ok dims' loc'.
Hypothesis EN : N = global_size dims' loc'.
Hypothesis Hkept : incl kept Fs.
Lemma saved_agree ss ss' (m m' : mem T) s s' : as_saved N (Z.of_nat (length fs)) nb bodies kept s s' ->
  tracks z dims loc g Fs fs nb actors bufsz ss m s -> tracks z dims' loc' g Fs fs nb actors' bufsz' ss' m' s' -> SpecStep.agree dims loc dims' loc' g (kept ++ fs) m m'.
Proof.
  intros [A1 A2 _] T1 T2 r x r' x' f Hr Hx Hr' Hx' Hf E. pose proof (IoEulProofs.at_inb dims loc r x Hok Hr Hx) as HP. apply in_app_iff in Hf as [Hf|Hf].
  - etransitivity; [exact (RestartProofs.ext_inside dims loc g Fs m _ Hg Hok (tr_flow _ _ _ _ _ _ _ _ _ _ _ _ T1) r f x Hr (Hkept f Hf) Hx)|].
    symmetry. etransitivity; [exact (RestartProofs.ext_inside dims' loc' g Fs m' _ Hg Hok' (tr_flow _ _ _ _ _ _ _ _ _ _ _ _ T2) r' f x' Hr' (Hkept f Hf) Hx')|].
    rewrite <- E. symmetry. now apply A1.
  - destruct (In_nth_error _ _ Hf) as [k Hk]. assert (Hc : (k < length fs)%nat) by (apply nth_error_Some; now rewrite Hk).
    assert (X : forall dims loc (m : mem T) f0 r x, forc z dims loc g fs f0 (by_rank m) -> 0 <= r < zprod dims -> inb loc x -> field m (ghosted g loc) r f (map (fun i => i + g) x) = f0 (Z.of_nat k) (vadd (block_start dims loc r) x)).
    { clear -Hk. intros dims loc m f0 r x [F1 _] Hr Hx. unfold by_rank in F1. unfold field. etransitivity; [apply (F1 (Z.of_nat k) f r (map (fun i => i + g) x))|].
      - lia.
      - now rewrite Nat2Z.id.
      - exact Hr.
      - now apply FieldProofs.add_g_inner.
      - f_equal. unfold ghost_pos. rewrite map_map. rewrite (map_ext _ (fun x => x)) by (intros; lia). now rewrite map_id. }
    rewrite (X _ _ _ _ r x (tr_forc _ _ _ _ _ _ _ _ _ _ _ _ T1) Hr Hx), (X _ _ _ _ r' x' (tr_forc _ _ _ _ _ _ _ _ _ _ _ _ T2) Hr' Hx'), <- E. apply A2; [clear -Hc; lia|exact HP].
Qed.
Lemma forces_agree ss ss' (m m' : mem T) s s' b c j : (forall b, a_body (actors b) = a_body (actors' b)) -> in_all N (Z.of_nat (length fs)) nb bodies kept s s' ->
  tracks z dims loc g Fs fs nb actors bufsz ss m s -> tracks z dims' loc' g Fs fs nb actors' bufsz' ss' m' s' ->
  (b < nb)%nat -> 0 <= c < Z.of_nat (length fs) -> 0 <= j < v_count (a_body (actors b)) ->
    m (a_master (actors b), (gfo (a_arrays (actors b)), c * v_count (a_body (actors b)) + j)) = m' (a_master (actors' b), (gfo (a_arrays (actors' b)), c * v_count (a_body (actors b)) + j)).
Proof.
  intros Hb A T1 T2 Hbn Hc Hj. destruct (tr_node _ _ _ _ _ _ _ _ _ _ _ _ T1 b Hbn) as [_ X]. destruct (tr_node _ _ _ _ _ _ _ _ _ _ _ _ T2 b Hbn) as [_ X']. rewrite <- Hb in X'.
  etransitivity; [exact (X c j Hc Hj)|]. symmetry. etransitivity; [exact (X' c j Hc Hj)|]. symmetry. exact (proj2 (ia_nodes _ _ _ _ _ _ _ A b c j Hbn Hc Hj)).
Qed.
Lemma saved_same s s' t t' (bod : nat -> vbody T) N0 nc n0 k : same_state s t -> same_state s' t' -> as_saved N0 nc n0 bod k s s' -> as_saved N0 nc n0 bod k t t'.
Proof. intros (E1 & E2 & E3) (E1' & E2' & E3') [A1 A2 A3]. constructor; intros; rewrite <- ?E1, <- ?E2, <- ?E3, <- ?E1', <- ?E2', <- ?E3'; auto. Qed.
Lemma all_same s s' t t' (bod : nat -> vbody T) N0 nc n0 k : same_state s t -> same_state s' t' -> in_all N0 nc n0 bod k s s' -> in_all N0 nc n0 bod k t t'.
Proof. intros E E' [A1 A2]. constructor; [now apply (saved_same s s')|]. destruct E as (E1 & E2 & E3), E' as (E1' & E2' & E3'). intros. rewrite <- E3, <- E3'. auto. Qed.
End Agree.
(** [alike] in the vocabulary of SpecRodRestart. *)
Section Words.
Context {T : Type}.
Variables (bodies : nat -> vbody T) (N : list Z) (nc : Z) (nb : nat) (kept all : list nat).
Lemma saved_alike M s s' : as_saved N nc nb bodies kept s s' -> (forall b, M b = false) -> alike bodies N nc nb kept all M false s s'.
Proof. intros [A1 A2 A3] HM. constructor; auto. intros b _ Hm. rewrite HM in Hm. discriminate. Qed.
Lemma alike_saved M fl s s' : incl kept all -> alike bodies N nc nb kept all M fl s s' -> as_saved N nc nb bodies kept s s'.
Proof. intros Hk [A1 A2 A3 _]. constructor; auto. intros a P Ha HP. apply A1; [|exact HP]. destruct fl; auto. Qed.
Lemma alike_all s s' : alike bodies N nc nb kept all (fun _ => true) true s s' -> in_all N nc nb bodies all s s'.
Proof. intros [A1 A2 A3 A4]. constructor; [constructor; auto|]. intros b c j Hb Hc Hj. destruct (A4 b Hb eq_refl) as [X Y]. auto. Qed.
End Words.
