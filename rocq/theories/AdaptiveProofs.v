(** Proofs about the adaptive loop. *)
From Verif Require Import Base SpecGrid SpecGhost SpecStencil SpecReduce SpecDiag SpecAdaptive Comm Diagnostics DiagProofs Adaptive.
Open Scope Z_scope.

Section P.
Context {T W X Y : Type}.
Variables (dims loc : list Z) (g : Z).
Variables (before : W -> W -> bool) (plus : W -> W -> W) (zero : W) (due : W -> W -> bool) (limits : list W) (final : W).
Variables (le : T -> T -> Prop) (mnT mx : T -> T -> T) (leW : W -> W -> Prop) (mn mxW : W -> W -> W).
Variables (mag : list T -> T) (lim : T -> W) (pre : W -> W) (vel : list nat) (buf : nat).
Variables (show : mem T -> mem T -> Prop) (body : nat -> W -> W -> mem T -> Y -> mem T -> Y -> Prop).
Variables (flow : X -> nat -> list Z -> T) (advance : nat -> W -> W -> X -> X).
Variables (Rel : mem T -> Y -> sconfig W X -> Prop) (Shows : mem T -> Y -> X -> Prop).
Hypothesis Hok : grid_ok dims loc.
Hypothesis Hg : 1 <= g.
Hypothesis OrdT : ordered le mnT mx.
Hypothesis OrdW : ordered leW mn mxW.
Hypothesis Anti : forall k l, le (mag k) (mag l) -> leW (lim (mag l)) (lim (mag k)).
Notation serial_iteration := (serial_iteration before plus zero due limits final le mag lim pre (global_size dims loc) vel flow advance).
Hypothesis Hrep : forall m e s, Rel m e s -> represents dims loc g vel m (flow (s_state s)).
Hypothesis Hshow : forall m e s, Rel m e s -> (exists m1, show m m1) /\ (forall m1, show m m1 -> Rel m1 e s).
Hypothesis Hstore : forall m e s, Rel m e s -> Rel (store_magnitude loc g mag vel buf m) e s.
Hypothesis Hbody : forall m e s h s', Rel m e s -> serial_iteration s h s' ->
  (exists m1 e1, body (s_count s) (s_time s) (h_dt h) m e m1 e1) /\ (forall m1 e1, body (s_count s) (s_time s) (h_dt h) m e m1 e1 -> Rel m1 e1 s').
Hypothesis Hshows : forall m e s, Rel m e s -> Shows m e (s_state s).
Notation N := (global_size dims loc).
Notation rank := (rank dims).
Notation gets := (gets dims loc g mag mx lim mn pre vel buf).
Notation iteration := (iteration dims loc g before plus zero due limits final mag mx lim mn pre vel buf show body).
Notation iterations := (iterations dims loc g before plus zero due limits final mag mx lim mn pre vel buf show body).
Notation apart := (apart dims loc g before due limits final mag mx lim mn pre vel buf show).
Notation serial_iterations := (serial_iterations before plus zero due limits final le mag lim pre N vel flow advance).

Lemma due_eq ls ts : are_due due ls ts = timers_due due ls ts.
Proof. revert ts. induction ls as [|l ls IH]; intros [|t ts]; auto. cbn [are_due]. rewrite IH. reflexivity. Qed.
Lemma count_eq d ls ts : count_on plus zero due d ls ts = timers_next plus zero due ls d ts.
Proof. revert ts. induction ls as [|l ls IH]; intros [|t ts]; auto. cbn [count_on]. rewrite IH. reflexivity. Qed.

(** The ranks' configuration shows the serial one. *)
Definition cshows (c : config T W Y) (s : sconfig W X) : Prop :=
  c_count c = s_count s /\ (forall r, rank r -> c_time c r = s_time s /\ c_timers c r = s_timers s) /\ Rel (c_mem c) (c_rest c) s.
Definition eshows (e : seen T W Y) (h : happening W X) : Prop := e_due e = h_due h /\ e_dt e = h_dt h /\ Shows (e_mem e) (e_rest e) (h_state h).

Lemma rank0 : rank 0. Proof. unfold Adaptive.rank. pose proof (ranks_nonempty dims loc Hok). lia. Qed.

Lemma gets_top m e s x : Rel m e s -> gets m x -> exists U, is_max le (inb N) (speed mag (flow (s_state s)) vel) U /\ x = pre (lim U).
Proof. intros Hm Hx. exact (stable_dt_ok dims loc g Hok Hg mag lim pre le mnT mx leW mn mxW OrdT OrdW Anti vel buf m (flow (s_state s)) x (Hrep _ _ _ Hm) Hx). Qed.
Lemma shown_rel fl m m1 e s : Rel m e s -> shown show fl m m1 -> Rel m1 e s.
Proof. intros Hm. unfold shown. destruct (existsb _ fl); [intros Hs; eapply Hshow; eauto|now intros ->]. Qed.
Lemma shown_exists fl m e s : Rel m e s -> exists m1, shown show fl m m1.
Proof. intros Hm. unfold shown. destruct (existsb _ fl); [eapply Hshow; eauto|now exists m]. Qed.
Lemma top_once s U U' : is_max le (inb N) (speed mag (flow s) vel) U -> is_max le (inb N) (speed mag (flow s) vel) U' -> U = U'.
Proof. exact (top_unique dims loc mag le mnT mx OrdT vel (flow s) U U'). Qed.

Lemma not_apart c s : cshows c s -> ~ apart c.
Proof.
  intros (_ & Ht & Hm) A. destruct A as [r r' Hr Hr' G G'|r r' Hr Hr' G D|r r' Hr Hr' G D|r r' fl m1 x x' Hr Hr' G Ef Sh X1 X2 D].
  - unfold goes_on in *. rewrite (proj1 (Ht r Hr)) in G. rewrite (proj1 (Ht r' Hr')) in G'. congruence.
  - apply D. now rewrite (proj1 (Ht r Hr)), (proj1 (Ht r' Hr')).
  - apply D. now rewrite (proj2 (Ht r Hr)), (proj2 (Ht r' Hr')).
  - apply D. pose proof (shown_rel _ _ _ _ _ Hm Sh) as Hm1. destruct (gets_top _ _ _ _ Hm1 X1) as (U & HU & ->). destruct (gets_top _ _ _ _ Hm1 X2) as (U' & HU' & ->).
    now rewrite (top_once _ _ _ HU HU').
Qed.
Lemma iteration_shows c e c' s : cshows c s -> iteration c e c' -> exists h s', serial_iteration s h s' /\ eshows e h /\ cshows c' s'.
Proof.
  intros (Hk & Ht & Hm) It. destruct It as [fl m1 t x d m2 e2 G Tm F Sh X1 X2 B]. pose proof (shown_rel _ _ _ _ _ Hm Sh) as Hm1.
  destruct (gets_top _ _ _ _ Hm1 (X1 0 rank0)) as (U & HU & EU). rewrite (X2 0 rank0) in EU. subst d.
  assert (Et : t = s_time s) by (rewrite <- (Tm 0 rank0); apply (proj1 (Ht 0 rank0))). subst t.
  assert (SI := si before plus zero due limits final le mag lim pre N vel flow advance s U ltac:(rewrite <- (proj1 (Ht 0 rank0)); exact (G 0 rank0)) HU). cbv zeta in SI.
  eexists. eexists. split; [exact SI|]. split; [|split; [cbn; now rewrite Hk|]].
  - unfold eshows. cbn. split; [|split; [auto|exact (Hshows _ _ _ Hm)]]. rewrite <- (F 0 rank0), (proj2 (Ht 0 rank0)). apply due_eq.
  - split; [|cbn; rewrite Hk in B; exact (proj2 (Hbody _ _ _ _ _ (Hstore _ _ _ Hm1) SI) _ _ B)].
    intros r Hr. cbn. rewrite (X2 r Hr), (proj1 (Ht r Hr)), (proj2 (Ht r Hr)), count_eq. auto.
Qed.
Lemma iterations_shows c tr c' s : cshows c s -> iterations c tr c' -> exists hs s', serial_iterations s hs s' /\ Forall2 eshows tr hs /\ cshows c' s'.
Proof.
  intros Hc It. induction It as [c|c tr c1 e c2 I1 IH I2]; [exists [], s; split; [constructor|split; [constructor|exact Hc]]|].
  destruct (IH Hc) as (hs & s1 & S1 & F1 & C1). destruct (iteration_shows _ _ _ _ C1 I2) as (h & s2 & S2 & F2 & C2).
  exists (hs ++ [h]), s2. split; [econstructor; eauto|]. split; [apply Forall2_app; auto|exact C2].
Qed.
Lemma iteration_goes c s : cshows c s -> before (s_time s) final = true -> exists e c', iteration c e c'.
Proof.
  intros (Hk & Ht & Hm) G. destruct (shown_exists (are_due due limits (s_timers s)) _ _ _ Hm) as (m1 & Sh). pose proof (shown_rel _ _ _ _ _ Hm Sh) as Hm1.
  destruct (stable_dt_exists dims loc g Hok Hg mag lim pre le mnT mx mn OrdT vel buf m1) as (d & Hd).
  destruct (gets_top _ _ _ _ Hm1 Hd) as (U & HU & EU). subst d.
  assert (SI := si before plus zero due limits final le mag lim pre N vel flow advance s U G HU). cbv zeta in SI.
  destruct (proj1 (Hbody _ _ _ _ _ (Hstore _ _ _ Hm1) SI)) as (m2 & e2 & B). rewrite <- Hk in B.
  eexists. eexists. apply (it dims loc g before plus zero due limits final mag mx lim mn pre vel buf show body c (are_due due limits (s_timers s)) m1 (s_time s) (fun _ => pre (lim U)) (pre (lim U)) m2 e2); auto.
  - intros r Hr. unfold goes_on. now rewrite (proj1 (Ht r Hr)).
  - intros r Hr. apply (proj1 (Ht r Hr)).
  - intros r Hr. now rewrite (proj2 (Ht r Hr)).
Qed.
Lemma serial_once s h s' h' s'' : serial_iteration s h s' -> serial_iteration s h' s'' -> h = h' /\ s' = s''.
Proof. intros A B. destruct A as [U G HU d]. destruct B as [U' G' HU' d']. subst d d'. pose proof (top_once _ _ _ HU HU') as E. rewrite E. auto. Qed.

Lemma app_one_inj {A} (l l' : list A) x x' : l ++ [x] = l' ++ [x'] -> l = l' /\ x = x'.
Proof. apply app_inj_tail. Qed.
(** Serial runs of the same length are the same. *)
Lemma serial_det s hs s' hs' s'' : serial_iterations s hs s' -> serial_iterations s hs' s'' -> length hs = length hs' -> hs = hs' /\ s' = s''.
Proof.
  intros A. revert hs' s''. induction A as [c|c tr c1 e c2 I1 IH I2]; intros hs' s'' B L.
  - destruct B as [c|c tr c1 e c2 I1 I2]; [auto|]. rewrite app_length in L. cbn in L. lia.
  - destruct B as [c|c tr' c1' e' c2' J1 J2]; [rewrite app_length in L; cbn in L; lia|].
    rewrite !app_length in L. cbn in L. destruct (IH _ _ J1 ltac:(lia)) as [-> ->]. destruct (serial_once _ _ _ _ _ I2 J2) as [-> ->]. auto.
Qed.
(** As many iterations as the serial loop makes. *)
Lemma iterations_exist c s hs s' : cshows c s -> serial_iterations s hs s' -> exists tr c', iterations c tr c' /\ Forall2 eshows tr hs /\ cshows c' s'.
Proof.
  intros Hc A. induction A as [s|s hs s1 h s2 I1 IH I2]; [exists [], c; split; [constructor|split; [constructor|exact Hc]]|].
  destruct (IH Hc) as (tr & c1 & J1 & F1 & C1). assert (G : before (s_time s1) final = true) by (destruct I2; assumption).
  destruct (iteration_goes _ _ C1 G) as (e & c2 & J2). destruct (iteration_shows _ _ _ _ C1 J2) as (h' & s2' & I2' & F2 & C2).
  destruct (serial_once _ _ _ _ _ I2 I2') as [-> ->]. exists (tr ++ [e]), c2. split; [econstructor; eauto|]. split; [apply Forall2_app; auto|exact C2].
Qed.
Lemma over_iff c s : cshows c s -> (over dims before final c <-> serial_over before final s).
Proof.
  intros (_ & Ht & _). unfold over, goes_on, serial_over. split; [intros H; rewrite <- (proj1 (Ht 0 rank0)); exact (H 0 rank0)|].
  intros H r Hr. now rewrite (proj1 (Ht r Hr)).
Qed.
(** Serial runs are prefixes of each other. *)
Lemma serial_over_last s hs s' : serial_iterations s hs s' -> serial_over before final s' -> forall hs' s'', serial_iterations s hs' s'' -> (length hs' <= length hs)%nat.
Proof.
  intros A O hs' s'' B. revert hs s' A O. induction B as [c|c tr c1 e c2 I1 IH I2]; intros hs s' A O; [cbn; lia|].
  rewrite app_length. cbn. pose proof (IH _ _ A O) as L. destruct (Nat.eq_dec (length tr) (length hs)) as [E|]; [|lia]. exfalso.
  destruct (serial_det _ _ _ _ _ I1 A E) as [_ ->]. destruct I2 as [U G HU d]. unfold serial_over in O. congruence.
Qed.

Lemma same_length {A B} (R : A -> B -> Prop) l l' : Forall2 R l l' -> length l = length l'.
Proof. induction 1; cbn; congruence. Qed.
Notation over := (over dims before final).
Notation serial_over := (serial_over before final).
Lemma all_lockstep c0 s0 tr c : cshows c0 s0 -> iterations c0 tr c ->
  exists hs s, serial_iterations s0 hs s /\ Forall2 eshows tr hs /\ cshows c s /\ ~ apart c /\ (over c \/ exists e c', iteration c e c').
Proof.
  intros H It. destruct (iterations_shows _ _ _ _ H It) as (hs & s & S1 & F & C).
  exists hs, s. split; [exact S1|]. split; [exact F|]. split; [exact C|]. split; [now apply (not_apart c s)|].
  destruct (before (s_time s) final) eqn:G; [right; now apply (iteration_goes c s)|left; now apply (over_iff c s)].
Qed.
Lemma all_finish c0 s0 : cshows c0 s0 ->
  ((exists tr c, iterations c0 tr c /\ over c) <-> (exists hs s, serial_iterations s0 hs s /\ serial_over s)) /\
  (forall hs s, serial_iterations s0 hs s -> serial_over s -> forall tr c, iterations c0 tr c ->
     (length tr <= length hs)%nat /\ (over c <-> length tr = length hs)).
Proof.
  intros H. split; [split|].
  - intros (tr & c & It & Ov). destruct (all_lockstep _ _ _ _ H It) as (hs & s & S1 & F & C & _). exists hs, s. split; [exact S1|]. now apply (over_iff c s C).
  - intros (hs & s & S1 & Ov). destruct (iterations_exist _ _ _ _ H S1) as (tr & c & It & _ & C). exists tr, c. split; [exact It|]. now apply (over_iff c s C).
  - intros hs s S1 Ov tr c It. destruct (all_lockstep _ _ _ _ H It) as (hs' & s' & S2 & F & C & _). pose proof (same_length _ _ _ F) as L.
    pose proof (serial_over_last _ _ _ S1 Ov _ _ S2) as L'. split; [congruence|]. rewrite (over_iff c s' C). split.
    + intros O'. pose proof (serial_over_last _ _ _ S2 O' _ _ S1). rewrite L. lia.
    + intros E. rewrite L in E. destruct (serial_det _ _ _ _ _ S2 S1 E) as [_ ->]. exact Ov.
Qed.
End P.

(** Two runs that show the same serial run. *)
Section I.
Context {T W X Y Y' : Type}.
Variables (dims loc dims' loc' : list Z).
Variables (before : W -> W -> bool) (plus : W -> W -> W) (zero : W) (due : W -> W -> bool) (limits : list W) (final : W).
Variables (le : T -> T -> Prop) (mnT mx : T -> T -> T) (mag : list T -> T) (lim : T -> W) (pre : W -> W) (vel : list nat).
Variables (flow : X -> nat -> list Z -> T) (advance : nat -> W -> W -> X -> X).
Hypothesis OrdT : ordered le mnT mx.
Hypothesis Hok : grid_ok dims loc.
Hypothesis Hok' : grid_ok dims' loc'.
Variables (Rel : mem T -> Y -> sconfig W X -> Prop) (Shows : mem T -> Y -> X -> Prop) (Rel' : mem T -> Y' -> sconfig W X -> Prop) (Shows' : mem T -> Y' -> X -> Prop).
Hypothesis Hshows : forall m e s, Rel m e s -> Shows m e (s_state s).
Hypothesis Hshows' : forall m e s, Rel' m e s -> Shows' m e (s_state s).
Variable agr : mem T -> Y -> mem T -> Y' -> Prop.
Hypothesis AG : forall m e m' e' x, Shows m e x -> Shows' m' e' x -> agr m e m' e'.
Notation srun := (serial_iterations before plus zero due limits final le mag lim pre (global_size dims loc) vel flow advance).
Lemma same_serial s0 hs s hs' s' tr tr' (c : config T W Y) (c' : config T W Y') :
  srun s0 hs s -> srun s0 hs' s' -> Forall2 (eshows Shows) tr hs -> Forall2 (eshows Shows') tr' hs' -> cshows dims Rel c s -> cshows dims' Rel' c' s' ->
  (length tr = length tr' \/ (over dims before final c /\ over dims' before final c')) ->
  Forall2 (fun e e' => e_due e = e_due e' /\ e_dt e = e_dt e' /\ agr (e_mem e) (e_rest e) (e_mem e') (e_rest e')) tr tr' /\
  (forall r r', rank dims r -> rank dims' r' -> c_time c r = c_time c' r' /\ c_timers c r = c_timers c' r') /\
  agr (c_mem c) (c_rest c) (c_mem c') (c_rest c').
Proof.
  intros S1 S2 F1 F2 C1 C2 Hl.
  assert (E : length hs = length hs').
  { destruct Hl as [Hl|[O1 O2]]; [rewrite <- (same_length _ _ _ F1), <- (same_length _ _ _ F2); exact Hl|].
    apply (over_iff dims loc before final Rel Hok c s C1) in O1. apply (over_iff dims' loc' before final Rel' Hok' c' s' C2) in O2.
    pose proof (serial_over_last dims loc before plus zero due limits final le mnT mx mag lim pre vel flow advance OrdT s0 hs s S1 O1 hs' s' S2).
    pose proof (serial_over_last dims loc before plus zero due limits final le mnT mx mag lim pre vel flow advance OrdT s0 hs' s' S2 O2 hs s S1). lia. }
  destruct (serial_det dims loc before plus zero due limits final le mnT mx mag lim pre vel flow advance OrdT s0 hs s hs' s' S1 S2 E) as [<- <-].
  split; [|split].
  - clear - F1 F2 AG. revert tr' F2. induction F1 as [|e h tr hs He F1 IH]; intros tr' F2; inversion F2 as [|e' h' l1 l2 He' F2' Ea Eb]; subst; constructor; auto.
    destruct He as (A & B & C), He' as (A' & B' & C'). split; [congruence|]. split; [congruence|]. eapply AG; eauto.
  - intros r r' Hr Hr'. destruct (proj1 (proj2 C1) r Hr), (proj1 (proj2 C2) r' Hr'). split; congruence.
  - eapply AG; [exact (Hshows _ _ _ (proj2 (proj2 C1)))|exact (Hshows' _ _ _ (proj2 (proj2 C2)))].
Qed.
End I.
