(** The driver loop follows the serial one: any dimension, from the theorems on coupled runs. *)
From Coq Require Import QArith FunctionalExtensionality.
From Verif Require Import Base SpecGrid SpecGhost SpecStencil SpecStep SpecReduce SpecDiag SpecIB SpecVbf SpecCoupled SpecBodies SpecLoop SpecAdaptive SpecDriver
  Comm Blocking Spmd Lagrangian Vbf Coupled SpecTracks Loop Diagnostics DiagProofs Adaptive AdaptiveProofs Driver.
From Verif Require Import GhostGeo HaloKernels NSSteps CoupledProofs CoupledThms LoopProofs BodiesProofs AdaptiveThms.
Open Scope Z_scope.
Arguments run_lops : simpl never.

Lemma places_map {T F} (add sub mul : T -> T -> T) (z : T) scale sum dx shift vels (step : (Z -> list Z -> T) -> (nat -> list Z -> T) -> F -> nat -> list Z -> T) bodies carry es :
  forall st, cs_map (serial_coupled add sub mul z scale sum dx shift vels step bodies carry st es) = places_after (cs_map st) es.
Proof. induction es as [|e es IH]; intros st; [reflexivity|]. unfold serial_coupled, places_after in *. cbn [fold_left]. rewrite IH. destruct e; reflexivity. Qed.

Section G.
Context {T F F' B L V W : Type}.
Variables (add sub mul : T -> T -> T) (z : T) (scale : T -> T) (sum : list T -> T) (dx shift : Q).
Variables (dims loc : list Z) (g : Z) (vels Fs fs : list nat) (nb : nat) (actors : nat -> actor T) (bufsz : list (list Z)).
Variable exch : list (place * place).
Variable spread : actor T -> pose T -> Z -> list (@bop T).
Variable flow : F' -> list (@phase T).
Variable rules : nat -> body_rules T B L.
Variables (num : nat -> W -> W -> nat) (script : nat -> W -> W -> list V -> action T F) (look : list (list T) -> V) (none : L).
Variables (ord : nat -> list Z -> list Z) (lifts : (list V -> F -> F') -> Prop).
Variable flow_step : (Z -> list Z -> T) -> (nat -> list Z -> T) -> F -> nat -> list Z -> T.
Variable flow_step' : (Z -> list Z -> T) -> (nat -> list Z -> T) -> F' -> nat -> list Z -> T.
Variable flow_ok : F' -> Prop.
Variables (before : W -> W -> bool) (plus : W -> W -> W) (zero : W) (due : W -> W -> bool) (limits : list W) (final : W).
Variables (le : T -> T -> Prop) (mnT mx : T -> T -> T) (leW : W -> W -> Prop) (mn mxW : W -> W -> W).
Variables (mag : list T -> T) (lim : T -> W) (pre : W -> W) (buf : nat).
Hypothesis Hlift : forall lift, lifts lift -> forall h s f u, flow_step f u s = flow_step' f u (lift h s).
Hypothesis Hsome : exists lift, lifts lift.
Hypothesis Hok : grid_ok dims loc.
Hypothesis Hg : 1 <= g.
Hypothesis OrdT : ordered le mnT mx.
Hypothesis OrdW : ordered leW mn mxW.
Hypothesis Anti : forall k l, le (mag k) (mag l) -> leW (lim (mag l)) (lim (mag k)).
Hypothesis Hvel : incl vels Fs.
Notation n := (zprod dims).
Notation nc := (Z.of_nat (length fs)).
Notation N := (global_size dims loc).
Notation bodies := (fun b => a_body (actors b)).
Notation segs := (coupled_segs add sub mul z scale sum dx shift dims loc g vels fs actors exch spread flow).
Notation serial' := (serial_coupled add sub mul z scale sum dx shift vels flow_step' bodies (fun _ _ j => j)).
Notation sees := (tracks z dims loc g Fs fs nb actors bufsz).
Notation off := (off_edge z dims loc).
Notation advance := (driven nc N Fs bodies rules look num script add sub mul z scale sum dx shift vels flow_step).
Notation dcalls := (driver_calls add sub mul z scale sum dx shift dims loc vels Fs fs actors rules num script look ord flow_step).
Notation sstep := (serial_iteration before plus zero due limits final le mag lim pre N vels (fun x => cs_u (fst x)) advance).
Notation prun := (placed_run add sub mul z scale sum dx shift dims loc vels Fs fs actors rules num script look ord lifts flow_step sstep).
Notation body := (drive add sub mul z scale sum dx shift dims loc g vels Fs fs actors exch spread flow rules num script look none ord lifts).
Notation arrs := (driver_arrays Fs fs nb actors).
Notation keeps := (keeps Fs fs nb actors).
Notation legal := (legal dx shift dims loc nb actors flow_ok).
Hypothesis Hbuf : ~ In buf arrs.
Hypothesis Hrun : forall ss (m : mem T) st es, legal st es -> sees ss m st -> off st ->
  exists m', segs_end n (segs ss es) m m' /\ sees (final_maps dims ss es) m' (serial' st es).
Hypothesis Hoff : forall st es, Forall (event_ok dims loc nb actors dx shift flow_ok) es -> off st -> off (serial' st es).

Lemma in_arrs b f : (b < nb)%nat -> In f (actor_ids (actors b)) -> In f arrs.
Proof. intros Hb H. apply in_or_app. right. apply in_or_app. right. apply in_flat_map. exists b. split; [apply in_seq; lia|exact H]. Qed.
Lemma keeps_tracks ss m m1 st : keeps m m1 -> sees ss m st -> sees ss m1 st.
Proof.
  intros K [T1 T2 T3 T4 T5 T6]. constructor; auto.
  - intros r f I Hr Hf HI HQ. rewrite <- (T1 r f I Hr Hf HI HQ). unfold field. apply K. apply in_or_app. now left.
  - assert (In1 : forall f, In f fs -> In f arrs) by (intros f Hf; apply in_or_app; right; apply in_or_app; now left). destruct T2 as [A A']. split.
    + intros c f r I Hc Hn Hr HI. rewrite <- (A c f r I Hc Hn Hr HI). unfold by_rank. apply K, In1. eapply nth_error_In; eauto.
    + intros f r I Hf Hr HI HQ. rewrite <- (A' f r I Hf Hr HI HQ). unfold by_rank. now apply K, In1.
  - intros b Hb. apply (fstate_agree sub mul z dims fs _ _ _ _ _ (by_rank m)); auto. intros r [x k] Ha. unfold by_rank. apply K. apply (in_arrs b); auto. apply in_or_app. now left.
  - intros b Hb. apply (bufs_agree z dims _ _ (by_rank m)); auto. intros r [x k] Ha. unfold by_rank. apply K. apply (in_arrs b); auto. apply in_or_app. now right.
Qed.
Lemma store_keeps m : keeps m (store_magnitude loc g mag vels buf m).
Proof. intros r f i Hf. apply store_frame. cbn. intros ->. exact (Hbuf Hf). Qed.

(** The state of the ranks shows a serial state; the nodes are at the places [a]. *)
Definition dshows (a : nat -> list Z) (m : mem T) (e : (nat -> vb) * (Z -> nat -> B)) (x : cstate T * (nat -> B)) : Prop :=
  exists st, same_state (fst x) st /\ cs_map st = a /\ sees (fst e) m st /\ (forall b, (b < nb)%nat -> snd e (a_master (actors b)) b = snd x b).

Variables (s0 : sconfig W (cstate T * (nat -> B))) (a0 : nat -> list Z).
Hypothesis Hlegal : forall hs s a h s', prun s0 a0 hs s a -> sstep s h s' -> forall lift, lifts lift ->
  Forall (event_ok dims loc nb actors dx shift flow_ok) (dcalls lift s (h_dt h)) /\ ghosts_ok actors false (dcalls lift s (h_dt h)) /\ moves_ok n a (dcalls lift s (h_dt h)).
Definition drel (m : mem T) (e : (nat -> vb) * (Z -> nat -> B)) (s : sconfig W (cstate T * (nat -> B))) : Prop :=
  exists hs a, prun s0 a0 hs s a /\ dshows a m e (s_state s) /\ off (fst (s_state s)).

Lemma calls_from lift sc kk x x' : same_loop (B := B) (W := V) x x' ->
  placed_calls add sub mul z scale sum dx shift dims loc vels Fs fs actors rules sc look ord lift flow_step kk x =
  placed_calls add sub mul z scale sum dx shift dims loc vels Fs fs actors rules sc look ord (lift : list V -> F -> F') flow_step kk x'.
Proof.
  intros H. induction kk as [|kk IH]; [reflexivity|]. cbn [placed_calls]. rewrite IH.
  destruct (loop_same add sub mul z scale sum dx shift nc N vels Fs bodies bodies rules sc look flow_step (fun b => eq_refl) kk x x' H) as (_ & E2 & E3).
  now rewrite E2, E3.
Qed.
Lemma same_off (st st' : cstate T) : same_state st st' -> off st -> off st'.
Proof. intros (_ & E & _) H. unfold off_edge. rewrite <- E. exact H. Qed.
Lemma same_refl (st : cstate T) : same_state st st. Proof. repeat split. Qed.
Lemma same_trans (a b c : cstate T) : same_state a b -> same_state b c -> same_state a c.
Proof. unfold same_state. intuition congruence. Qed.
Lemma same_sym (a b : cstate T) : same_state a b -> same_state b a.
Proof. unfold same_state. intuition congruence. Qed.

(** One iteration, for given values in flight. *)
Lemma drive_ok m e s h s' lift : drel m e s -> sstep s h s' -> lifts lift ->
  exists q', loop_ends add sub mul z scale sum dx shift dims loc g vels Fs fs actors exch spread flow rules (script (s_count s) (s_time s) (h_dt h)) look none ord lift
      (num (s_count s) (s_time s) (h_dt h)) {| q_mem := m; q_maps := fst e; q_body := snd e; q_seen := [] |} q' /\
    drel (q_mem q') (q_maps q', q_body q') s'.
Proof.
  intros (hs & a & R & (st & Hst & Ha & Ht & Hb) & Ho) It Hl.
  destruct (Hlegal _ _ _ _ _ R It lift Hl) as (L1 & L2 & L3).
  set (sc := script (s_count s) (s_time s) (h_dt h)) in *. set (kk := num (s_count s) (s_time s) (h_dt h)) in *.
  set (x := {| l_sim := st; l_body := snd (s_state s); l_seen := [] |} : lstate T B V).
  assert (SX : same_loop (entering (s_state s)) x) by (split; [exact Hst|split; reflexivity]).
  assert (Ec : dcalls lift s (h_dt h) = placed_calls add sub mul z scale sum dx shift dims loc vels Fs fs actors rules sc look ord lift flow_step kk x) by (apply calls_from; exact SX).
  assert (Lx : legal st (placed_calls add sub mul z scale sum dx shift dims loc vels Fs fs actors rules sc look ord lift flow_step kk x)).
  { rewrite <- Ec. split; [exact L1|]. split; [exact L2|]. rewrite Ha. exact L3. }
  pose proof (same_off _ _ Hst Ho) as Hos.
  destruct (loop_ok add sub mul z scale sum dx shift dims loc g vels Fs fs nb actors bufsz exch spread flow rules sc look none ord lift flow_step flow_step' flow_ok (Hlift lift Hl) Hok Hg
    (fst e) m st (fun es H => Hrun (fst e) m st es H Ht Hos) kk x {| q_mem := m; q_maps := fst e; q_body := snd e; q_seen := [] |} eq_refl eq_refl eq_refl eq_refl Hb Lx)
    as (q' & P & Em & Sg & _ & Bb & Ss).
  exists q'. split; [exact P|].
  destruct (Hrun (fst e) m st _ Lx Ht Hos) as (m1 & S1 & T1). rewrite (segs_det _ _ _ _ _ S1 Sg) in T1. rewrite <- Em in T1.
  pose proof (loop_same add sub mul z scale sum dx shift nc N vels Fs bodies bodies rules sc look flow_step (fun b => eq_refl) kk _ _ SX) as (E1 & E2 & E3).
  assert (Hs' : s_state s' = advance (s_count s) (s_time s) (h_dt h) (s_state s)) by (destruct It; reflexivity).
  exists (hs ++ [h]), (places_after a (dcalls lift s (h_dt h))). split; [econstructor; eauto|].
  assert (Sf : same_state (fst (s_state s')) (serial' st (placed_calls add sub mul z scale sum dx shift dims loc vels Fs fs actors rules sc look ord lift flow_step kk x))).
  { rewrite Hs'. unfold driven. cbv zeta. cbn [fst]. fold sc kk. eapply same_trans; [exact E1|exact Ss]. }
  split.
  - exists (serial' st (placed_calls add sub mul z scale sum dx shift dims loc vels Fs fs actors rules sc look ord lift flow_step kk x)).
    split; [exact Sf|]. split; [rewrite places_map, Ha, Ec; reflexivity|]. split; [exact T1|].
    intros b Hbn. cbn [snd]. rewrite (Bb b Hbn), Hs'. unfold driven. cbv zeta. cbn [snd]. fold sc kk. now rewrite E2.
  - eapply same_off; [apply same_sym; exact Sf|]. apply Hoff; [rewrite <- Ec; exact L1|exact Hos].
Qed.

Lemma Drep m e s : drel m e s -> represents dims loc g vels m (cs_u (fst (s_state s))).
Proof.
  intros (hs & a & _ & (st & (E & _) & _ & Ht & _) & _). rewrite E. apply (rep_sub dims loc g Fs Hg vels m (cs_u st) Hvel).
  exact (tr_flow _ _ _ _ _ _ _ _ _ _ _ _ Ht).
Qed.
Lemma Dkeep m m1 e s : drel m e s -> keeps m m1 -> drel m1 e s.
Proof. intros (hs & a & R & (st & H1 & H2 & H3 & H4) & Ho) K. exists hs, a. split; [exact R|]. split; [|exact Ho]. exists st. split; [exact H1|]. split; [exact H2|]. split; [exact (keeps_tracks _ _ _ _ K H3)|exact H4]. Qed.
Lemma Dshow m e s : drel m e s -> (exists m1, keeps m m1) /\ (forall m1, keeps m m1 -> drel m1 e s).
Proof. intros H. split; [exists m; intros r f i _; reflexivity|]. intros m1. now apply Dkeep. Qed.
Lemma Dstore m e s : drel m e s -> drel (store_magnitude loc g mag vels buf m) e s.
Proof. intros H. apply (Dkeep m); [exact H|]. apply store_keeps. Qed.
Lemma Dbody m e s h s' : drel m e s -> sstep s h s' ->
  (exists m1 e1, body (s_count s) (s_time s) (h_dt h) m e m1 e1) /\ (forall m1 e1, body (s_count s) (s_time s) (h_dt h) m e m1 e1 -> drel m1 e1 s').
Proof.
  intros H It. split.
  - destruct Hsome as (lift & Hl). destruct (drive_ok m e s h s' lift H It Hl) as (q' & P & _). exists (q_mem q'), (q_maps q', q_body q'), lift, q'. auto.
  - intros m1 e1 (lift & q & Hl & P & -> & ->). destruct (drive_ok m e s h s' lift H It Hl) as (q' & P' & D).
    assert (q = q') as ->; [|exact D]. eapply loop_det; [exact P|exact P'].
Qed.
Definition eventually (m : mem T) (e : (nat -> vb) * (Z -> nat -> B)) (x : cstate T * (nat -> B)) : Prop := exists a, dshows a m e x.
Lemma Dshows m e s : drel m e s -> eventually m e (s_state s).
Proof. intros (hs & a & _ & H & _). now exists a. Qed.
Notation rstep := (iteration dims loc g before plus zero due limits final mag mx lim mn pre vels buf keeps body).
Notation rrun := (iterations dims loc g before plus zero due limits final mag mx lim mn pre vels buf keeps body).
Notation rapart := (apart (E := (nat -> vb) * (Z -> nat -> B)) dims loc g before due limits final mag mx lim mn pre vels buf keeps).
Notation srun := (serial_iterations before plus zero due limits final le mag lim pre N vels (fun x => cs_u (fst x)) advance).

Lemma drive_starts c0 : c_count c0 = s_count s0 -> (forall r, rank dims r -> c_time c0 r = s_time s0 /\ c_timers c0 r = s_timers s0) -> dshows a0 (c_mem c0) (c_rest c0) (s_state s0) -> off (fst (s_state s0)) ->
  cshows dims drel c0 s0.
Proof. intros H1 H2 H3 H4. split; [exact H1|]. split; [exact H2|]. exists [], a0. split; [constructor|]. auto. Qed.
Lemma drive_lockstep c0 tr c : cshows dims drel c0 s0 -> rrun c0 tr c ->
  exists hs s, srun s0 hs s /\ Forall2 (eshows eventually) tr hs /\ cshows dims drel c s /\ ~ rapart c /\ (over dims before final c \/ exists e c', rstep c e c').
Proof.
  exact (all_lockstep dims loc g before plus zero due limits final le mnT mx leW mn mxW mag lim pre vels buf keeps body (fun x => cs_u (fst x)) advance drel eventually
    Hok Hg OrdT OrdW Anti Drep Dshow Dstore Dbody Dshows c0 s0 tr c).
Qed.
Lemma drive_finishes c0 : cshows dims drel c0 s0 ->
  ((exists tr c, rrun c0 tr c /\ over dims before final c) <-> (exists hs s, srun s0 hs s /\ serial_over before final s)) /\
  (forall hs s, srun s0 hs s -> serial_over before final s -> forall tr c, rrun c0 tr c -> (length tr <= length hs)%nat /\ (over dims before final c <-> length tr = length hs)).
Proof.
  exact (all_finish dims loc g before plus zero due limits final le mnT mx leW mn mxW mag lim pre vels buf keeps body (fun x => cs_u (fst x)) advance drel eventually
    Hok Hg OrdT OrdW Anti Drep Dshow Dstore Dbody Dshows c0 s0).
Qed.
End G.
