(** Property C59: simulations whose time step is computed from the flow. *)
From Coq Require Import Reals Lra.
From Verif Require Import Base SpecGrid SpecGhost SpecStencil SpecStep SpecPenalise SpecFilter SpecDouble SpecNS SpecReduce SpecDiag SpecLoop SpecAdaptive
  Comm Spmd PyNum Doubling KernelList Stencil NavierStokes Diagnostics Loop Adaptive.
From Verif Require Import SpecPassive TimeStep.
From Verif Require KernelProofs HaloThms DiagProofs AdaptiveThms AdaptiveReals PropsStep PropsNS.
Open Scope Z_scope.

(** A configuration of the ranks shows a serial one: as many iterations; the time and the timers on every rank; the flow arrays. *)
Definition all_ranks_at {T W} (dims loc : list Z) (g : Z) (Fs : list nat) (c : config T W unit) (s : sconfig W (nat -> list Z -> T)) : Prop :=
  c_count c = s_count s /\ (forall r, 0 <= r < zprod dims -> c_time c r = s_time s /\ c_timers c r = s_timers s) /\ represents_ext false dims loc g Fs (c_mem c) (s_state s).
(** In an iteration the same timers were due, with the same flow, and the same time step was taken. *)
Definition same_happening {T W} (dims loc : list Z) (g : Z) (Fs : list nat) (e : seen T W unit) (h : happening W (nat -> list Z -> T)) : Prop :=
  e_due e = h_due h /\ e_dt e = h_dt h /\ represents_ext false dims loc g Fs (e_mem e) (h_state h).
Definition same_seen {T W} (dims loc dims' loc' : list Z) (g : Z) (Fs : list nat) (e e' : seen T W unit) : Prop :=
  e_due e = e_due e' /\ e_dt e = e_dt e' /\ agree dims loc dims' loc' g Fs (e_mem e) (e_mem e').

(** The numbers: any totally ordered values T and times W, any additions, comparisons and limit formula (antitone in the speed). *)
Section Two.
Context {T W C : Type}.
Variables (before : W -> W -> bool) (plus : W -> W -> W) (zero : W) (due : W -> W -> bool) (limits : list W) (final : W).
Variables (le : T -> T -> Prop) (mnT mx : T -> T -> T) (leW : W -> W -> Prop) (mn mxW : W -> W -> W) (mag : list T -> T) (lim : T -> W) (pre : W -> W).
Hypothesis values_ordered : ordered le mnT mx.
Hypothesis times_ordered : ordered leW mn mxW.
Hypothesis limit_antitone : forall k l, le (mag k) (mag l) -> leW (lim (mag l)) (lim (mag k)).
Variables (add : T -> T -> T) (z : T) (damp : C -> C -> T -> T) (coord : nat -> Z -> C) (width : Z)
          (conv : (list Z -> T) -> list Z -> T) (Kcx Kcy : @kfun T).
Variables (w psi vx vy fx fy buf D S : nat).
Notation Fs := [w; psi; vx; vy].
(* the step of iteration k, at time t with time step d: its kernels, forcing and free stream may depend on the flow before it *)
Variable mk : nat -> W -> W -> list (list T) -> @ns2_step T.
Notation advance N := (fun k t d u => serial_ns_2d add z damp coord width conv Kcx Kcy N w psi vx vy fx fy u (mk k t d (whole N Fs u))).
Notation setting py px ny nx g dd xg := (ns2_setting py px ny nx g width dd xg coord w psi vx vy fx fy buf D S Kcx Kcy).
Notation steps_ok py px ny nx := (forall k t d ls, ns2_step_ok z (global_size [py; px] [ny; nx]) w vx vy fx fy (mk k t d ls)).
(* forcing is deposited (the flow arrays being kept), then time_step *)
Definition body_2d py px ny nx g full dd xg (k : nat) (t d : W) (m : mem T) (_ : unit) (m' : mem T) (_ : unit) : Prop :=
  history [py; px] (time_step_2d add z damp conv py px ny nx g full dd width xg w psi vx vy fx fy buf D S Kcx Kcy)
    (fun s => between z [py; px] [ny; nx] g Fs [fx; fy] (forcing_of (n2_frc s)))
    [mk k t d (whole (global_size [py; px] [ny; nx]) Fs (assembled z [py; px] [ny; nx] g m))] m m'.
Notation ranks_run py px ny nx g full dd xg := (iterations [py; px] [ny; nx] g before plus zero due limits final mag mx lim mn pre [vx; vy] buf
  (kept [py; px] [ny; nx] g Fs) (body_2d py px ny nx g full dd xg)).
Notation ranks_step py px ny nx g full dd xg := (iteration [py; px] [ny; nx] g before plus zero due limits final mag mx lim mn pre [vx; vy] buf
  (kept [py; px] [ny; nx] g Fs) (body_2d py px ny nx g full dd xg)).
Notation ranks_apart py px ny nx g := (apart [py; px] [ny; nx] g before due limits final mag mx lim mn pre [vx; vy] buf (kept [py; px] [ny; nx] g Fs)).
Notation serial_run N := (serial_iterations before plus zero due limits final le mag lim pre N [vx; vy] (fun u => u) (advance N)).

Lemma arrays_2d py px ny nx g dd xg : setting py px ny nx g dd xg -> ~ In buf Fs.
Proof.
  intros HS. pose proof (s2_arrays _ _ _ _ _ _ _ _ _ _ _ _ _ _ _ _ _ _ _ _ HS) as N. clear HS. change [w; psi; vx; vy; fx; fy; buf; D; S] with ([w; psi; vx; vy] ++ [fx; fy; buf; D; S]) in N.
  intros H. exact (AdaptiveThms.nodup_sep _ _ buf N H ltac:(cbn; tauto)).
Qed.
Lemma body_ok_2d py px ny nx g full dd xg : setting py px ny nx g dd xg -> steps_ok py px ny nx -> forall k t d (m : mem T) u (e : unit), represents_ext false [py; px] [ny; nx] g Fs m u ->
  (exists m1 e1, body_2d py px ny nx g full dd xg k t d m e m1 e1) /\
  (forall m1 e1, body_2d py px ny nx g full dd xg k t d m e m1 e1 -> represents_ext false [py; px] [ny; nx] g Fs m1 (advance (global_size [py; px] [ny; nx]) k t d u)).
Proof.
  intros HS Hk k t d m u e Hm. pose proof HS as [G Hg _ _ _ _ _ _ _]. unfold body_2d.
  rewrite (AdaptiveThms.whole_same z [py; px] [ny; nx] g Fs (KernelProofs.g2_ok _ _ _ _ _ G) ltac:(lia) m u Hm).
  destruct (PropsNS.C47_history_2d add z damp coord width conv Kcx Kcy w psi vx vy fx fy buf D S py px ny nx g full dd xg [mk k t d (whole (global_size [py; px] [ny; nx]) Fs u)] m u HS (Forall_cons _ (Hk _ _ _ _) (Forall_nil _)) Hm) as [(m1 & H1) H2].
  split; [exists m1, tt; exact H1|]. intros m2 e2 H. exact (H2 m2 H).
Qed.

(** C59 (2D).  Whatever the ranks do is an initial part of the serial run: the ranks are at the same time and timers, no two of them go apart
    (leave the loop, have a due timer, choose a time step differently), and unless the loop is over on all of them, all can go on. *)
Theorem C59_lockstep_2d py px ny nx g full dd xg (c0 : config T W unit) s0 tr c :
  setting py px ny nx g dd xg -> steps_ok py px ny nx -> all_ranks_at [py; px] [ny; nx] g Fs c0 s0 ->
  ranks_run py px ny nx g full dd xg c0 tr c ->
  exists hs s, serial_run (global_size [py; px] [ny; nx]) s0 hs s /\ Forall2 (same_happening [py; px] [ny; nx] g Fs) tr hs /\ all_ranks_at [py; px] [ny; nx] g Fs c s /\
    ~ ranks_apart py px ny nx g c /\ (over [py; px] before final c \/ exists e c', ranks_step py px ny nx g full dd xg c e c').
Proof.
  intros HS Hk H It. pose proof HS as [G Hg _ _ _ _ _ _ _].
  exact (AdaptiveThms.lockstep [py; px] [ny; nx] g Fs (KernelProofs.g2_ok _ _ _ _ _ G) ltac:(lia) before plus zero due limits final le mnT mx leW mn mxW mag lim pre [vx; vy] buf
    values_ordered times_ordered limit_antitone ltac:(intros f Hf; cbn in *; tauto) (arrays_2d _ _ _ _ _ _ _ HS) _ _ (body_ok_2d _ _ _ _ _ full _ _ HS Hk) c0 s0 tr c H It).
Qed.
(** C59 (2D).  The loop ends exactly if the serial loop does, and then after as many iterations. *)
Theorem C59_ends_as_serial_2d py px ny nx g full dd xg (c0 : config T W unit) s0 :
  setting py px ny nx g dd xg -> steps_ok py px ny nx -> all_ranks_at [py; px] [ny; nx] g Fs c0 s0 ->
  ((exists tr c, ranks_run py px ny nx g full dd xg c0 tr c /\ over [py; px] before final c) <->
   (exists hs s, serial_run (global_size [py; px] [ny; nx]) s0 hs s /\ serial_over before final s)) /\
  (forall hs s, serial_run (global_size [py; px] [ny; nx]) s0 hs s -> serial_over before final s -> forall tr c, ranks_run py px ny nx g full dd xg c0 tr c ->
     (length tr <= length hs)%nat /\ (over [py; px] before final c <-> length tr = length hs)).
Proof.
  intros HS Hk H. pose proof HS as [G Hg _ _ _ _ _ _ _].
  exact (AdaptiveThms.finishes [py; px] [ny; nx] g Fs (KernelProofs.g2_ok _ _ _ _ _ G) ltac:(lia) before plus zero due limits final le mnT mx leW mn mxW mag lim pre [vx; vy] buf
    values_ordered times_ordered limit_antitone ltac:(intros f Hf; cbn in *; tauto) (arrays_2d _ _ _ _ _ _ _ HS) _ _ (body_ok_2d _ _ _ _ _ full _ _ HS Hk) c0 s0 H).
Qed.
(** C59 (2D).  Two decompositions of one domain: after as many iterations, or when both are over, the same timers were due in the same
    iterations, with the same flow and time steps; time and flow are the same. *)
Theorem C59_decomposition_independent_2d py px ny nx full dd xg py' px' ny' nx' full' dd' xg' g (c0 c0' : config T W unit) s0 tr tr' c c' :
  setting py px ny nx g dd xg -> setting py' px' ny' nx' g dd' xg' -> global_size [py; px] [ny; nx] = global_size [py'; px'] [ny'; nx'] -> steps_ok py px ny nx ->
  all_ranks_at [py; px] [ny; nx] g Fs c0 s0 -> all_ranks_at [py'; px'] [ny'; nx'] g Fs c0' s0 ->
  ranks_run py px ny nx g full dd xg c0 tr c -> ranks_run py' px' ny' nx' g full' dd' xg' c0' tr' c' ->
  length tr = length tr' \/ (over [py; px] before final c /\ over [py'; px'] before final c') ->
  Forall2 (same_seen [py; px] [ny; nx] [py'; px'] [ny'; nx'] g Fs) tr tr' /\
  (forall r r', 0 <= r < zprod [py; px] -> 0 <= r' < zprod [py'; px'] -> c_time c r = c_time c' r' /\ c_timers c r = c_timers c' r') /\
  agree [py; px] [ny; nx] [py'; px'] [ny'; nx'] g Fs (c_mem c) (c_mem c').
Proof.
  intros HS HS' EN Hk H H' It It' Hl. pose proof HS as [G Hg _ _ _ _ _ _ _]. pose proof HS' as [G' _ _ _ _ _ _ _ _]. pose proof Hk as Hk'. rewrite EN in Hk'.
  pose proof (body_ok_2d _ _ _ _ _ full' _ _ HS' Hk') as B'. rewrite <- EN in B'.
  exact (AdaptiveThms.independent [py; px] [ny; nx] [py'; px'] [ny'; nx'] g Fs before plus zero due limits final le mnT mx leW mn mxW mag lim pre [vx; vy] buf buf
    values_ordered times_ordered limit_antitone ltac:(intros f Hf; cbn in *; tauto) (arrays_2d _ _ _ _ _ _ _ HS) (arrays_2d _ _ _ _ _ _ _ HS')
    (KernelProofs.g2_ok _ _ _ _ _ G) (KernelProofs.g2_ok _ _ _ _ _ G') ltac:(lia) EN _ _ _ (body_ok_2d _ _ _ _ _ full _ _ HS Hk) B' c0 c0' s0 tr c tr' c' H H' It It' Hl).
Qed.
End Two.

Section Three.
Context {T W C : Type}.
Variables (before : W -> W -> bool) (plus : W -> W -> W) (zero : W) (due : W -> W -> bool) (limits : list W) (final : W).
Variables (le : T -> T -> Prop) (mnT mx : T -> T -> T) (leW : W -> W -> Prop) (mn mxW : W -> W -> W) (mag : list T -> T) (lim : T -> W) (pre : W -> W).
Hypothesis values_ordered : ordered le mnT mx.
Hypothesis times_ordered : ordered leW mn mxW.
Hypothesis limit_antitone : forall k l, le (mag k) (mag l) -> leW (lim (mag l)) (lim (mag k)).
Variables (add : T -> T -> T) (z : T) (damp : C -> C -> T -> T) (coord : nat -> Z -> C) (width : Z)
          (conv : (list Z -> T) -> list Z -> T) (Kcx Kcy Kcz : @kfun T)
          (lap : T -> T -> T -> T) (sub : T -> T -> T) (filt : option (filter_type * nat * Z)).
Variables (w0 w1 w2 p0 p1 p2 vx vy vz fx fy fz b0 b1 b2 buf D S : nat).
Notation Fs := [w0; w1; w2; p0; p1; p2; vx; vy; vz].
Variable mk : nat -> W -> W -> list (list T) -> @ns3_step T.
Notation advance N := (fun k t d u => serial_ns_3d add z damp coord width conv Kcx Kcy Kcz lap sub filt N w0 w1 w2 p0 p1 p2 vx vy vz b0 b1 b2 fx fy fz u (mk k t d (whole N Fs u))).
Notation setting pz py px n0 n1 n2 g xg := (ns3_setting pz py px n0 n1 n2 g width filt xg coord w0 w1 w2 p0 p1 p2 vx vy vz fx fy fz b0 b1 b2 buf D S Kcx Kcy Kcz).
Notation steps_ok pz py px n0 n1 n2 := (forall k t d ls, ns3_step_ok z (global_size [pz; py; px] [n0; n1; n2]) [w0; w1; w2] [vx; vy; vz] [b0; b1; b2] [fx; fy; fz] (mk k t d ls)).
(* [race]: the arbitrary values of the cells computed from data in flight (see Stencil.curl_3d) *)
Definition body_3d pz py px n0 n1 n2 g full xg (k : nat) (t d : W) (m : mem T) (_ : unit) (m' : mem T) (_ : unit) : Prop :=
  exists race : Z -> nat -> list Z -> T,
  history [pz; py; px] (fun sr => time_step_3d add z damp conv lap sub filt pz py px n0 n1 n2 g full width xg w0 w1 w2 p0 p1 p2 vx vy vz fx fy fz b0 b1 b2 buf D S Kcx Kcy Kcz (snd sr) (fst sr))
    (fun sr => between z [pz; py; px] [n0; n1; n2] g Fs [fx; fy; fz] (forcing_of (n3_frc (fst sr))))
    [(mk k t d (whole (global_size [pz; py; px] [n0; n1; n2]) Fs (assembled z [pz; py; px] [n0; n1; n2] g m)), race)] m m'.
Notation ranks_run pz py px n0 n1 n2 g full xg := (iterations [pz; py; px] [n0; n1; n2] g before plus zero due limits final mag mx lim mn pre [vx; vy; vz] buf
  (kept [pz; py; px] [n0; n1; n2] g Fs) (body_3d pz py px n0 n1 n2 g full xg)).
Notation ranks_step pz py px n0 n1 n2 g full xg := (iteration [pz; py; px] [n0; n1; n2] g before plus zero due limits final mag mx lim mn pre [vx; vy; vz] buf
  (kept [pz; py; px] [n0; n1; n2] g Fs) (body_3d pz py px n0 n1 n2 g full xg)).
Notation ranks_apart pz py px n0 n1 n2 g := (apart [pz; py; px] [n0; n1; n2] g before due limits final mag mx lim mn pre [vx; vy; vz] buf (kept [pz; py; px] [n0; n1; n2] g Fs)).
Notation serial_run N := (serial_iterations before plus zero due limits final le mag lim pre N [vx; vy; vz] (fun u => u) (advance N)).

Lemma arrays_3d pz py px n0 n1 n2 g xg : setting pz py px n0 n1 n2 g xg -> ~ In buf Fs.
Proof.
  intros [_ _ _ _ _ N _ _]. change [w0; w1; w2; p0; p1; p2; vx; vy; vz; fx; fy; fz; b0; b1; b2; buf; D; S] with (Fs ++ [fx; fy; fz; b0; b1; b2; buf; D; S]) in N.
  intros H. exact (AdaptiveThms.nodup_sep _ _ buf N H ltac:(cbn; tauto)).
Qed.
Lemma body_ok_3d pz py px n0 n1 n2 g full xg : setting pz py px n0 n1 n2 g xg -> steps_ok pz py px n0 n1 n2 -> forall k t d (m : mem T) u (e : unit),
  represents_ext false [pz; py; px] [n0; n1; n2] g Fs m u ->
  (exists m1 e1, body_3d pz py px n0 n1 n2 g full xg k t d m e m1 e1) /\
  (forall m1 e1, body_3d pz py px n0 n1 n2 g full xg k t d m e m1 e1 -> represents_ext false [pz; py; px] [n0; n1; n2] g Fs m1 (advance (global_size [pz; py; px] [n0; n1; n2]) k t d u)).
Proof.
  intros HS Hk k t d m u e Hm. pose proof HS as [G _ _ _ _ _ _ _]. unfold body_3d.
  rewrite (AdaptiveThms.whole_same z [pz; py; px] [n0; n1; n2] g Fs (KernelProofs.g3_ok _ _ _ _ _ _ _ G) ltac:(unfold grid3 in G; lia) m u Hm).
  assert (K : forall race, Forall (fun sr : ns3_step * (Z -> nat -> list Z -> T) => ns3_step_ok z (global_size [pz; py; px] [n0; n1; n2]) [w0; w1; w2] [vx; vy; vz] [b0; b1; b2] [fx; fy; fz] (fst sr))
    [(mk k t d (whole (global_size [pz; py; px] [n0; n1; n2]) Fs u), race)]) by (intros race; constructor; [apply Hk|constructor]).
  pose proof (fun race => PropsNS.C47_history_3d add z damp coord width conv Kcx Kcy Kcz lap sub filt w0 w1 w2 p0 p1 p2 vx vy vz fx fy fz b0 b1 b2 buf D S
    pz py px n0 n1 n2 g full xg [(mk k t d (whole (global_size [pz; py; px] [n0; n1; n2]) Fs u), race)] m u HS (K race) Hm) as X. clear K.
  split; [destruct (proj1 (X (fun _ _ _ => z))) as (m1 & H); exists m1, tt, (fun _ _ _ => z); exact H|]. intros m1 e1 (race & H). exact (proj2 (X race) m1 H).
Qed.

(** C59 (3D). *)
Theorem C59_lockstep_3d pz py px n0 n1 n2 g full xg (c0 : config T W unit) s0 tr c :
  setting pz py px n0 n1 n2 g xg -> steps_ok pz py px n0 n1 n2 -> all_ranks_at [pz; py; px] [n0; n1; n2] g Fs c0 s0 ->
  ranks_run pz py px n0 n1 n2 g full xg c0 tr c ->
  exists hs s, serial_run (global_size [pz; py; px] [n0; n1; n2]) s0 hs s /\ Forall2 (same_happening [pz; py; px] [n0; n1; n2] g Fs) tr hs /\ all_ranks_at [pz; py; px] [n0; n1; n2] g Fs c s /\
    ~ ranks_apart pz py px n0 n1 n2 g c /\ (over [pz; py; px] before final c \/ exists e c', ranks_step pz py px n0 n1 n2 g full xg c e c').
Proof.
  intros HS Hk H It. pose proof HS as [G _ _ _ _ _ _ _].
  exact (AdaptiveThms.lockstep [pz; py; px] [n0; n1; n2] g Fs (KernelProofs.g3_ok _ _ _ _ _ _ _ G) ltac:(unfold grid3 in G; lia) before plus zero due limits final le mnT mx leW mn mxW mag lim pre [vx; vy; vz] buf
    values_ordered times_ordered limit_antitone ltac:(intros f Hf; cbn in *; tauto) (arrays_3d _ _ _ _ _ _ _ _ HS) _ _ (body_ok_3d _ _ _ _ _ _ _ full _ HS Hk) c0 s0 tr c H It).
Qed.
Theorem C59_ends_as_serial_3d pz py px n0 n1 n2 g full xg (c0 : config T W unit) s0 :
  setting pz py px n0 n1 n2 g xg -> steps_ok pz py px n0 n1 n2 -> all_ranks_at [pz; py; px] [n0; n1; n2] g Fs c0 s0 ->
  ((exists tr c, ranks_run pz py px n0 n1 n2 g full xg c0 tr c /\ over [pz; py; px] before final c) <->
   (exists hs s, serial_run (global_size [pz; py; px] [n0; n1; n2]) s0 hs s /\ serial_over before final s)) /\
  (forall hs s, serial_run (global_size [pz; py; px] [n0; n1; n2]) s0 hs s -> serial_over before final s -> forall tr c, ranks_run pz py px n0 n1 n2 g full xg c0 tr c ->
     (length tr <= length hs)%nat /\ (over [pz; py; px] before final c <-> length tr = length hs)).
Proof.
  intros HS Hk H. pose proof HS as [G _ _ _ _ _ _ _].
  exact (AdaptiveThms.finishes [pz; py; px] [n0; n1; n2] g Fs (KernelProofs.g3_ok _ _ _ _ _ _ _ G) ltac:(unfold grid3 in G; lia) before plus zero due limits final le mnT mx leW mn mxW mag lim pre [vx; vy; vz] buf
    values_ordered times_ordered limit_antitone ltac:(intros f Hf; cbn in *; tauto) (arrays_3d _ _ _ _ _ _ _ _ HS) _ _ (body_ok_3d _ _ _ _ _ _ _ full _ HS Hk) c0 s0 H).
Qed.
Theorem C59_decomposition_independent_3d pz py px n0 n1 n2 full xg pz' py' px' n0' n1' n2' full' xg' g (c0 c0' : config T W unit) s0 tr tr' c c' :
  setting pz py px n0 n1 n2 g xg -> setting pz' py' px' n0' n1' n2' g xg' -> global_size [pz; py; px] [n0; n1; n2] = global_size [pz'; py'; px'] [n0'; n1'; n2'] -> steps_ok pz py px n0 n1 n2 ->
  all_ranks_at [pz; py; px] [n0; n1; n2] g Fs c0 s0 -> all_ranks_at [pz'; py'; px'] [n0'; n1'; n2'] g Fs c0' s0 ->
  ranks_run pz py px n0 n1 n2 g full xg c0 tr c -> ranks_run pz' py' px' n0' n1' n2' g full' xg' c0' tr' c' ->
  length tr = length tr' \/ (over [pz; py; px] before final c /\ over [pz'; py'; px'] before final c') ->
  Forall2 (same_seen [pz; py; px] [n0; n1; n2] [pz'; py'; px'] [n0'; n1'; n2'] g Fs) tr tr' /\
  (forall r r', 0 <= r < zprod [pz; py; px] -> 0 <= r' < zprod [pz'; py'; px'] -> c_time c r = c_time c' r' /\ c_timers c r = c_timers c' r') /\
  agree [pz; py; px] [n0; n1; n2] [pz'; py'; px'] [n0'; n1'; n2'] g Fs (c_mem c) (c_mem c').
Proof.
  intros HS HS' EN Hk H H' It It' Hl. pose proof HS as [G _ _ _ _ _ _ _]. pose proof HS' as [G' _ _ _ _ _ _ _]. pose proof Hk as Hk'. rewrite EN in Hk'.
  pose proof (body_ok_3d _ _ _ _ _ _ _ full' _ HS' Hk') as B'. rewrite <- EN in B'.
  exact (AdaptiveThms.independent [pz; py; px] [n0; n1; n2] [pz'; py'; px'] [n0'; n1'; n2'] g Fs before plus zero due limits final le mnT mx leW mn mxW mag lim pre [vx; vy; vz] buf buf
    values_ordered times_ordered limit_antitone ltac:(intros f Hf; cbn in *; tauto) (arrays_3d _ _ _ _ _ _ _ _ HS) (arrays_3d _ _ _ _ _ _ _ _ HS')
    (KernelProofs.g3_ok _ _ _ _ _ _ _ G) (KernelProofs.g3_ok _ _ _ _ _ _ _ G') ltac:(unfold grid3 in G; lia) EN _ _ _ (body_ok_3d _ _ _ _ _ _ _ full _ HS Hk) B' c0 c0' s0 tr c tr' c' H H' It It' Hl).
Qed.
End Three.


(** C59.  The same for the passive transport simulators (advect and diffuse a scalar, or a vector, in a given velocity): the kernels of
    iteration k, at time t with time step d, are mk k t d. *)
Section Transport.
Context {T W : Type}.
Variables (before : W -> W -> bool) (plus : W -> W -> W) (zero : W) (due : W -> W -> bool) (limits : list W) (final : W).
Variables (le : T -> T -> Prop) (mnT mx : T -> T -> T) (leW : W -> W -> Prop) (mn mxW : W -> W -> W) (mag : list T -> T) (lim : T -> W) (pre : W -> W).
Hypothesis values_ordered : ordered le mnT mx.
Hypothesis times_ordered : ordered leW mn mxW.
Hypothesis limit_antitone : forall k l, le (mag k) (mag l) -> leW (lim (mag l)) (lim (mag k)).
Variables (add : T -> T -> T) (z : T) (buf vx vy vz : nat).

Theorem C59_transport_lockstep_2d (fld : nat) (mk : nat -> W -> W -> @kfun T * @kfun T) py px ny nx full (c0 : config T W unit) s0 tr c :
  let Fs := [fld; vx; vy] in let dims := [py; px] in let loc := [ny; nx] in let N := global_size dims loc in
  let show := kept dims loc 2 Fs in
  let body := fun k t d (m : mem T) (_ : unit) m' (_ : unit) => spmd_ends (zprod dims) (flat_map (tstep_2d add z false py px ny nx 2 full buf vx vy) (passive_scalar_calls fld (fst (mk k t d)) (snd (mk k t d)))) m m' in
  grid2 py px ny nx 2 -> 4 <= ny /\ 4 <= nx -> ~ In buf Fs ->
  (forall k t d, star_local 2 [fld; vx; vy] 2 (fst (mk k t d)) /\ star_local 2 [fld] 1 (snd (mk k t d)) /\ overwrites (snd (mk k t d))) ->
  all_ranks_at dims loc 2 Fs c0 s0 ->
  iterations dims loc 2 before plus zero due limits final mag mx lim mn pre [vx; vy] buf show body c0 tr c ->
  exists hs s, serial_iterations before plus zero due limits final le mag lim pre N [vx; vy] (fun u => u) (fun k t d u => transported add z false N fld (fst (mk k t d)) (snd (mk k t d)) u) s0 hs s /\
    Forall2 (same_happening dims loc 2 Fs) tr hs /\ all_ranks_at dims loc 2 Fs c s /\
    ~ apart dims loc 2 before due limits final mag mx lim mn pre [vx; vy] buf show c /\
    (over dims before final c \/ exists e c', iteration dims loc 2 before plus zero due limits final mag mx lim mn pre [vx; vy] buf show body c e c').
Proof.
  intros Fs dims loc N show body G H4 Hb Hk H It.
  refine (AdaptiveThms.lockstep dims loc 2 Fs (KernelProofs.g2_ok _ _ _ _ _ G) ltac:(lia) before plus zero due limits final le mnT mx leW mn mxW mag lim pre [vx; vy] buf
    values_ordered times_ordered limit_antitone ltac:(intros f Hf; cbn in *; tauto) Hb body (fun k t d u => transported add z false N fld (fst (mk k t d)) (snd (mk k t d)) u) _ c0 s0 tr c H It).
  intros k t d m u e Hm.
  destruct (PropsStep.C44_passive_scalar_2d T add z false py px ny nx 2 full buf vx vy Fs fld [mk k t d] m u G Hb ltac:(intros f Hf; cbn in *; tauto) ltac:(cbn; tauto) eq_refl H4
    (Forall_cons _ (Hk k t d) (Forall_nil _)) Hm) as (m1 & E & R). cbn [flat_map] in E. rewrite app_nil_r in E. cbn [fold_left] in R.
  split; [exists m1, tt; exact E|]. intros m2 e2 E2. rewrite (HaloThms.spmd_ends_det _ _ _ _ _ E2 E). exact R.
Qed.
Theorem C59_transport_lockstep_3d (fld : nat) (mk : nat -> W -> W -> @kfun T * @kfun T) pz py px n0 n1 n2 full (c0 : config T W unit) s0 tr c :
  let Fs := [fld; vx; vy; vz] in let dims := [pz; py; px] in let loc := [n0; n1; n2] in let N := global_size dims loc in
  let show := kept dims loc 2 Fs in
  let body := fun k t d (m : mem T) (_ : unit) m' (_ : unit) => spmd_ends (zprod dims) (flat_map (tstep_3d add z false pz py px n0 n1 n2 2 full buf vx vy vz) (passive_scalar_calls fld (fst (mk k t d)) (snd (mk k t d)))) m m' in
  grid3 pz py px n0 n1 n2 2 -> 4 <= n0 /\ 4 <= n1 /\ 4 <= n2 -> ~ In buf Fs ->
  (forall k t d, star_local 3 [fld; vx; vy; vz] 2 (fst (mk k t d)) /\ star_local 3 [fld] 1 (snd (mk k t d)) /\ overwrites (snd (mk k t d))) ->
  all_ranks_at dims loc 2 Fs c0 s0 ->
  iterations dims loc 2 before plus zero due limits final mag mx lim mn pre [vx; vy; vz] buf show body c0 tr c ->
  exists hs s, serial_iterations before plus zero due limits final le mag lim pre N [vx; vy; vz] (fun u => u) (fun k t d u => transported add z false N fld (fst (mk k t d)) (snd (mk k t d)) u) s0 hs s /\
    Forall2 (same_happening dims loc 2 Fs) tr hs /\ all_ranks_at dims loc 2 Fs c s /\
    ~ apart dims loc 2 before due limits final mag mx lim mn pre [vx; vy; vz] buf show c /\
    (over dims before final c \/ exists e c', iteration dims loc 2 before plus zero due limits final mag mx lim mn pre [vx; vy; vz] buf show body c e c').
Proof.
  intros Fs dims loc N show body G H4 Hb Hk H It.
  refine (AdaptiveThms.lockstep dims loc 2 Fs (KernelProofs.g3_ok _ _ _ _ _ _ _ G) ltac:(lia) before plus zero due limits final le mnT mx leW mn mxW mag lim pre [vx; vy; vz] buf
    values_ordered times_ordered limit_antitone ltac:(intros f Hf; cbn in *; tauto) Hb body (fun k t d u => transported add z false N fld (fst (mk k t d)) (snd (mk k t d)) u) _ c0 s0 tr c H It).
  intros k t d m u e Hm.
  destruct (PropsStep.C44_passive_scalar_3d T add z false pz py px n0 n1 n2 2 full buf vx vy vz Fs fld [mk k t d] m u G Hb ltac:(intros f Hf; cbn in *; tauto) ltac:(cbn; tauto) eq_refl H4
    (Forall_cons _ (Hk k t d) (Forall_nil _)) Hm) as (m1 & E & R). cbn [flat_map] in E. rewrite app_nil_r in E. cbn [fold_left] in R.
  split; [exists m1, tt; exact E|]. intros m2 e2 E2. rewrite (HaloThms.spmd_ends_det _ _ _ _ _ E2 E). exact R.
Qed.
Theorem C59_transport_vector_lockstep_3d (f0 f1 f2 : nat) (mk : nat -> W -> W -> (nat -> @kfun T) * (nat -> @kfun T)) pz py px n0 n1 n2 full (c0 : config T W unit) s0 tr c :
  let Fs := [f0; f1; f2; vx; vy; vz] in let dims := [pz; py; px] in let loc := [n0; n1; n2] in let N := global_size dims loc in
  let show := kept dims loc 2 Fs in
  let body := fun k t d (m : mem T) (_ : unit) m' (_ : unit) => spmd_ends (zprod dims) (flat_map (tstep_3d add z false pz py px n0 n1 n2 2 full buf vx vy vz) (passive_vector_calls f0 f1 f2 (fst (mk k t d)) (snd (mk k t d)))) m m' in
  grid3 pz py px n0 n1 n2 2 -> 4 <= n0 /\ 4 <= n1 /\ 4 <= n2 -> ~ In buf Fs -> NoDup [f0; f1; f2] -> (forall f, In f [f0; f1; f2] -> ~ In f [vx; vy; vz]) ->
  (forall k t d f, In f [f0; f1; f2] -> star_local 3 [f; vx; vy; vz] 2 (fst (mk k t d) f) /\ star_local 3 [f] 1 (snd (mk k t d) f) /\ overwrites (snd (mk k t d) f)) ->
  all_ranks_at dims loc 2 Fs c0 s0 ->
  iterations dims loc 2 before plus zero due limits final mag mx lim mn pre [vx; vy; vz] buf show body c0 tr c ->
  exists hs s, serial_iterations before plus zero due limits final le mag lim pre N [vx; vy; vz] (fun u => u) (fun k t d u => transported_vector add z false N [f0; f1; f2] (fst (mk k t d)) (snd (mk k t d)) u) s0 hs s /\
    Forall2 (same_happening dims loc 2 Fs) tr hs /\ all_ranks_at dims loc 2 Fs c s /\
    ~ apart dims loc 2 before due limits final mag mx lim mn pre [vx; vy; vz] buf show c /\
    (over dims before final c \/ exists e c', iteration dims loc 2 before plus zero due limits final mag mx lim mn pre [vx; vy; vz] buf show body c e c').
Proof.
  intros Fs dims loc N show body G H4 Hb Hnd Hsep Hk H It.
  refine (AdaptiveThms.lockstep dims loc 2 Fs (KernelProofs.g3_ok _ _ _ _ _ _ _ G) ltac:(lia) before plus zero due limits final le mnT mx leW mn mxW mag lim pre [vx; vy; vz] buf
    values_ordered times_ordered limit_antitone ltac:(intros f Hf; cbn in *; tauto) Hb body (fun k t d u => transported_vector add z false N [f0; f1; f2] (fst (mk k t d)) (snd (mk k t d)) u) _ c0 s0 tr c H It).
  intros k t d m u e Hm.
  destruct (PropsStep.C44_passive_vector_3d T add z false pz py px n0 n1 n2 2 full buf vx vy vz Fs f0 f1 f2 [mk k t d] m u G Hb ltac:(intros f Hf; cbn in *; tauto) ltac:(intros f Hf; cbn in *; tauto) Hnd Hsep eq_refl H4
    (Forall_cons _ (Hk k t d) (Forall_nil _)) Hm) as (m1 & E & R). cbn [flat_map] in E. rewrite app_nil_r in E. cbn [fold_left] in R.
  split; [exists m1, tt; exact E|]. intros m2 e2 E2. rewrite (HaloThms.spmd_ends_det _ _ _ _ _ E2 E). exact R.
Qed.
End Transport.

(** C59.  In exact arithmetic, if the speed stays at or below Umax the (serial, hence every) loop ends, and its number of iterations n
    satisfies (n - 1) * dmin < final - start, dmin being the time step for speed Umax. *)
Theorem C59_bounded_speed_ends dims loc CFL dx tol nu tol' prefac due limits final vel (flow : (nat -> list Z -> R) -> nat -> list Z -> R) advance Umax s0 :
  let N := global_size dims loc in let dmin := (dt_limit (length loc) CFL dx tol nu tol' Umax * prefac)%R in
  let run := serial_iterations (fun a b => if Rlt_dec a b then true else false) Rplus 0%R due limits final Rle abs_sum (dt_limit (length loc) CFL dx tol nu tol') (fun t => t * prefac)%R N vel flow advance in
  grid_ok dims loc -> (0 <= CFL * dx)%R -> (0 < tol)%R -> (0 <= prefac)%R -> (0 < dmin)%R -> (0 <= Umax)%R ->
  (forall hs s, run s0 hs s -> forall P, inb N P -> (speed abs_sum (flow (s_state s)) vel P <= Umax)%R) ->
  (exists hs s, run s0 hs s /\ (final <= s_time s)%R) /\
  (forall hs s, run s0 hs s -> hs <> [] -> ((INR (length hs) - 1) * dmin < final - s_time s0)%R).
Proof. exact (AdaptiveReals.bounded_speed dims loc CFL dx tol nu tol' prefac due limits final vel flow advance Umax s0). Qed.

(** *** A case: the flow of PropsNS on 2 x 1 ranks, times in Z, two timers (limits 5 and 11), end at 12.  The first time step is the one
    for a flow at rest, the second one that for the flow the forcing has set off. *)
Definition ax_mag (l : list Z) : Z := fold_right Z.add 0 (map Z.abs l).
Definition ax_lim (a : Z) : Z := 10 - a / 4.
Definition ax_due (l t : Z) : bool := (l <=? t) || (t =? 0).
Definition ax_mk (k : nat) (t d : Z) (ls : list (list Z)) : @ns2_step Z := PropsNS.e_step.
Definition ax_ranks : config Z Z unit := {| c_count := 0; c_time := fun _ => 0; c_timers := fun _ => [0; 0]; c_mem := fun _ => 0; c_rest := tt |}.
Definition ax_start : sconfig Z (nat -> list Z -> Z) := {| s_count := 0; s_time := 0; s_timers := [0; 0]; s_state := fun _ _ => 0 |}.
Definition ax_adv (k : nat) (t d : Z) (u : nat -> list Z -> Z) : nat -> list Z -> Z :=
  serial_ns_2d Z.add 0 (fun _ _ : Z => fun v => v) (fun _ i => i) 2 (fun v => v) PropsNS.e_cx PropsNS.e_cy (global_size [2; 1] [4; 5]) 0 1 2 3 4 5 u
    (ax_mk k t d (whole (global_size [2; 1] [4; 5]) [0; 1; 2; 3]%nat u)).
Example C59_nonvacuous :
  ns2_setting 2 1 4 5 2 2 0%nat PropsNS.e_xg (fun _ i => i) 0 1 2 3 4 5 6 7 8 PropsNS.e_cx PropsNS.e_cy /\
  (forall k t d ls, ns2_step_ok 0 (global_size [2; 1] [4; 5]) 0 2 3 4 5 (ax_mk k t d ls)) /\
  ordered Z.le Z.min Z.max /\ (forall k l, ax_mag k <= ax_mag l -> ax_lim (ax_mag l) <= ax_lim (ax_mag k)) /\
  all_ranks_at [2; 1] [4; 5] 2 [0; 1; 2; 3]%nat ax_ranks ax_start /\
  exists hs s, serial_iterations Z.ltb Z.add 0 ax_due [5; 11] 12 Z.le ax_mag ax_lim (fun d => d) (global_size [2; 1] [4; 5]) [2; 3]%nat (fun u => u) ax_adv ax_start hs s /\
    serial_over Z.ltb 12 s /\ map h_due hs = [[true; true]; [true; false]] /\ map h_dt hs = [10; 6].
Proof.
  split; [exact PropsNS.setting_instance|]. split; [intros k t d ls; exact (proj1 PropsNS.step_instance)|]. split; [split; intros; lia|].
  split; [intros k l H; unfold ax_lim; assert (ax_mag k / 4 <= ax_mag l / 4) by (apply Z.div_le_mono; lia); lia|].
  split; [split; [reflexivity|split; [intros r Hr; split; reflexivity|intros r f I Hr Hf HI HQ; reflexivity]]|].
  eexists. eexists. split.
  - eapply sis_snoc.
    + eapply sis_snoc; [apply sis_nil|].
      apply si with (U := 0); [reflexivity|]. apply AdaptiveThms.is_max_check. vm_compute. reflexivity.
    + apply si with (U := 17); [reflexivity|]. apply AdaptiveThms.is_max_check. vm_compute. reflexivity.
  - split; [reflexivity|]. split; reflexivity.
Qed.

Example C59_nonvacuous_3d :
  ns3_setting 2 1 2 3 3 4 2 2 (Some (Multiplicative, 1%nat, 2)) (fun r a i => nth a (block_start [2; 1; 2] [3; 3; 4] r) 0 + (i - 2)) (fun _ i => i)
    0 1 2 3 4 5 6 7 8 9 10 11 12 13 14 15 16 17 (PropsNS.e3_c 3) (PropsNS.e3_c 4) (PropsNS.e3_c 5) /\
  ns3_step_ok 0 (global_size [2; 1; 2] [3; 3; 4]) [0; 1; 2]%nat [6; 7; 8]%nat [12; 13; 14]%nat [9; 10; 11]%nat PropsNS.e3_step /\
  all_ranks_at [2; 1; 2] [3; 3; 4] 2 [0; 1; 2; 3; 4; 5; 6; 7; 8]%nat ax_ranks ax_start.
Proof.
  split; [exact PropsNS.setting3_instance|]. split; [exact (proj1 PropsNS.step3_instance)|].
  split; [reflexivity|split; [intros r Hr; split; reflexivity|intros r f I Hr Hf HI HQ; reflexivity]].
Qed.
(** A flow that moves with speed 1 in one cell for ever: the loop ends. *)
Definition ar_flow (f : nat) (P : list Z) : R := if list_eq_dec Z.eq_dec P [1; 2] then match f with O => (-1)%R | _ => 0%R end else 0%R.
Example C59_bounded_speed_nonvacuous : forall final : R,
  let run := serial_iterations (fun a b => if Rlt_dec a b then true else false) Rplus 0%R (fun l t => if Rlt_dec t l then false else true) [1%R] final Rle abs_sum
    (dt_limit 2 (1 / 10) 1 (1 / 2) 0 0) (fun t => t * 1)%R [8; 4] [0; 1]%nat (fun u => u) (fun _ _ _ u => u) in
  let s0 := {| s_count := 0; s_time := 0%R; s_timers := [0%R]; s_state := ar_flow |} in
  (0 < dt_limit 2 (1 / 10) 1 (1 / 2) 0 0 1 * 1)%R /\
  (forall hs s, run s0 hs s -> forall P, inb [8; 4] P -> (speed abs_sum (s_state s) [0; 1]%nat P <= 1)%R).
Proof.
  intros final run s0. split.
  - unfold dt_limit. destruct (Req_EM_T (0 + 0) 0); lra.
  - intros hs s A P HP. assert (E : s_state s = ar_flow).
    { change ar_flow with (s_state s0). generalize dependent s0. intros s0 A. induction A as [c|c tr c1 e c2 I1 IH I2]; [reflexivity|]. destruct I2 as [U G HU d]. cbn [s_state]. exact IH. }
    rewrite E. unfold speed, abs_sum, ar_flow. cbn [map fold_right]. destruct (list_eq_dec Z.eq_dec P [1; 2]); rewrite ?Rabs_R0; rewrite ?Rabs_Ropp, ?Rabs_R1; [|lra].
    replace (-1)%R with (- (1))%R by lra. rewrite Rabs_Ropp, Rabs_R1. lra.
Qed.

Print Assumptions C59_lockstep_2d.
Print Assumptions C59_ends_as_serial_2d.
Print Assumptions C59_decomposition_independent_2d.
Print Assumptions C59_lockstep_3d.
Print Assumptions C59_ends_as_serial_3d.
Print Assumptions C59_decomposition_independent_3d.
Print Assumptions C59_transport_lockstep_2d.
Print Assumptions C59_transport_lockstep_3d.
Print Assumptions C59_transport_vector_lockstep_3d.
Print Assumptions C59_bounded_speed_ends.
