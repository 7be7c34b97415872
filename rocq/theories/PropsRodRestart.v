(** Property C72: a driver with a rod, restarted. *)
From Coq Require Import QArith FunctionalExtensionality.
From Verif Require Import Base SpecGrid SpecGhostSum SpecStencil SpecStep SpecPenalise SpecFilter SpecDouble SpecLag SpecIB SpecVbf SpecNS SpecBodies SpecCoupled SpecReduce SpecDiag SpecLoop SpecInteractor SpecAdaptive SpecDriver SpecFixed SpecMoving SpecRod SpecRodRestart
  Comm Blocking Spmd Stencil Lagrangian Vbf NavierStokes Coupled SpecTracks Loop Interactor Diagnostics Adaptive Driver Rod.
From Verif Require PropsNS PropsCoupled PropsLoop PropsInteractor KernelProofs AdaptiveProofs AdaptiveThms MovingProofs RodProofs RestartProofs ResumeThms RodRestartProofs.
From Verif Require Import PropsDriver PropsMoving PropsRod ResumeRefute.
Open Scope Z_scope.

(** The last state of two runs: times; saved quantities; bodies; and, after at least one iteration, all the rest. *)
Definition last_state {T W B} (dims loc dims' loc' : list Z) (g : Z) (kept all fs : list nat) (actors actors' : nat -> actor T) (started : Prop)
  (c c' : config T W ((nat -> vb) * (Z -> nat -> B))) : Prop :=
  (forall r r', 0 <= r < zprod dims -> 0 <= r' < zprod dims' -> c_time c r = c_time c' r') /\
  SpecStep.agree dims loc dims' loc' g (kept ++ fs) (c_mem c) (c_mem c') /\
  snd (c_rest c) (a_master (actors 0%nat)) 0%nat = snd (c_rest c') (a_master (actors' 0%nat)) 0%nat /\
  (started -> (forall r r', 0 <= r < zprod dims -> 0 <= r' < zprod dims' -> c_timers c r = c_timers c' r') /\
     same_on dims loc dims' loc' g all fs 1 actors actors' (c_mem c) (c_rest c) (c_mem c') (c_rest c')).

Section Two.
Context {T W V C B L : Type}.
(* times, as in C59 *)
Variables (before : W -> W -> bool) (plus : W -> W -> W) (zero : W) (due : W -> W -> bool) (limits : list W) (final : W).
Variables (le : T -> T -> Prop) (mnT mx : T -> T -> T) (leW : W -> W -> Prop) (mn mxW : W -> W -> W) (mag : list T -> T) (lim : T -> W) (pre : W -> W).
Hypothesis values_ordered : ordered le mnT mx.
Hypothesis times_ordered : ordered leW mn mxW.
Hypothesis limit_antitone : forall k l, le (mag k) (mag l) -> leW (lim (mag l)) (lim (mag k)).
(* flow and bodies, as in C54 *)
Variables (add sub mul : T -> T -> T) (z : T) (times0 scale : T -> T) (sum : list T -> T) (dx shift : Q).
Variables (damp : C -> C -> T -> T) (coord : nat -> Z -> C) (width : Z) (conv : (list Z -> T) -> list Z -> T) (Kcx Kcy : @kfun T).
Variables (w psi vx vy fx fy buf D S : nat).
Hypothesis add_monoid : comm_monoid add z.
Hypothesis zeroing : forall x, times0 x = z.
Hypothesis spacing : (0 < dx)%Q.
(* the stages of the rod's step, and what the flow's step depends on, at time t with time step d (steps, part: PropsSubstep) *)
Variables (rules : nat -> body_rules T B L) (steps : W -> nat) (part : W -> T) (stages : T -> list (action T (@ns2_step T))) (flow : W -> W -> @ns2_step T) (look : list (list T) -> V) (none : L).
Notation num := (rod_num steps part stages flow).
Notation script := (@rod_script T (@ns2_step T) V W steps part stages flow).
Notation Fs := [w; psi; vx; vy].
Notation setting py px ny nx g dd xg := (ns2_setting py px ny nx g width dd xg coord w psi vx vy fx fy buf D S Kcx Kcy).
Notation all_ok py px g actors := (actors_ok [py; px] g 1 actors [w; psi; vx; vy; fx; fy; buf; D; S]).
Notation shows py px ny nx g actors := (@shows_at T B z [py; px] [ny; nx] g Fs [fx; fy] 1 actors [[g; nx + 2 * g]; [ny + 2 * g; g]]).
Notation flow_step N := (fun frc u s => serial_ns_2d add z damp coord width conv Kcx Kcy N w psi vx vy fx fy u (with_forcing2 [fx; fy] frc s)).
Notation plain := (fun lift : list V -> @ns2_step T -> @ns2_step T => lift = (fun _ s => s)).
(* serial iterations (SpecRod), with the time step for the top speed of the flow *)
Notation advance N actors := (fun _ : nat => rod_advance (fun b => a_body (actors b)) rules add sub mul z scale sum dx shift [vx; vy] (flow_step N) 2 steps part stages flow).
Notation serial_step N actors := (serial_iteration before plus zero due limits final le mag lim pre N [vx; vy] (fun x => cs_u (fst x)) (advance N actors)).
Notation serial_run N actors := (serial_iterations before plus zero due limits final le mag lim pre N [vx; vy] (fun x => cs_u (fst x)) (advance N actors)).
(* the ranks' iterations *)
Notation rest py px ny nx g full dd xg actors ord := (drive add sub mul z scale sum dx shift [py; px] [ny; nx] g [vx; vy] Fs [fx; fy] actors
  (exch_2d py px ny nx g full [vx; vy]) (spread_2 add mul times0 dx shift py px ny nx g [fx; fy])
  (time_step_2d add z damp conv py px ny nx g full dd width xg w psi vx vy fx fy buf D S Kcx Kcy) rules num script look none ord plain).
Notation ranks_run py px ny nx g full dd xg actors ord := (iterations [py; px] [ny; nx] g before plus zero due limits final mag mx lim mn pre [vx; vy] buf
  (keeps Fs [fx; fy] 1 actors) (rest py px ny nx g full dd xg actors ord)).
(* where the rod is in the serial run when it gets loads or acts on the flow *)
Notation serial_where N actors s0 := (rod_acted (fun b => a_body (actors b)) rules add sub mul z scale sum dx shift [vx; vy] (flow_step N) 2 steps part stages (serial_step N actors) s0).
Notation stays := (rod_stays_2d before plus zero due limits final le mag lim pre add sub mul z scale sum dx shift damp coord width conv Kcx Kcy w psi vx vy fx fy 1 rules steps part stages flow).
(** C72 (2D).  A driver with a rod goes on from a state s0 (in which it is saved).  It, or another decomposition of the domain, also starts from a state
    that has the saved quantities of s0.  Then one ends exactly if the other does; and after as many iterations, or at the end, they have taken the same time steps, the same
    timers were due, and all that has been said agrees. *)
Theorem C72_restarted_2d py px ny nx full dd xg actors ord py' px' ny' nx' full' dd' xg' actors' ord' g c0 c0' s0 s0' a0 a0' X0 X0' :
  setting py px ny nx g dd xg -> setting py' px' ny' nx' g dd' xg' -> global_size [py; px] [ny; nx] = global_size [py'; px'] [ny'; nx'] ->
  4 <= width -> Forall (fun n => 2 * width <= n) (global_size [py; px] [ny; nx]) ->
  all_ok py px g actors -> all_ok py' px' g actors' -> (forall b, a_body (actors b) = a_body (actors' b)) -> by_default 1 actors ord -> by_default 1 actors' ord' ->
  rod_stages stages -> stages_load stages -> (forall t d, flow2_ok z w vx vy fx fy (flow t d)) ->
  (forall b, (b < 1)%nat -> in_blocks dx shift [py; px] [ny; nx] (X0 b) (a0 b)) -> (forall b, (b < 1)%nat -> in_blocks dx shift [py'; px'] [ny'; nx'] (X0' b) (a0' b)) ->
  stays py px ny nx actors s0 X0 -> stays py' px' ny' nx' actors' s0 X0' ->
  all_at [py; px] (shows py px ny nx g actors) (eq a0) c0 s0 -> all_at [py'; px'] (shows py' px' ny' nx' g actors') (eq a0') c0' s0' ->
  off_edge z [py; px] [ny; nx] (fst (s_state s0)) -> off_edge z [py'; px'] [ny'; nx'] (fst (s_state s0')) ->
  (* s0' has the saved quantities of s0 *)
  s_time s0 = s_time s0' -> timers_as due limits (s_timers s0) (s_timers s0') -> snd (s_state s0) = snd (s_state s0') ->
  as_saved (global_size [py; px] [ny; nx]) 2 1 (fun b => a_body (actors b)) [w; vx; vy] (fst (s_state s0)) (fst (s_state s0')) ->
  ((exists tr c, ranks_run py px ny nx g full dd xg actors ord c0 tr c /\ over [py; px] before final c) <->
   (exists tr c, ranks_run py' px' ny' nx' g full' dd' xg' actors' ord' c0' tr c /\ over [py'; px'] before final c)) /\
  forall tr c tr' c', ranks_run py px ny nx g full dd xg actors ord c0 tr c -> ranks_run py' px' ny' nx' g full' dd' xg' actors' ord' c0' tr' c' ->
    length tr = length tr' \/ (over [py; px] before final c /\ over [py'; px'] before final c') ->
    Forall2 (fun e e' => e_due e = e_due e' /\ e_dt e = e_dt e') tr tr' /\
    last_state [py; px] [ny; nx] [py'; px'] [ny'; nx'] g [w; vx; vy] Fs [fx; fy] actors actors' (tr <> []) c c'.
Proof.
  intros HS HS' EN Hw HN HA HA' Hb HD HD' Hst Hload Hfl HX HX' Hr Hr' H H' Ho Ho' Et Em Ex Es.
  pose proof HS as [G Hg _ _ _ _ _ [HKx _] [HKy _]]. pose proof HS' as [G' _ _ _ _ _ _ _ _]. apply KernelProofs.g2_ok in G. apply KernelProofs.g2_ok in G'.
  assert (Hg1 : 1 <= g) by (clear -Hg; lia).
  assert (EB : (fun b => a_body (actors' b)) = (fun b => a_body (actors b))) by (extensionality b; symmetry; apply Hb).
  set (N := global_size [py; px] [ny; nx]) in *.
  assert (Hk : incl [w; vx; vy] Fs) by (intros x Hx; clear -Hx; cbn in *; tauto).
  assert (Hv : forall c, 0 <= c < 2 -> In (nth (Z.to_nat c) [vx; vy] 0%nat) [w; vx; vy]).
  { intros c Hcc. assert (c = 0 \/ c = 1) as [-> | ->] by (clear -Hcc; lia); cbn; clear; tauto. }
  assert (Hv' : incl [vx; vy] [w; vx; vy]) by (intros x Hx; clear -Hx; cbn in *; tauto).
  assert (Hfs : forall f f' u u' s, flow2_ok z w vx vy fx fy s -> (forall c P, 0 <= c < 2 -> inb N P -> f c P = f' c P) -> (forall a P, In a [w; vx; vy] -> inb N P -> u a P = u' a P) ->
    forall a P, In a Fs -> inb N P -> flow_step N f u s a P = flow_step N f' u' s a P).
  { intros f f' u u' s Hs Hf Hu. apply (ResumeThms.flow2_alike add z damp coord width conv Kcx Kcy w psi vx vy fx fy); auto. exact (RestartProofs.arrays6 _ _ _ _ _ _ _ _ _ _ _ _ _ _ _ _ _ _ _ _ HS). }
  assert (Hin : forall hs s l, serial_where N actors s0 hs s l -> Forall (RodRestartProofs.inside (fun b => a_body (actors b)) dx shift N) l).
  { intros hs s l R. destruct (Hr hs s l R) as [W1 _]. revert W1. apply Forall_impl. intros q (Q1 & Q2 & (_ & Q3) & _). split; [exact Q1|]. split; [exact Q2|].
    revert Q3. apply Forall_impl. intros x. apply Forall_impl. intros P [Q4 _]. exact Q4. }
  assert (H0 : RodRestartProofs.beside (fun b => a_body (actors b)) 2 N [w; vx; vy] Fs due limits false false s0 s0').
  { split; [exact Et|]. split; [exact Em|]. split; [exact Ex|]. apply RodRestartProofs.saved_alike; auto. }
  assert (Hr2 : stays py' px' ny' nx' actors' s0' X0').
  { intros hs s l R. rewrite EB, <- EN in R. fold N in R.
    destruct (RodRestartProofs.backward (fun b => a_body (actors b)) rules add sub mul z scale sum dx shift [vx; vy] (flow_step N) 2 N [w; vx; vy] Fs (flow2_ok z w vx vy fx fy) Hk Hv Hfs steps part stages flow Hst Hload Hfl
      before plus zero due limits final le mag lim pre Hv' s0 s0' Hin H0 hs s l R) as (hs1 & s1 & R1 & _).
    apply (Hr' hs1 s1 l). rewrite EB, <- EN. exact R1. }
  destruct (C71_rod_runs_as_serial_2d before plus zero due limits final le mnT mx leW mn mxW mag lim pre values_ordered times_ordered limit_antitone add sub mul z times0 scale sum dx shift damp coord width conv Kcx Kcy w psi vx vy fx fy buf D S 1
    add_monoid zeroing spacing rules steps part stages flow look none
    py px ny nx g full dd xg actors ord c0 s0 a0 X0 HS HA HD (le_n 1) Hst Hfl HX Hr H Ho) as [A1 A2].
  destruct (C71_rod_runs_as_serial_2d before plus zero due limits final le mnT mx leW mn mxW mag lim pre values_ordered times_ordered limit_antitone add sub mul z times0 scale sum dx shift damp coord width conv Kcx Kcy w psi vx vy fx fy buf D S 1
    add_monoid zeroing spacing rules steps part stages flow look none
    py' px' ny' nx' g full' dd' xg' actors' ord' c0' s0' a0' X0' HS' HA' HD' (le_n 1) Hst Hfl HX' Hr2 H' Ho') as [B1 B2].
  rewrite EB, <- EN in B1, B2. fold N in A1, A2, B1, B2. split.
  - rewrite A1, B1. exact (RodRestartProofs.finishes (fun b => a_body (actors b)) rules add sub mul z scale sum dx shift [vx; vy] (flow_step N) 2 N [w; vx; vy] Fs (flow2_ok z w vx vy fx fy) Hk Hv Hfs steps part stages flow Hst Hload Hfl
      before plus zero due limits final le mag lim pre Hv' s0 s0' Hin H0).
  - intros tr c tr' c' R R' HL. destruct (A2 tr c R) as (hs & s & S1 & F1 & C1). destruct (B2 tr' c' R') as (hs' & s' & S2 & F2 & C2).
    assert (HL' : length hs = length hs' \/ (serial_over before final s /\ serial_over before final s')).
    { destruct HL as [HL|[O O']].
      - left. rewrite <- (AdaptiveProofs.same_length _ _ _ F1), <- (AdaptiveProofs.same_length _ _ _ F2). exact HL.
      - right. split.
        + apply (AdaptiveProofs.over_iff [py; px] [ny; nx] before final (fun m e s => exists a, True /\ shows py px ny nx g actors a m e (s_state s)) G c s C1). exact O.
        + apply (AdaptiveProofs.over_iff [py'; px'] [ny'; nx'] before final (fun m e s => exists a, True /\ shows py' px' ny' nx' g actors' a m e (s_state s)) G' c' s' C2). exact O'. }
    destruct (RodRestartProofs.side_by_side (fun b => a_body (actors b)) rules add sub mul z scale sum dx shift [vx; vy] (flow_step N) 2 N [w; vx; vy] Fs (flow2_ok z w vx vy fx fy) Hk Hv Hfs steps part stages flow Hst Hload Hfl
      before plus zero due limits final le mag lim pre Hv' s0 s0' Hin H0 [py; px] [ny; nx] mnT mx eq_refl values_ordered hs s hs' s' S1 S2 HL') as [M [(E1 & _ & E3 & E4) Full]].
    destruct C1 as (_ & C1 & x & _ & st & X1 & _ & X3 & X4). destruct C2 as (_ & C2 & y & _ & st' & Y1 & _ & Y3 & Y4).
    assert (EBd : snd (c_rest c) (a_master (actors 0%nat)) 0%nat = snd (c_rest c') (a_master (actors' 0%nat)) 0%nat) by (rewrite (X4 0%nat (le_n 1)), (Y4 0%nat (le_n 1)); now rewrite E3).
    split; [|split; [|split; [|split; [exact EBd|]]]].
    + clear -F1 F2 M. revert tr' tr F1 F2. induction M as [|h h' hs hs' [M1 M2] M IH]; intros tr' tr F1 F2; inversion F1 as [|e ? ? ? (P1 & P2 & _)]; inversion F2 as [|e' ? ? ? (Q1 & Q2 & _)]; subst; constructor; auto. split; congruence.
    + intros r r' I I'. rewrite (proj1 (C1 r I)), (proj1 (C2 r' I')). exact E1.
    + refine (RodRestartProofs.saved_agree z [py; px] [ny; nx] [py'; px'] [ny'; nx'] g Fs [fx; fy] 1 actors actors' [[g; nx + 2 * g]; [ny + 2 * g; g]] [[g; nx' + 2 * g]; [ny' + 2 * g; g]] [w; vx; vy] Hg1 G G' Hk (fst (c_rest c)) (fst (c_rest c')) (c_mem c) (c_mem c') st st' _ X3 Y3).
      apply (RodRestartProofs.saved_same _ _ _ _ _ _ _ _ _ X1 Y1). exact (RodRestartProofs.alike_saved _ _ _ _ _ _ _ _ _ _ Hk E4).
    + intros Hne. assert (Hne' : hs <> []) by (intros ->; inversion F1; subst; now apply Hne). destruct (Full Hne') as [(_ & _ & _ & E5) E6].
      pose proof (RodRestartProofs.all_same _ _ _ _ _ _ _ _ _ X1 Y1 (RodRestartProofs.alike_all _ _ _ _ _ _ _ _ E5)) as All. split; [|split; [|split]].
      * intros r r' I I'. rewrite (proj2 (C1 r I)), (proj2 (C2 r' I')). exact E6.
      * exact (RodRestartProofs.saved_agree z [py; px] [ny; nx] [py'; px'] [ny'; nx'] g Fs [fx; fy] 1 actors actors' [[g; nx + 2 * g]; [ny + 2 * g; g]] [[g; nx' + 2 * g]; [ny' + 2 * g; g]] Fs Hg1 G G' (fun a Ha => Ha) (fst (c_rest c)) (fst (c_rest c')) (c_mem c) (c_mem c') st st' (ia_saved _ _ _ _ _ _ _ All) X3 Y3).
      * intros b Hbn. assert (b = 0)%nat as -> by (clear -Hbn; lia). exact EBd.
      * intros b cc j Hbn Hcc Hj. refine (RodRestartProofs.forces_agree z [py; px] [ny; nx] [py'; px'] [ny'; nx'] g Fs [fx; fy] 1 actors actors' [[g; nx + 2 * g]; [ny + 2 * g; g]] [[g; nx' + 2 * g]; [ny' + 2 * g; g]] Fs (fst (c_rest c)) (fst (c_rest c')) (c_mem c) (c_mem c') st st' b cc j Hb All X3 Y3 Hbn Hcc Hj).
Qed.
End Two.

Section Three.
Context {T W V C B L : Type}.
(* times, as in C59 *)
Variables (before : W -> W -> bool) (plus : W -> W -> W) (zero : W) (due : W -> W -> bool) (limits : list W) (final : W).
Variables (le : T -> T -> Prop) (mnT mx : T -> T -> T) (leW : W -> W -> Prop) (mn mxW : W -> W -> W) (mag : list T -> T) (lim : T -> W) (pre : W -> W).
Hypothesis values_ordered : ordered le mnT mx.
Hypothesis times_ordered : ordered leW mn mxW.
Hypothesis limit_antitone : forall k l, le (mag k) (mag l) -> leW (lim (mag l)) (lim (mag k)).
(* flow and bodies, as in C54 *)
Variables (add sub mul : T -> T -> T) (z : T) (times0 scale : T -> T) (sum : list T -> T) (dx shift : Q).
Variables (damp : C -> C -> T -> T) (coord : nat -> Z -> C) (width : Z) (conv : (list Z -> T) -> list Z -> T) (Kcx Kcy Kcz : @kfun T)
          (lap : T -> T -> T -> T) (fsub : T -> T -> T) (filt : option (filter_type * nat * Z)).
Variables (w0 w1 w2 p0 p1 p2 vx vy vz fx fy fz b0 b1 b2 buf D S : nat).
Hypothesis add_monoid : comm_monoid add z.
Hypothesis zeroing : forall x, times0 x = z.
Hypothesis spacing : (0 < dx)%Q.
(* the stages of the rod's step, and what the flow's step depends on, at time t with time step d (steps, part: PropsSubstep) *)
Variables (rules : nat -> body_rules T B L) (steps : W -> nat) (part : W -> T) (stages : T -> list (action T (@ns3_step T))) (flow : W -> W -> @ns3_step T) (look : list (list T) -> V) (none : L).
Notation num := (rod_num steps part stages flow).
Notation script := (@rod_script T (@ns3_step T) V W steps part stages flow).
Notation ws := [w0; w1; w2].
Notation vs := [vx; vy; vz].
Notation fs := [fx; fy; fz].
Notation bs := [b0; b1; b2].
Notation Fs := [w0; w1; w2; p0; p1; p2; vx; vy; vz].
Notation setting pz py px n0 n1 n2 g xg := (ns3_setting pz py px n0 n1 n2 g width filt xg coord w0 w1 w2 p0 p1 p2 vx vy vz fx fy fz b0 b1 b2 buf D S Kcx Kcy Kcz).
Notation all_ok pz py px g actors := (actors_ok [pz; py; px] g 1 actors [w0; w1; w2; p0; p1; p2; vx; vy; vz; fx; fy; fz; b0; b1; b2; buf; D; S]).
Notation bufsz n0 n1 n2 g := [[g; n1 + 2 * g; n2 + 2 * g]; [n0 + 2 * g; g; n2 + 2 * g]; [n0 + 2 * g; n1 + 2 * g; g]].
Notation shows pz py px n0 n1 n2 g actors := (@shows_at T B z [pz; py; px] [n0; n1; n2] g Fs fs 1 actors (bufsz n0 n1 n2 g)).
Notation flow_step N := (fun frc u s => serial_ns_3d add z damp coord width conv Kcx Kcy Kcz lap fsub filt N w0 w1 w2 p0 p1 p2 vx vy vz b0 b1 b2 fx fy fz u (with_forcing3 fs frc s)).
Notation time_step pz py px n0 n1 n2 g full xg := (fun sr : @ns3_step T * (Z -> nat -> list Z -> T) => time_step_3d add z damp conv lap fsub filt pz py px n0 n1 n2 g full width xg w0 w1 w2 p0 p1 p2 vx vy vz fx fy fz b0 b1 b2 buf D S Kcx Kcy Kcz (snd sr) (fst sr)).
Notation flow_ok := (fun s : @ns3_step T * (Z -> nat -> list Z -> T) => flow3_ok z ws vs bs fs (fst s)).
(* [race h]: arbitrary values for the cells that the curl kernel updates while a ghost it reads is being received, in the step taken after [h] has been seen *)
Notation racing := (fun lift : list V -> @ns3_step T -> @ns3_step T * (Z -> nat -> list Z -> T) => exists race, lift = (fun h s => (s, race h))).
(* serial iterations (SpecRod), with the time step for the top speed of the flow *)
Notation advance N actors := (fun _ : nat => rod_advance (fun b => a_body (actors b)) rules add sub mul z scale sum dx shift vs (flow_step N) 3 steps part stages flow).
Notation serial_step N actors := (serial_iteration before plus zero due limits final le mag lim pre N vs (fun x => cs_u (fst x)) (advance N actors)).
Notation serial_run N actors := (serial_iterations before plus zero due limits final le mag lim pre N vs (fun x => cs_u (fst x)) (advance N actors)).
(* the ranks' iterations *)
Notation rest pz py px n0 n1 n2 g full xg actors ord := (drive add sub mul z scale sum dx shift [pz; py; px] [n0; n1; n2] g vs Fs fs actors
  (exch_3d pz py px n0 n1 n2 g full vs) (spread_3 add mul times0 dx shift pz py px n0 n1 n2 g fs)
  (time_step pz py px n0 n1 n2 g full xg) rules num script look none ord racing).
Notation ranks_run pz py px n0 n1 n2 g full xg actors ord := (iterations [pz; py; px] [n0; n1; n2] g before plus zero due limits final mag mx lim mn pre vs buf
  (keeps Fs fs 1 actors) (rest pz py px n0 n1 n2 g full xg actors ord)).
(* where the rod is in the serial run when it gets loads or acts on the flow *)
Notation serial_where N actors s0 := (rod_acted (fun b => a_body (actors b)) rules add sub mul z scale sum dx shift vs (flow_step N) 3 steps part stages (serial_step N actors) s0).
Notation stays := (rod_stays_3d before plus zero due limits final le mag lim pre add sub mul z scale sum dx shift damp coord width conv Kcx Kcy Kcz lap fsub filt w0 w1 w2 p0 p1 p2 vx vy vz fx fy fz b0 b1 b2 1 rules steps part stages flow).
(** C72 (3D).  A driver with a rod goes on from a state s0 (in which it is saved).  It, or another decomposition of the domain, also starts from a state
    that has the saved quantities of s0.  Then one ends exactly if the other does; and after as many iterations, or at the end, they have taken the same time steps, the same
    timers were due, and all that has been said agrees. *)
Theorem C72_restarted_3d pz py px n0 n1 n2 full xg actors ord pz' py' px' n0' n1' n2' full' xg' actors' ord' g c0 c0' s0 s0' a0 a0' X0 X0' :
  setting pz py px n0 n1 n2 g xg -> setting pz' py' px' n0' n1' n2' g xg' -> global_size [pz; py; px] [n0; n1; n2] = global_size [pz'; py'; px'] [n0'; n1'; n2'] ->
  3 <= width -> Forall (fun n => 2 * width <= n) (global_size [pz; py; px] [n0; n1; n2]) -> full = true \/ at_most_one_split [pz; py; px] -> full' = true \/ at_most_one_split [pz'; py'; px'] -> match filt with Some (_, _, bw) => 3 <= bw | None => True end ->
  all_ok pz py px g actors -> all_ok pz' py' px' g actors' -> (forall b, a_body (actors b) = a_body (actors' b)) -> by_default 1 actors ord -> by_default 1 actors' ord' ->
  rod_stages stages -> stages_load stages -> (forall t d, flow3_ok z ws vs bs fs (flow t d)) ->
  (forall b, (b < 1)%nat -> in_blocks dx shift [pz; py; px] [n0; n1; n2] (X0 b) (a0 b)) -> (forall b, (b < 1)%nat -> in_blocks dx shift [pz'; py'; px'] [n0'; n1'; n2'] (X0' b) (a0' b)) ->
  stays pz py px n0 n1 n2 actors s0 X0 -> stays pz' py' px' n0' n1' n2' actors' s0 X0' ->
  all_at [pz; py; px] (shows pz py px n0 n1 n2 g actors) (eq a0) c0 s0 -> all_at [pz'; py'; px'] (shows pz' py' px' n0' n1' n2' g actors') (eq a0') c0' s0' ->
  off_edge z [pz; py; px] [n0; n1; n2] (fst (s_state s0)) -> off_edge z [pz'; py'; px'] [n0'; n1'; n2'] (fst (s_state s0')) ->
  (* s0' has the saved quantities of s0 *)
  s_time s0 = s_time s0' -> timers_as due limits (s_timers s0) (s_timers s0') -> snd (s_state s0) = snd (s_state s0') ->
  as_saved (global_size [pz; py; px] [n0; n1; n2]) 3 1 (fun b => a_body (actors b)) [w0; w1; w2; vx; vy; vz] (fst (s_state s0)) (fst (s_state s0')) ->
  ((exists tr c, ranks_run pz py px n0 n1 n2 g full xg actors ord c0 tr c /\ over [pz; py; px] before final c) <->
   (exists tr c, ranks_run pz' py' px' n0' n1' n2' g full' xg' actors' ord' c0' tr c /\ over [pz'; py'; px'] before final c)) /\
  forall tr c tr' c', ranks_run pz py px n0 n1 n2 g full xg actors ord c0 tr c -> ranks_run pz' py' px' n0' n1' n2' g full' xg' actors' ord' c0' tr' c' ->
    length tr = length tr' \/ (over [pz; py; px] before final c /\ over [pz'; py'; px'] before final c') ->
    Forall2 (fun e e' => e_due e = e_due e' /\ e_dt e = e_dt e') tr tr' /\
    last_state [pz; py; px] [n0; n1; n2] [pz'; py'; px'] [n0'; n1'; n2'] g [w0; w1; w2; vx; vy; vz] Fs fs actors actors' (tr <> []) c c'.
Proof.
  intros HS HS' EN Hw HN Hc Hc' Hbw HA HA' Hb HD HD' Hst Hload Hfl HX HX' Hr Hr' H H' Ho Ho' Et Em Ex Es.
  pose proof HS as [_ _ _ _ _ _ _ HF]. destruct (RestartProofs.set_ok3 _ _ _ _ _ _ _ _ _ _ _ _ _ _ _ _ _ _ _ _ _ _ _ _ _ _ _ _ _ _ _ _ HS) as (G & Hg & _). destruct (RestartProofs.set_ok3 _ _ _ _ _ _ _ _ _ _ _ _ _ _ _ _ _ _ _ _ _ _ _ _ _ _ _ _ _ _ _ _ HS') as (G' & _ & _).
  assert (Hg1 : 1 <= g) by (clear -Hg; lia).
  assert (EB : (fun b => a_body (actors' b)) = (fun b => a_body (actors b))) by (extensionality b; symmetry; apply Hb).
  set (N := global_size [pz; py; px] [n0; n1; n2]) in *.
  assert (Hk : incl [w0; w1; w2; vx; vy; vz] Fs) by (intros x Hx; clear -Hx; cbn in *; tauto).
  assert (Hv : forall c, 0 <= c < 3 -> In (nth (Z.to_nat c) vs 0%nat) [w0; w1; w2; vx; vy; vz]).
  { intros c Hcc. assert (c = 0 \/ c = 1 \/ c = 2) as [-> | [-> | ->]] by (clear -Hcc; lia); cbn; clear; tauto. }
  assert (Hv' : incl vs [w0; w1; w2; vx; vy; vz]) by (intros x Hx; clear -Hx; cbn in *; tauto).
  assert (Hfs : forall f f' u u' s, flow3_ok z ws vs bs fs s -> (forall c P, 0 <= c < 3 -> inb N P -> f c P = f' c P) -> (forall a P, In a [w0; w1; w2; vx; vy; vz] -> inb N P -> u a P = u' a P) ->
    forall a P, In a Fs -> inb N P -> flow_step N f u s a P = flow_step N f' u' s a P).
  { intros f f' u u' s Hs Hf Hu. apply (ResumeThms.flow3_alike add z damp coord width conv Kcx Kcy Kcz lap fsub filt w0 w1 w2 p0 p1 p2 vx vy vz fx fy fz b0 b1 b2); auto.
      + exact (RestartProofs.arrays15 _ _ _ _ _ _ _ _ _ _ _ _ _ _ _ _ _ _ _ _ _ _ _ _ _ _ _ _ _ _ _ _ HS).
      + exact (RestartProofs.vel3 _ _ _ _ _ _ _ _ _ _ _ _ _ _ _ _ _ _ _ _ _ _ _ _ _ _ _ _ _ _ _ _ HS).
      + clear -HF Hbw. destruct filt as [[[ft o] bw]|]; [|exact I]. split; [apply HF|exact Hbw]. }
  assert (Hin : forall hs s l, serial_where N actors s0 hs s l -> Forall (RodRestartProofs.inside (fun b => a_body (actors b)) dx shift N) l).
  { intros hs s l R. destruct (Hr hs s l R) as [W1 _]. revert W1. apply Forall_impl. intros q (Q1 & Q2 & (_ & Q3) & _). split; [exact Q1|]. split; [exact Q2|].
    revert Q3. apply Forall_impl. intros x. apply Forall_impl. intros P [Q4 _]. exact Q4. }
  assert (H0 : RodRestartProofs.beside (fun b => a_body (actors b)) 3 N [w0; w1; w2; vx; vy; vz] Fs due limits false false s0 s0').
  { split; [exact Et|]. split; [exact Em|]. split; [exact Ex|]. apply RodRestartProofs.saved_alike; auto. }
  assert (Hr2 : stays pz' py' px' n0' n1' n2' actors' s0' X0').
  { intros hs s l R. rewrite EB, <- EN in R. fold N in R.
    destruct (RodRestartProofs.backward (fun b => a_body (actors b)) rules add sub mul z scale sum dx shift vs (flow_step N) 3 N [w0; w1; w2; vx; vy; vz] Fs (flow3_ok z ws vs bs fs) Hk Hv Hfs steps part stages flow Hst Hload Hfl
      before plus zero due limits final le mag lim pre Hv' s0 s0' Hin H0 hs s l R) as (hs1 & s1 & R1 & _).
    apply (Hr' hs1 s1 l). rewrite EB, <- EN. exact R1. }
  destruct (C71_rod_runs_as_serial_3d before plus zero due limits final le mnT mx leW mn mxW mag lim pre values_ordered times_ordered limit_antitone add sub mul z times0 scale sum dx shift damp coord width conv Kcx Kcy Kcz lap fsub filt w0 w1 w2 p0 p1 p2 vx vy vz fx fy fz b0 b1 b2 buf D S 1
    add_monoid zeroing spacing rules steps part stages flow look none
    pz py px n0 n1 n2 g full xg actors ord c0 s0 a0 X0 HS HA Hc HD (le_n 1) Hst Hfl HX Hr H Ho) as [A1 A2].
  destruct (C71_rod_runs_as_serial_3d before plus zero due limits final le mnT mx leW mn mxW mag lim pre values_ordered times_ordered limit_antitone add sub mul z times0 scale sum dx shift damp coord width conv Kcx Kcy Kcz lap fsub filt w0 w1 w2 p0 p1 p2 vx vy vz fx fy fz b0 b1 b2 buf D S 1
    add_monoid zeroing spacing rules steps part stages flow look none
    pz' py' px' n0' n1' n2' g full' xg' actors' ord' c0' s0' a0' X0' HS' HA' Hc' HD' (le_n 1) Hst Hfl HX' Hr2 H' Ho') as [B1 B2].
  rewrite EB, <- EN in B1, B2. fold N in A1, A2, B1, B2. split.
  - rewrite A1, B1. exact (RodRestartProofs.finishes (fun b => a_body (actors b)) rules add sub mul z scale sum dx shift vs (flow_step N) 3 N [w0; w1; w2; vx; vy; vz] Fs (flow3_ok z ws vs bs fs) Hk Hv Hfs steps part stages flow Hst Hload Hfl
      before plus zero due limits final le mag lim pre Hv' s0 s0' Hin H0).
  - intros tr c tr' c' R R' HL. destruct (A2 tr c R) as (hs & s & S1 & F1 & C1). destruct (B2 tr' c' R') as (hs' & s' & S2 & F2 & C2).
    assert (HL' : length hs = length hs' \/ (serial_over before final s /\ serial_over before final s')).
    { destruct HL as [HL|[O O']].
      - left. rewrite <- (AdaptiveProofs.same_length _ _ _ F1), <- (AdaptiveProofs.same_length _ _ _ F2). exact HL.
      - right. split.
        + apply (AdaptiveProofs.over_iff [pz; py; px] [n0; n1; n2] before final (fun m e s => exists a, True /\ shows pz py px n0 n1 n2 g actors a m e (s_state s)) G c s C1). exact O.
        + apply (AdaptiveProofs.over_iff [pz'; py'; px'] [n0'; n1'; n2'] before final (fun m e s => exists a, True /\ shows pz' py' px' n0' n1' n2' g actors' a m e (s_state s)) G' c' s' C2). exact O'. }
    destruct (RodRestartProofs.side_by_side (fun b => a_body (actors b)) rules add sub mul z scale sum dx shift vs (flow_step N) 3 N [w0; w1; w2; vx; vy; vz] Fs (flow3_ok z ws vs bs fs) Hk Hv Hfs steps part stages flow Hst Hload Hfl
      before plus zero due limits final le mag lim pre Hv' s0 s0' Hin H0 [pz; py; px] [n0; n1; n2] mnT mx eq_refl values_ordered hs s hs' s' S1 S2 HL') as [M [(E1 & _ & E3 & E4) Full]].
    destruct C1 as (_ & C1 & x & _ & st & X1 & _ & X3 & X4). destruct C2 as (_ & C2 & y & _ & st' & Y1 & _ & Y3 & Y4).
    assert (EBd : snd (c_rest c) (a_master (actors 0%nat)) 0%nat = snd (c_rest c') (a_master (actors' 0%nat)) 0%nat) by (rewrite (X4 0%nat (le_n 1)), (Y4 0%nat (le_n 1)); now rewrite E3).
    split; [|split; [|split; [|split; [exact EBd|]]]].
    + clear -F1 F2 M. revert tr' tr F1 F2. induction M as [|h h' hs hs' [M1 M2] M IH]; intros tr' tr F1 F2; inversion F1 as [|e ? ? ? (P1 & P2 & _)]; inversion F2 as [|e' ? ? ? (Q1 & Q2 & _)]; subst; constructor; auto. split; congruence.
    + intros r r' I I'. rewrite (proj1 (C1 r I)), (proj1 (C2 r' I')). exact E1.
    + refine (RodRestartProofs.saved_agree z [pz; py; px] [n0; n1; n2] [pz'; py'; px'] [n0'; n1'; n2'] g Fs fs 1 actors actors' (bufsz n0 n1 n2 g) (bufsz n0' n1' n2' g) [w0; w1; w2; vx; vy; vz] Hg1 G G' Hk (fst (c_rest c)) (fst (c_rest c')) (c_mem c) (c_mem c') st st' _ X3 Y3).
      apply (RodRestartProofs.saved_same _ _ _ _ _ _ _ _ _ X1 Y1). exact (RodRestartProofs.alike_saved _ _ _ _ _ _ _ _ _ _ Hk E4).
    + intros Hne. assert (Hne' : hs <> []) by (intros ->; inversion F1; subst; now apply Hne). destruct (Full Hne') as [(_ & _ & _ & E5) E6].
      pose proof (RodRestartProofs.all_same _ _ _ _ _ _ _ _ _ X1 Y1 (RodRestartProofs.alike_all _ _ _ _ _ _ _ _ E5)) as All. split; [|split; [|split]].
      * intros r r' I I'. rewrite (proj2 (C1 r I)), (proj2 (C2 r' I')). exact E6.
      * exact (RodRestartProofs.saved_agree z [pz; py; px] [n0; n1; n2] [pz'; py'; px'] [n0'; n1'; n2'] g Fs fs 1 actors actors' (bufsz n0 n1 n2 g) (bufsz n0' n1' n2' g) Fs Hg1 G G' (fun a Ha => Ha) (fst (c_rest c)) (fst (c_rest c')) (c_mem c) (c_mem c') st st' (ia_saved _ _ _ _ _ _ _ All) X3 Y3).
      * intros b Hbn. assert (b = 0)%nat as -> by (clear -Hbn; lia). exact EBd.
      * intros b cc j Hbn Hcc Hj. refine (RodRestartProofs.forces_agree z [pz; py; px] [n0; n1; n2] [pz'; py'; px'] [n0'; n1'; n2'] g Fs fs 1 actors actors' (bufsz n0 n1 n2 g) (bufsz n0' n1' n2' g) Fs (fst (c_rest c)) (fst (c_rest c')) (c_mem c) (c_mem c') st st' b cc j Hb All X3 Y3 Hbn Hcc Hj).
Qed.
End Three.

(** 2D: the body of C57's case (one node) on 2 x 1 ranks; a penalised zone of 4 cells; two substeps. Restarted on one rank: the stream function in memory is 7 there (it is not saved),
    the timers read 5 and 12 in the first and 0 in the second (both due). *)
Definition rr_rules (b : nat) : body_rules Z (bool * list Z) (list Z) :=
  {| b_nodes := fun _ => p_nodes c_pose; b_pos := fun _ c j => c + j; b_vel := fun _ c j => c + 10 * j + 1; b_loads := fun _ l => l;
     b_kick := fun _ l => (existsb (fun f => f <? 0) l, l); b_drift := fun (x : bool * list Z) dt => (fst x, map (fun f => f + dt) (snd x)) |}.
Definition rr_stages (h : Z) : list (action Z (@ns2_step Z)) := [OMove 0 h; OLag 0].
Definition rr_state1 : cstate Z := {| cs_u := fun a _ => if (a =? 1)%nat then 7 else 0; cs_f := fun _ _ => 0; cs_map := fun _ => [0]; cs_st := fun _ => at_rest 0 |}.
Definition rr_mem1 : mem Z := fun x => if (fst (snd x) =? 1)%nat then 7 else 0.
Definition rr_start : sconfig Z (cstate Z * (nat -> bool * list Z)) := {| s_count := 0; s_time := 0; s_timers := [5; 12]; s_state := (c_state, fun _ => (false, [])) |}.
Definition rr_start1 : sconfig Z (cstate Z * (nat -> bool * list Z)) := {| s_count := 0; s_time := 0; s_timers := [0; 0]; s_state := (rr_state1, fun _ => (false, [])) |}.
Definition rr_ranks : config Z Z ((nat -> vb) * (Z -> nat -> bool * list Z)) :=
  {| c_count := 0; c_time := fun _ => 0; c_timers := fun _ => [5; 12]; c_mem := fun _ => 0; c_rest := (c_maps, fun _ _ => (false, [])) |}.
Definition rr_maps1 (_ : nat) : vb := vb_init [0] [].
Definition rr_ranks1 : config Z Z ((nat -> vb) * (Z -> nat -> bool * list Z)) :=
  {| c_count := 0; c_time := fun _ => 0; c_timers := fun _ => [0; 0]; c_mem := rr_mem1; c_rest := (rr_maps1, fun _ _ => (false, [])) |}.
Definition rr_adv : nat -> Z -> Z -> cstate Z * (nat -> bool * list Z) -> cstate Z * (nat -> bool * list Z) :=
  fun _ => rod_advance (fun b => a_body (c_actor b)) rr_rules Z.add Z.sub Z.mul 0 (fun x => x) (fold_right Z.add 0) 1 0 [2; 3]%nat c_flow 2 (fun _ => 2%nat) (fun d => d / 2) rr_stages (fun _ _ => PropsNS.e_step).
Notation rr_step := (serial_iteration Z.ltb Z.add 0 dr_due [5; 11] 8 Z.le dr_mag dr_lim (fun d => d) (global_size [2; 1] [4; 8]) [2; 3]%nat (fun x => cs_u (fst x)) rr_adv).
Notation rr_run := (serial_iterations Z.ltb Z.add 0 dr_due [5; 11] 8 Z.le dr_mag dr_lim (fun d => d) (global_size [2; 1] [4; 8]) [2; 3]%nat (fun x => cs_u (fst x)) rr_adv).
Notation rr_where := (rod_where (fun b => a_body (c_actor b)) rr_rules Z.add Z.sub Z.mul 0 (fun x => x) (fold_right Z.add 0) 1 0 [2; 3]%nat c_flow 2 (fun _ => 2%nat) (fun d => d / 2) rr_stages).
Notation rr_stays := (rod_stays_2d Z.ltb Z.add 0 dr_due [5; 11] 8 Z.le dr_mag dr_lim (fun d => d) Z.add Z.sub Z.mul 0 (fun x => x) (fold_right Z.add 0) 1 0 (fun _ _ : Z => fun v => v) (fun _ i => i) 4 (fun v => v)
  PropsNS.e_cx PropsNS.e_cy 0 1 2 3 4 5 1 rr_rules (fun _ => 2%nat) (fun d => d / 2) rr_stages (fun _ _ => PropsNS.e_step)).
Notation rr_shows dims loc bufsz := (shows_at 0 dims loc 2 [0; 1; 2; 3]%nat [4; 5]%nat 1 c_actor bufsz).
Definition rr_h : happening Z (cstate Z * (nat -> bool * list Z)) := {| h_due := [true; true]; h_state := s_state rr_start; h_dt := 10 |}.
Definition rr_end : sconfig Z (cstate Z * (nat -> bool * list Z)) := {| s_count := 1; s_time := 10; s_timers := [10; 10]; s_state := rr_adv 0 0 10 (s_state rr_start) |}.
Lemma rr_step1 : rr_step rr_start rr_h rr_end.
Proof. apply (si Z.ltb Z.add 0 dr_due [5; 11] 8 Z.le dr_mag dr_lim (fun d => d) (global_size [2; 1] [4; 8]) [2; 3]%nat (fun x => cs_u (fst x)) rr_adv rr_start 0); [reflexivity|]. apply AdaptiveThms.is_max_check. vm_compute. reflexivity. Qed.
Lemma rr_once s h s' h' s'' : rr_step s h s' -> rr_step s h' s'' -> h = h' /\ s' = s''.
Proof. exact (AdaptiveProofs.serial_once [2; 1] [4; 8] Z.ltb Z.add 0 dr_due [5; 11] 8 Z.le Z.min Z.max dr_mag dr_lim (fun d => d) [2; 3]%nat (fun x => cs_u (fst x)) rr_adv dr_ordered s h s' h' s''). Qed.
Lemma rr_over h s : rr_step rr_end h s -> False.
Proof. intros H. inversion H as [U G]. discriminate G. Qed.
Lemma rr_where1 : rr_where 0 10 (s_state rr_start) = repeat (0%nat, p_nodes c_pose) 3.
Proof. vm_compute. reflexivity. Qed.
Lemma rr_inside : Forall (in_domain 1 0 [2; 1] [4; 8]) (p_nodes c_pose).
Proof. repeat constructor; PropsInteractor.qle. Qed.
Lemma rr_acts hs s l : rod_acted (fun b => a_body (c_actor b)) rr_rules Z.add Z.sub Z.mul 0 (fun x => x) (fold_right Z.add 0) 1 0 [2; 3]%nat c_flow 2 (fun _ => 2%nat) (fun d => d / 2) rr_stages rr_step rr_start hs s l ->
  (s = rr_start /\ l = []) \/ (s = rr_end /\ l = rr_where 0 10 (s_state rr_start)).
Proof.
  intros R. induction R as [|hs s l h s' R IH I]; [now left|]. destruct IH as [[-> ->]|[-> ->]].
  - destruct (rr_once _ _ _ _ _ I rr_step1) as [-> ->]. right. split; reflexivity.
  - destruct (rr_over _ _ I).
Qed.
Lemma rr_grid py px ny nx : 1 <= py -> 1 <= px -> 1 <= ny -> 1 <= nx -> grid_ok [py; px] [ny; nx].
Proof. split; [reflexivity|unfold positive; repeat (apply Forall_cons; [lia|]); apply Forall_nil|unfold positive; repeat (apply Forall_cons; [lia|]); apply Forall_nil]. Qed.
Lemma rr_stays_a : rr_stays 2 1 4 8 c_actor rr_start (fun _ => p_nodes c_pose).
Proof.
  assert (Same : counts_tell 1 0 [2; 1] [4; 8] (p_nodes c_pose) (p_nodes c_pose)).
  { intros a a' H H' _. exact (MovingProofs.blocks_unique [2; 1] [4; 8] 1 0 eq_refl (rr_grid 2 1 4 8 ltac:(lia) ltac:(lia) ltac:(lia) ltac:(lia)) _ a' a rr_inside H' H). }
  intros hs s l R. apply rr_acts in R. rewrite rr_where1 in R. destruct R as [[_ ->]|[_ ->]].
  - split; [constructor|]. intros b Hb. exact I.
  - split; [|intros [|b] Hb; [|lia]; cbn; auto]. apply Forall_forall. intros p Hp. apply repeat_spec in Hp. subst p.
    split; [cbn; lia|]; split; [reflexivity|]; split; [split; vm_compute; repeat constructor; try discriminate; lia|intros H; discriminate H].
Qed.
Lemma rr_stays_b : rr_stays 1 1 8 8 c_actor rr_start (fun _ => p_nodes c_pose1).
Proof.
  assert (D : Forall (in_domain 1 0 [1; 1] [8; 8]) (p_nodes c_pose1)) by (repeat constructor; PropsInteractor.qle).
  assert (Same : counts_tell 1 0 [1; 1] [8; 8] (p_nodes c_pose1) (p_nodes c_pose1)).
  { intros a a' H H' _. exact (MovingProofs.blocks_unique [1; 1] [8; 8] 1 0 eq_refl (rr_grid 1 1 8 8 ltac:(lia) ltac:(lia) ltac:(lia) ltac:(lia)) _ a' a D H' H). }
  intros hs s l R. apply rr_acts in R. rewrite rr_where1 in R. destruct R as [[_ ->]|[_ ->]].
  - split; [constructor|]. intros b Hb. exact I.
  - split; [|intros [|b] Hb; [|lia]; cbn; auto]. apply Forall_forall. intros p Hp. apply repeat_spec in Hp. subst p.
    split; [cbn; lia|]; split; [reflexivity|]; split; [split; vm_compute; repeat constructor; try discriminate; lia|intros H; discriminate H].
Qed.
Lemma rr_tracks1 : tracks 0 [1; 1] [8; 8] 2 [0; 1; 2; 3]%nat [4; 5]%nat 1 c_actor [[2; 12]; [12; 2]] rr_maps1 rr_mem1 rr_state1.
Proof.
  split.
  - intros r Hr f Hf P _. cbn in Hf. decompose [or] Hf; try tauto; subst f; reflexivity.
  - split; [|intros f r J Hf _ _ _; cbn in Hf; decompose [or] Hf; try tauto; subst f; reflexivity].
    intros c f r J Hc Hn _ _. apply nth_error_In in Hn. cbn in Hn. decompose [or] Hn; try tauto; subst f; reflexivity.
  - intros b Hb. (split; [|reflexivity]); (split; [|split; [intros; apply LagProofs.count_eq|split; intros ? ? ? ? _ _ _; reflexivity]]);
      (split; [repeat constructor; cbn; lia|split; [split; [constructor|intros s; cbn; lia]|reflexivity]]).
  - intros b Hb. reflexivity.
  - intros b Hb. repeat constructor; intros r K _ _; reflexivity.
  - intros b Hb Hl. discriminate Hl.
Qed.
Example C72_nonvacuous_2d : (c_setting 2 1 4 8 /\ c_setting 1 1 8 8 /\ actors_ok [2; 1] 2 1 c_actor [0; 1; 2; 3; 4; 5; 6; 7; 8]%nat /\ actors_ok [1; 1] 2 1 c_actor [0; 1; 2; 3; 4; 5; 6; 7; 8]%nat) /\
  (by_default 1 c_actor c_ord /\ rod_stages rr_stages /\ stages_load rr_stages /\ flow2_ok 0 0 2 3 4 5 PropsNS.e_step) /\
  ((forall b, (b < 1)%nat -> in_blocks 1 0 [2; 1] [4; 8] (p_nodes c_pose) (cs_map c_state b)) /\ (forall b, (b < 1)%nat -> in_blocks 1 0 [1; 1] [8; 8] (p_nodes c_pose1) (cs_map rr_state1 b))) /\
  (rr_stays 2 1 4 8 c_actor rr_start (fun _ => p_nodes c_pose) /\ rr_stays 1 1 8 8 c_actor rr_start (fun _ => p_nodes c_pose1)) /\
  (all_at [2; 1] (rr_shows [2; 1] [4; 8] [[2; 12]; [8; 2]]) (eq (cs_map c_state)) rr_ranks rr_start /\ all_at [1; 1] (rr_shows [1; 1] [8; 8] [[2; 12]; [12; 2]]) (eq (cs_map rr_state1)) rr_ranks1 rr_start1) /\
  (off_edge 0 [2; 1] [4; 8] (fst (s_state rr_start)) /\ off_edge 0 [1; 1] [8; 8] (fst (s_state rr_start1))) /\
  (timers_as dr_due [5; 11] (s_timers rr_start) (s_timers rr_start1) /\ as_saved (global_size [2; 1] [4; 8]) 2 1 (fun b => a_body (c_actor b)) [0; 2; 3]%nat (fst (s_state rr_start)) (fst (s_state rr_start1))) /\
  (exists hs s, rr_run rr_start hs s /\ serial_over Z.ltb 8 s /\ map h_dt hs = [10]) /\
  s_timers rr_start <> s_timers rr_start1 /\ cs_u (fst (s_state rr_start)) 1%nat [3; 3] <> cs_u (fst (s_state rr_start1)) 1%nat [3; 3].
Proof.
  split; [exact (conj c_set_a (conj c_set_b (conj c_all_a c_all_b)))|]. split.
  { split; [|split; [|split; [|exact c_flow_ok]]].
    - intros b Hb. split; [reflexivity|]. intros a. unfold c_ord. split; [apply NoDup_filter, NoDup_nodup|]. intros s. rewrite filter_In, nodup_In. cbn. destruct (Z.eqb_spec s 0); cbn [negb]; intuition congruence.
    - intros h. apply Forall_forall. intros o Ho. cbn in Ho. decompose [or] Ho; try tauto; subst o; eauto.
    - intros h. cbn. tauto. }
  split; [split; intros b Hb; repeat constructor; try (vm_compute; intuition discriminate); PropsInteractor.qle|].
  split; [exact (conj rr_stays_a rr_stays_b)|]. split.
  { split; (split; [reflexivity|]; split; [intros r Hr; split; reflexivity|]; eexists; split; [reflexivity|]; eexists; split; [|split; [|split]]).
    all: try exact c_tracks. all: try exact rr_tracks1. all: try reflexivity. all: try (intros; reflexivity). all: repeat split. }
  split; [split; intros c P _ _; reflexivity|]. split.
  { split; [repeat constructor; right; split; reflexivity|]. split; try reflexivity. intros a P Ha _. cbn in Ha. decompose [or] Ha; try tauto; subst a; reflexivity. }
  split; [|split; discriminate]. exists ([] ++ [rr_h]), rr_end. split; [eapply sis_snoc; [apply sis_nil|exact rr_step1]|]. split; reflexivity.
Qed.

(** 3D: the same body in a domain of 8 x 8 x 8 cells on 2 x 1 x 1 ranks; a penalised zone of 3 cells, filtered vorticity. Restarted on one rank: the stream function in memory is 7 there. *)
Definition r7_pose : list (list Q) := [[9 # 2; 9 # 2; 9 # 2]]%Q.
Definition r7_actor (_ : nat) : actor Z := {| a_arrays := PropsCoupled.ex_arr 20; a_master := 0; a_bufs := [40%nat; 41%nat; 42%nat]; a_body := c_body; a_local := false; a_auto := true |}.
Definition r7_rules (b : nat) : body_rules Z Z (list Z) :=
  {| b_nodes := fun _ => r7_pose; b_pos := fun _ c j => c + j; b_vel := fun _ c j => c + 10 * j + 1; b_loads := fun _ l => l; b_kick := fun x l => x + fold_right Z.add 0 l; b_drift := Z.add |}.
Definition r7_state1 : cstate Z := {| cs_u := fun a _ => if (a =? 4)%nat then 7 else 0; cs_f := fun _ _ => 0; cs_map := fun _ => [0]; cs_st := fun _ => at_rest 0 |}.
Definition r7_mem1 : mem Z := fun x => if (fst (snd x) =? 4)%nat then 7 else 0.
Definition r7_start : sconfig Z (cstate Z * (nat -> Z)) := {| s_count := 0; s_time := 0; s_timers := [5; 12]; s_state := (c_state, fun _ => 0) |}.
Definition r7_start1 : sconfig Z (cstate Z * (nat -> Z)) := {| s_count := 0; s_time := 0; s_timers := [0; 0]; s_state := (r7_state1, fun _ => 0) |}.
Definition r7_ranks : config Z Z ((nat -> vb) * (Z -> nat -> Z)) := {| c_count := 0; c_time := fun _ => 0; c_timers := fun _ => [5; 12]; c_mem := fun _ => 0; c_rest := (c_maps, fun _ _ => 0) |}.
Definition r7_ranks1 : config Z Z ((nat -> vb) * (Z -> nat -> Z)) := {| c_count := 0; c_time := fun _ => 0; c_timers := fun _ => [0; 0]; c_mem := r7_mem1; c_rest := (rr_maps1, fun _ _ => 0) |}.
Notation r7_filt := (Some (Multiplicative, 1%nat, 3)).
Notation r7_setting pz py px n0 n1 n2 := (ns3_setting pz py px n0 n1 n2 2 3 r7_filt (c_xg [pz; py; px] [n0; n1; n2]) (fun _ i => i) 0 1 2 3 4 5 6 7 8 9 10 11 12 13 14 15 16 17 (PropsNS.e3_c 3) (PropsNS.e3_c 4) (PropsNS.e3_c 5)).
Notation r7_flow := (fun frc u s => serial_ns_3d Z.add 0 (fun _ _ : Z => fun v => v) (fun _ i => i) 3 (fun v => v) (PropsNS.e3_c 3) (PropsNS.e3_c 4) (PropsNS.e3_c 5) (fun a b c => a + b + c) Z.sub r7_filt
  (global_size [2; 1; 1] [4; 8; 8]) 0 1 2 3 4 5 6 7 8 12 13 14 9 10 11 u (with_forcing3 [9; 10; 11]%nat frc s)).
Definition r7_adv : nat -> Z -> Z -> cstate Z * (nat -> Z) -> cstate Z * (nat -> Z) :=
  fun _ => rod_advance (fun b => a_body (r7_actor b)) r7_rules Z.add Z.sub Z.mul 0 (fun x => x) (fold_right Z.add 0) 1 0 [6; 7; 8]%nat r7_flow 3 (fun _ => 2%nat) (fun d => d / 2) r3_stages (fun _ _ => PropsNS.e3_step).
Notation r7_step := (serial_iteration Z.ltb Z.add 0 dr_due [5; 11] 8 Z.le dr_mag dr_lim (fun d => d) (global_size [2; 1; 1] [4; 8; 8]) [6; 7; 8]%nat (fun x => cs_u (fst x)) r7_adv).
Notation r7_run := (serial_iterations Z.ltb Z.add 0 dr_due [5; 11] 8 Z.le dr_mag dr_lim (fun d => d) (global_size [2; 1; 1] [4; 8; 8]) [6; 7; 8]%nat (fun x => cs_u (fst x)) r7_adv).
Notation r7_where := (rod_where (fun b => a_body (r7_actor b)) r7_rules Z.add Z.sub Z.mul 0 (fun x => x) (fold_right Z.add 0) 1 0 [6; 7; 8]%nat r7_flow 3 (fun _ => 2%nat) (fun d => d / 2) r3_stages).
Notation r7_stays := (rod_stays_3d Z.ltb Z.add 0 dr_due [5; 11] 8 Z.le dr_mag dr_lim (fun d => d) Z.add Z.sub Z.mul 0 (fun x => x) (fold_right Z.add 0) 1 0 (fun _ _ : Z => fun v => v) (fun _ i => i) 3 (fun v => v)
  (PropsNS.e3_c 3) (PropsNS.e3_c 4) (PropsNS.e3_c 5) (fun a b c => a + b + c) Z.sub r7_filt 0 1 2 3 4 5 6 7 8 9 10 11 12 13 14 1 r7_rules (fun _ => 2%nat) (fun d => d / 2) r3_stages (fun _ _ => PropsNS.e3_step)).
Notation r7_shows dims loc bufsz := (shows_at 0 dims loc 2 [0; 1; 2; 3; 4; 5; 6; 7; 8]%nat [9; 10; 11]%nat 1 r7_actor bufsz).
Definition r7_h : happening Z (cstate Z * (nat -> Z)) := {| h_due := [true; true]; h_state := s_state r7_start; h_dt := 10 |}.
Definition r7_end : sconfig Z (cstate Z * (nat -> Z)) := {| s_count := 1; s_time := 10; s_timers := [10; 10]; s_state := r7_adv 0 0 10 (s_state r7_start) |}.
Lemma r7_step1 : r7_step r7_start r7_h r7_end.
Proof. apply (si Z.ltb Z.add 0 dr_due [5; 11] 8 Z.le dr_mag dr_lim (fun d => d) (global_size [2; 1; 1] [4; 8; 8]) [6; 7; 8]%nat (fun x => cs_u (fst x)) r7_adv r7_start 0); [reflexivity|]. apply AdaptiveThms.is_max_check. vm_compute. reflexivity. Qed.
Lemma r7_once s h s' h' s'' : r7_step s h s' -> r7_step s h' s'' -> h = h' /\ s' = s''.
Proof. exact (AdaptiveProofs.serial_once [2; 1; 1] [4; 8; 8] Z.ltb Z.add 0 dr_due [5; 11] 8 Z.le Z.min Z.max dr_mag dr_lim (fun d => d) [6; 7; 8]%nat (fun x => cs_u (fst x)) r7_adv dr_ordered s h s' h' s''). Qed.
Lemma r7_over h s : r7_step r7_end h s -> False.
Proof. intros H. inversion H as [U G]. discriminate G. Qed.
Lemma r7_where1 : r7_where 0 10 (s_state r7_start) = repeat (0%nat, r7_pose) 3.
Proof. vm_compute. reflexivity. Qed.
Lemma r7_acts hs s l : rod_acted (fun b => a_body (r7_actor b)) r7_rules Z.add Z.sub Z.mul 0 (fun x => x) (fold_right Z.add 0) 1 0 [6; 7; 8]%nat r7_flow 3 (fun _ => 2%nat) (fun d => d / 2) r3_stages r7_step r7_start hs s l ->
  (s = r7_start /\ l = []) \/ (s = r7_end /\ l = r7_where 0 10 (s_state r7_start)).
Proof.
  intros R. induction R as [|hs s l h s' R IH I]; [now left|]. destruct IH as [[-> ->]|[-> ->]].
  - destruct (r7_once _ _ _ _ _ I r7_step1) as [-> ->]. right. split; reflexivity.
  - destruct (r7_over _ _ I).
Qed.
Lemma r7_grid pz py px n0 n1 n2 : 1 <= pz -> 1 <= py -> 1 <= px -> 1 <= n0 -> 1 <= n1 -> 1 <= n2 -> grid_ok [pz; py; px] [n0; n1; n2].
Proof. split; [reflexivity|unfold positive; repeat (apply Forall_cons; [lia|]); apply Forall_nil|unfold positive; repeat (apply Forall_cons; [lia|]); apply Forall_nil]. Qed.
Lemma r7_stays_a : r7_stays 2 1 1 4 8 8 r7_actor r7_start (fun _ => r7_pose).
Proof.
  assert (D : Forall (in_domain 1 0 [2; 1; 1] [4; 8; 8]) r7_pose) by (repeat constructor; PropsInteractor.qle).
  assert (Same : counts_tell 1 0 [2; 1; 1] [4; 8; 8] r7_pose r7_pose).
  { intros a a' H H' _. exact (MovingProofs.blocks_unique [2; 1; 1] [4; 8; 8] 1 0 eq_refl (r7_grid 2 1 1 4 8 8 ltac:(lia) ltac:(lia) ltac:(lia) ltac:(lia) ltac:(lia) ltac:(lia)) _ a' a D H' H). }
  intros hs s l R. apply r7_acts in R. rewrite r7_where1 in R. destruct R as [[_ ->]|[_ ->]].
  - split; [constructor|]. intros b Hb. exact I.
  - split; [|intros [|b] Hb; [|lia]; cbn; auto]. apply Forall_forall. intros p Hp. apply repeat_spec in Hp. subst p.
    split; [cbn; lia|]; split; [reflexivity|]; split; [split; vm_compute; repeat constructor; try discriminate; lia|intros H; discriminate H].
Qed.
Lemma r7_stays_b : r7_stays 1 1 1 8 8 8 r7_actor r7_start (fun _ => r7_pose).
Proof.
  assert (D : Forall (in_domain 1 0 [1; 1; 1] [8; 8; 8]) r7_pose) by (repeat constructor; PropsInteractor.qle).
  assert (Same : counts_tell 1 0 [1; 1; 1] [8; 8; 8] r7_pose r7_pose).
  { intros a a' H H' _. exact (MovingProofs.blocks_unique [1; 1; 1] [8; 8; 8] 1 0 eq_refl (r7_grid 1 1 1 8 8 8 ltac:(lia) ltac:(lia) ltac:(lia) ltac:(lia) ltac:(lia) ltac:(lia)) _ a' a D H' H). }
  intros hs s l R. apply r7_acts in R. rewrite r7_where1 in R. destruct R as [[_ ->]|[_ ->]].
  - split; [constructor|]. intros b Hb. exact I.
  - split; [|intros [|b] Hb; [|lia]; cbn; auto]. apply Forall_forall. intros p Hp. apply repeat_spec in Hp. subst p.
    split; [cbn; lia|]; split; [reflexivity|]; split; [split; vm_compute; repeat constructor; try discriminate; lia|intros H; discriminate H].
Qed.
Lemma r7_tracks : tracks 0 [2; 1; 1] [4; 8; 8] 2 [0; 1; 2; 3; 4; 5; 6; 7; 8]%nat [9; 10; 11]%nat 1 r7_actor [[2; 12; 12]; [8; 2; 12]; [8; 12; 2]] c_maps (fun _ => 0) c_state.
Proof.
  split; try reflexivity; try (split; reflexivity).
  - intros b Hb. (split; [|reflexivity]); (split; [|split; [intros; apply LagProofs.count_eq|split; intros ? ? ? ? _ _ _; reflexivity]]);
      (split; [repeat constructor; cbn; lia|split; [split; [repeat constructor; cbn; tauto|intros s; cbn; lia]|reflexivity]]).
  - intros b Hb. repeat constructor; intros r K _ _; reflexivity.
  - intros b Hb Hl. discriminate Hl.
Qed.
Lemma r7_tracks1 : tracks 0 [1; 1; 1] [8; 8; 8] 2 [0; 1; 2; 3; 4; 5; 6; 7; 8]%nat [9; 10; 11]%nat 1 r7_actor [[2; 12; 12]; [12; 2; 12]; [12; 12; 2]] rr_maps1 r7_mem1 r7_state1.
Proof.
  split.
  - intros r Hr f Hf P _. cbn in Hf. decompose [or] Hf; try tauto; subst f; reflexivity.
  - split; [|intros f r J Hf _ _ _; cbn in Hf; decompose [or] Hf; try tauto; subst f; reflexivity].
    intros c f r J Hc Hn _ _. apply nth_error_In in Hn. cbn in Hn. decompose [or] Hn; try tauto; subst f; reflexivity.
  - intros b Hb. (split; [|reflexivity]); (split; [|split; [intros; apply LagProofs.count_eq|split; intros ? ? ? ? _ _ _; reflexivity]]);
      (split; [repeat constructor; cbn; lia|split; [split; [constructor|intros s; cbn; lia]|reflexivity]]).
  - intros b Hb. reflexivity.
  - intros b Hb. repeat constructor; intros r K _ _; reflexivity.
  - intros b Hb Hl. discriminate Hl.
Qed.
Lemma r7_set pz py px n0 n1 n2 : KernelList.grid3 pz py px n0 n1 n2 2 -> 3 <= n0 -> 3 <= n1 -> 3 <= n2 -> evenly [pz; py; px] -> r7_setting pz py px n0 n1 n2.
Proof.
  intros H1 H2 H3 H4 H5. destruct PropsNS.setting3_instance as [_ _ _ _ _ Q1 Q2 _]. split; auto; try lia. intros r a i _ _ _. reflexivity.
Qed.
Lemma r7_all dims : positive dims -> actors_ok dims 2 1 r7_actor [0; 1; 2; 3; 4; 5; 6; 7; 8; 9; 10; 11; 12; 13; 14; 15; 16; 17]%nat.
Proof. intros H. split; [cbn; repeat constructor; cbn; intuition discriminate|]. intros b Hb. cbn. assert (1 <= zprod dims) by (clear -H; induction H; cbn; [lia|nia]). lia. Qed.
Example C72_nonvacuous_3d : (r7_setting 2 1 1 4 8 8 /\ r7_setting 1 1 1 8 8 8 /\ at_most_one_split [2; 1; 1] /\ at_most_one_split [1; 1; 1] /\
    actors_ok [2; 1; 1] 2 1 r7_actor [0; 1; 2; 3; 4; 5; 6; 7; 8; 9; 10; 11; 12; 13; 14; 15; 16; 17]%nat /\ actors_ok [1; 1; 1] 2 1 r7_actor [0; 1; 2; 3; 4; 5; 6; 7; 8; 9; 10; 11; 12; 13; 14; 15; 16; 17]%nat) /\
  (by_default 1 r7_actor c_ord /\ rod_stages r3_stages /\ stages_load r3_stages /\ flow3_ok 0 [0; 1; 2]%nat [6; 7; 8]%nat [12; 13; 14]%nat [9; 10; 11]%nat PropsNS.e3_step) /\
  ((forall b, (b < 1)%nat -> in_blocks 1 0 [2; 1; 1] [4; 8; 8] r7_pose (cs_map c_state b)) /\ (forall b, (b < 1)%nat -> in_blocks 1 0 [1; 1; 1] [8; 8; 8] r7_pose (cs_map r7_state1 b))) /\
  (r7_stays 2 1 1 4 8 8 r7_actor r7_start (fun _ => r7_pose) /\ r7_stays 1 1 1 8 8 8 r7_actor r7_start (fun _ => r7_pose)) /\
  (all_at [2; 1; 1] (r7_shows [2; 1; 1] [4; 8; 8] [[2; 12; 12]; [8; 2; 12]; [8; 12; 2]]) (eq (cs_map c_state)) r7_ranks r7_start /\
   all_at [1; 1; 1] (r7_shows [1; 1; 1] [8; 8; 8] [[2; 12; 12]; [12; 2; 12]; [12; 12; 2]]) (eq (cs_map r7_state1)) r7_ranks1 r7_start1) /\
  (off_edge 0 [2; 1; 1] [4; 8; 8] (fst (s_state r7_start)) /\ off_edge 0 [1; 1; 1] [8; 8; 8] (fst (s_state r7_start1))) /\
  (timers_as dr_due [5; 11] (s_timers r7_start) (s_timers r7_start1) /\
   as_saved (global_size [2; 1; 1] [4; 8; 8]) 3 1 (fun b => a_body (r7_actor b)) [0; 1; 2; 6; 7; 8]%nat (fst (s_state r7_start)) (fst (s_state r7_start1))) /\
  (exists hs s, r7_run r7_start hs s /\ serial_over Z.ltb 8 s /\ map h_dt hs = [10]) /\
  s_timers r7_start <> s_timers r7_start1 /\ cs_u (fst (s_state r7_start)) 4%nat [3; 3; 3] <> cs_u (fst (s_state r7_start1)) 4%nat [3; 3; 3].
Proof.
  split; [|split].
  { split; [apply r7_set; try lia; [unfold KernelList.grid3; lia|repeat constructor; lia]|]. split; [apply r7_set; try lia; [unfold KernelList.grid3; lia|repeat constructor; lia]|].
    split; [unfold at_most_one_split; vm_compute; repeat constructor|]. split; [unfold at_most_one_split; vm_compute; repeat constructor|]. split; apply r7_all; unfold positive; repeat constructor; lia. }
  { split; [|split; [|split]].
    - intros b Hb. split; [reflexivity|]. intros a. unfold c_ord. split; [apply NoDup_filter, NoDup_nodup|]. intros s. rewrite filter_In, nodup_In. cbn. destruct (Z.eqb_spec s 0); cbn [negb]; intuition congruence.
    - exact (proj1 C71_nonvacuous_3d).
    - intros h. cbn. tauto.
    - exact (proj1 (proj2 C71_nonvacuous_3d)). }
  split; [split; intros b Hb; repeat constructor; try (vm_compute; intuition discriminate); PropsInteractor.qle|].
  split; [exact (conj r7_stays_a r7_stays_b)|]. split.
  { split; (split; [reflexivity|]; split; [intros r Hr; split; reflexivity|]; eexists; split; [reflexivity|]; eexists; split; [|split; [|split]]).
    all: try exact r7_tracks. all: try exact r7_tracks1. all: try reflexivity. all: try (intros; reflexivity). all: repeat split. }
  split; [split; intros c P _ _; reflexivity|]. split.
  { split; [repeat constructor; right; split; reflexivity|]. split; try reflexivity. intros a P Ha _. cbn in Ha. decompose [or] Ha; try tauto; subst a; reflexivity. }
  split; [|split; discriminate]. exists ([] ++ [r7_h]), r7_end. split; [eapply sis_snoc; [apply sis_nil|exact r7_step1]|]. split; reflexivity.
Qed.
Print Assumptions C72_restarted_2d.
Print Assumptions C72_restarted_3d.
