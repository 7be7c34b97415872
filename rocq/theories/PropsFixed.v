(** Property C69: flow past a body that stays where it is. *)
From Coq Require Import QArith FunctionalExtensionality.
From Verif Require Import Base SpecGrid SpecGhostSum SpecStencil SpecStep SpecPenalise SpecFilter SpecDouble SpecLag SpecIB SpecVbf SpecNS SpecBodies SpecCoupled SpecReduce SpecDiag SpecLoop SpecInteractor SpecAdaptive SpecDriver SpecDrag SpecFixed
  Comm Blocking Spmd Stencil Lagrangian Vbf NavierStokes Coupled SpecTracks Loop Interactor Diagnostics Adaptive Driver Drag.
From Verif Require PropsNS PropsCoupled PropsLoop PropsInteractor PropsDrag KernelProofs AdaptiveProofs AdaptiveThms DragProofs FixedProofs IoLagProofs.
From Verif Require Import PropsDriver.
Open Scope Z_scope.

(** Body b with nodes x fits: its interactor refreshes ghosts itself (auto_ghosting, the default), its nodes are inside, [a b] says in
    whose blocks they lie, and with assume_data_locality that is the master's. *)
Record fits {T B L} (dims loc : list Z) (dx shift : Q) (nb : nat) (actors : nat -> actor T) (rules : nat -> body_rules T B L) (ord : nat -> list Z -> list Z) (b : nat) (x : B) (a : nat -> list Z) : Prop := {
  f_body : (b < nb)%nat;
  f_auto : a_auto (actors b) = true;
  f_count : Z.of_nat (length (b_nodes (rules b) x)) = v_count (a_body (actors b));
  f_inside : stays_inside dx shift (global_size dims loc) (v_width (a_body (actors b))) (b_nodes (rules b) x);
  f_blocks : Forall2 (fun pos r => 0 <= r < zprod dims /\ in_block dx shift dims loc r pos) (b_nodes (rules b) x) (a b);
  f_order : forall a', NoDup (ord b a') /\ forall s, In s (ord b a') <-> In s a' /\ s <> a_master (actors b);
  f_local : a_local (actors b) = true -> a b = repeat (a_master (actors b)) (Z.to_nat (v_count (a_body (actors b)))) }.

Section Two.
Context {T W V C B L : Type}.
(* times, as in C59 *)
Variables (before : W -> W -> bool) (plus : W -> W -> W) (zero : W) (due : W -> W -> bool) (limits : list W) (final : W).
Variables (le : T -> T -> Prop) (mnT mx : T -> T -> T) (leW : W -> W -> Prop) (mn mxW : W -> W -> W) (mag : list T -> T) (lim : T -> W) (pre : W -> W).
Hypothesis values_ordered : ordered le mnT mx.
Hypothesis times_ordered : ordered leW mn mxW.
Hypothesis limit_antitone : forall k l, le (mag k) (mag l) -> leW (lim (mag l)) (lim (mag k)).
(* flow and bodies, as in C54 *)
Variables (add sub mul : T -> T -> T) (z : T) (times0 scale : T -> T) (sum : list T -> T) (dx shift : Q).
Variables (damp : C -> C -> T -> T) (coord : nat -> Z -> C) (width : Z) (conv : (list Z -> T) -> list Z -> T) (Kcx Kcy : @kfun T).
Variables (w psi vx vy fx fy buf D S : nat) (nb : nat).
Hypothesis add_monoid : comm_monoid add z.
Hypothesis zeroing : forall x, times0 x = z.
Hypothesis spacing : (0 < dx)%Q.
Variables (rules : nat -> body_rules T B L) (look : list (list T) -> V) (none : L).
(* the body that is in the flow; the time step as a number; the flow's steps *)
Variables (b : nat) (value : W -> T) (step : nat -> W -> W -> @ns2_step T).
Notation num := (@three W).
Notation script := (fixed_calls b value step).
Notation Fs := [w; psi; vx; vy].
Notation setting py px ny nx g dd xg := (ns2_setting py px ny nx g width dd xg coord w psi vx vy fx fy buf D S Kcx Kcy).
Notation all_ok py px g actors := (actors_ok [py; px] g nb actors [w; psi; vx; vy; fx; fy; buf; D; S]).
Notation shows py px ny nx g actors := (@shows_at T B z [py; px] [ny; nx] g Fs [fx; fy] nb actors [[g; nx + 2 * g]; [ny + 2 * g; g]]).
Notation flow_step N := (fun frc u s => serial_ns_2d add z damp coord width conv Kcx Kcy N w psi vx vy fx fy u (with_forcing2 [fx; fy] frc s)).
Notation plain := (fun lift : list V -> @ns2_step T -> @ns2_step T => lift = (fun _ s => s)).
(* serial iterations: of all calls, with the time step for the top speed of the flow *)
Notation advance N actors := (driven 2 N Fs (fun b => a_body (actors b)) rules look num script add sub mul z scale sum dx shift [vx; vy] (flow_step N)).
Notation serial_step N actors := (serial_iteration before plus zero due limits final le mag lim pre N [vx; vy] (fun x => cs_u (fst x)) (advance N actors)).
Notation serial_run N actors := (serial_iterations before plus zero due limits final le mag lim pre N [vx; vy] (fun x => cs_u (fst x)) (advance N actors)).
(* the ranks' iterations *)
Notation rest py px ny nx g full dd xg actors ord := (drive add sub mul z scale sum dx shift [py; px] [ny; nx] g [vx; vy] Fs [fx; fy] actors
  (exch_2d py px ny nx g full [vx; vy]) (spread_2 add mul times0 dx shift py px ny nx g [fx; fy])
  (time_step_2d add z damp conv py px ny nx g full dd width xg w psi vx vy fx fy buf D S Kcx Kcy) rules num script look none ord plain).
Notation ranks_run py px ny nx g full dd xg actors ord := (iterations [py; px] [ny; nx] g before plus zero due limits final mag mx lim mn pre [vx; vy] buf
  (keeps Fs [fx; fy] nb actors) (rest py px ny nx g full dd xg actors ord)).
(* data timer, np.sum, units *)
Context {TI D' : Type}.
Variables (timer : nat) (np_sum : list T -> T) (scaled : W -> TI) (coeff : T -> D').
Notation history actors := (drag_history plus timer b (v_count (a_body (actors b))) np_sum scaled coeff).
Notation file actors := (drag_file plus timer (a_master (actors b)) (gfo (a_arrays (actors b))) (v_count (a_body (actors b))) np_sum scaled coeff).
Notation legal py px ny nx actors ord s0 a0 := (drives_legally_2d before plus zero due limits final le mag lim pre add sub mul z scale sum dx shift damp coord width conv Kcx Kcy w psi vx vy fx fy nb rules three (fixed_calls b value step) look py px ny nx actors ord s0 a0).
Notation fit py px ny nx actors ord s0 a0 := (fits [py; px] [ny; nx] dx shift nb actors rules ord b (snd (s_state s0) b) a0).

(** C69 (2D).  A body that fits at the start makes only legal calls, in every iteration of every run, whatever the flow does. *)
Theorem C69_calls_legal_2d py px ny nx g actors ord (s0 : sconfig W (cstate T * (nat -> B))) a0 : KernelList.grid2 py px ny nx g ->
  fit py px ny nx actors ord s0 a0 -> (forall k t d, flow2_ok z w vx vy fx fy (step k t d)) -> legal py px ny nx actors ord s0 a0.
Proof.
  intros G [F1 F2 F3 F4 F5 F6 F7] Hf hs s a h s' R I. pose proof (KernelProofs.g2_ok _ _ _ _ _ G) as GO.
  pose proof (FixedProofs.mapped_to [py; px] [ny; nx] dx shift _ _ spacing GO F5 (FixedProofs.inside_in_domain _ _ _ _ _ _ GO F4)) as M.
  exact (FixedProofs.fixed_legal before plus zero due limits final le mag lim pre [py; px] [ny; nx] Fs [fx; fy] [vx; vy] nb actors rules look add sub mul z scale sum dx shift _ b value step ord _ (flow2_ok z w vx vy fx fy) s0 a0
    spacing GO F1 F2 F3 F4 M F6 F7 hs s a (fun _ s => s) (h_dt h) R (fun _ _ k t d => Hf k t d)).
Qed.
(** C69 (2D).  The driver ends exactly if the serial one does, after as many iterations; every memory it passes through shows the serial
    state; and the file it leaves has the rows of the serial history. *)
Theorem C69_flow_past_body_2d py px ny nx g full dd xg actors ord c0 s0 a0 :
  setting py px ny nx g dd xg -> all_ok py px g actors -> fit py px ny nx actors ord s0 a0 -> (forall k t d, flow2_ok z w vx vy fx fy (step k t d)) ->
  all_at [py; px] (shows py px ny nx g actors) (eq a0) c0 s0 -> off_edge z [py; px] [ny; nx] (fst (s_state s0)) ->
  ((exists tr c, ranks_run py px ny nx g full dd xg actors ord c0 tr c /\ over [py; px] before final c) <->
   (exists hs s, serial_run (global_size [py; px] [ny; nx]) actors s0 hs s /\ serial_over before final s)) /\
  forall tr c, ranks_run py px ny nx g full dd xg actors ord c0 tr c ->
    exists hs s, serial_run (global_size [py; px] [ny; nx]) actors s0 hs s /\ Forall2 (same_event (shows py px ny nx g actors)) tr hs /\
      all_at [py; px] (shows py px ny nx g actors) (fun _ => True) c s /\
      (over [py; px] before final c -> forall r, 0 <= r < py * px -> file actors r (c_time c0 r) tr = if r =? a_master (actors b) then Some (history actors (s_time s0) hs) else None).
Proof.
  intros HS HA Hfit Hf H Ho. pose proof HS as [G _ _ _ _ _ _ _ _]. pose proof (f_body _ _ _ _ _ _ _ _ _ _ _ Hfit) as Hb. pose proof (C69_calls_legal_2d py px ny nx g actors ord s0 a0 G Hfit Hf) as Hl. split.
  - exact (proj1 (C60_ends_as_serial_2d before plus zero due limits final le mnT mx leW mn mxW mag lim pre values_ordered times_ordered limit_antitone add sub mul z times0 scale sum dx shift damp coord width conv Kcx Kcy w psi vx vy fx fy buf D S nb
      add_monoid zeroing spacing rules num script look none py px ny nx g full dd xg actors ord c0 s0 a0 HS HA Hl H Ho)).
  - intros tr c It.
    destruct (C60_lockstep_2d before plus zero due limits final le mnT mx leW mn mxW mag lim pre values_ordered times_ordered limit_antitone add sub mul z times0 scale sum dx shift damp coord width conv Kcx Kcy w psi vx vy fx fy buf D S nb
      add_monoid zeroing spacing rules num script look none py px ny nx g full dd xg actors ord c0 s0 a0 tr c HS HA Hl H Ho It) as (hs & s & S1 & F1 & C1 & _).
    exists hs, s. split; [exact S1|]. split; [exact F1|]. split; [exact C1|]. intros _ r Hr. destruct H as (_ & H2 & _). destruct (H2 r ltac:(cbn; lia)) as [-> _].
    apply (DragProofs.file_shown plus timer b np_sum scaled coeff z [py; px] [ny; nx] g Fs [fx; fy] nb actors [[g; nx + 2 * g]; [ny + 2 * g; g]] Hb ltac:(discriminate) tr hs (s_time s0) r F1).
Qed.

(** From the constructors on: one body, requested as q, nodes mapped by position (assume_data_locality off), auto_ghosting. *)
Section Scratch.
Variables (pow : T -> Z -> T) (lt : T -> T -> bool) (two_dx half_dx : T) (base : nat) (q : request T) (u0 : nat -> list Z -> T) (body0 : nat -> B) (t0 : W) (ts0 : list W).
Hypothesis one_body : nb = 1%nat.
Hypothesis that_body : b = 0%nat.
Hypothesis new_arrays : forall f, In f [w; psi; vx; vy; fx; fy; buf; D; S] -> (f < base)%nat.
Hypothesis its_nodes : b_nodes (rules b) (body0 b) = g_nodes q.
Hypothesis mapped : g_local q = false.
Hypothesis ghosting : g_auto q = true.
Definition cold_2d : sconfig W (cstate T * (nat -> B)) := {| s_count := 0; s_time := t0; s_timers := ts0; s_state := (cold_start z u0 (fun _ => []), body0) |}.
Notation made_of xs := (fun b' : nat => @actor_made T (fun _ => q) base b' (xs b' (g_master q))).
Definition begin_2d py px ny nx g ord (xs : nat -> Z -> @made T) (m : mem T) : config T W ((nat -> vb) * (Z -> nat -> B)) :=
  {| c_count := 0; c_time := fun _ => t0; c_timers := fun _ => ts0; c_mem := init_memories z (made_of xs) nb (start_memory z [py; px] [ny; nx] g [w; psi; vx; vy] [fx; fy] u0 m);
     c_rest := (fun b' => state_made (fun _ => q) ord b' (xs b'), fun _ => body0) |}.
(** C69 (2D).  Whatever was in memory: what the constructors leave is a legal start, at rest, for every decomposition whose ghost zone holds
    the kernel, so that the theorems above apply to the rest of the program. *)
Theorem C69_from_scratch_2d py px ny nx g dd xg ord xs m :
  setting py px ny nx g dd xg -> (forall f P, ~ inb (global_size [py; px] [ny; nx]) P -> u0 f P = z) -> request_ok (py * px) 2 g q ->
  stays_inside dx shift (global_size [py; px] [ny; nx]) (width_of q) (g_nodes q) ->
  (forall b' a, NoDup (ord b' a) /\ forall s, In s (ord b' a) <-> In s a /\ s <> g_master q) ->
  (forall b' r, 0 <= r < py * px -> interactor_init mul pow lt two_dx half_dx [py; px] [ny; nx] dx shift g q r = Ready (xs b' r)) ->
  let actors := made_of xs in let c0 := begin_2d py px ny nx g ord xs m in let a0 := fun b' => address (state_made (fun _ => q) ord b' (xs b')) in
  all_ok py px g actors /\ fit py px ny nx actors ord cold_2d a0 /\ all_at [py; px] (shows py px ny nx g actors) (eq a0) c0 cold_2d /\ off_edge z [py; px] [ny; nx] (fst (s_state cold_2d)) /\
  a_body (actors b) = body_of mul pow q.
Proof.
  intros HS Hu Hq Hin Ho Hx actors c0 a0. subst actors c0 a0. pose proof HS as [G Hg _ _ _ _ HD _ _]. pose proof (KernelProofs.g2_ok _ _ _ _ _ G) as GO.
  assert (P : zprod [py; px] = py * px) by (cbn [zprod fold_right]; lia).
  pose proof (FixedProofs.inside_in_domain _ _ _ _ _ _ GO Hin) as Hdom.
  destruct (PropsInteractor.C55_simulation_starts_at_rest mul pow lt two_dx half_dx z [py; px] [ny; nx] dx shift g [w; psi; vx; vy] [fx; fy] [w; psi; vx; vy; fx; fy; buf; D; S] u0
    [[g; nx + 2 * g]; [ny + 2 * g; g]] (fun _ => q) ord nb base xs m) as (Ht & He & Ha & Hb); auto.
  - intros f Hf. cbn in *. tauto.
  - intros f Hf. cbn in *. tauto.
  - intros f Hf Hf'. clear -HD Hf Hf'. repeat rewrite NoDup_cons_iff in HD. cbn [In] in *. destruct HD as (D1 & D2 & D3 & D4 & _). intuition congruence.
  - intros b' _. rewrite P. apply Hq.
  - intros b' r _. rewrite P. apply Hx.
  - cbv zeta in Ht, He, Ha, Hb. destruct (Hb b ltac:(lia)) as (B1 & B2 & B3 & B4). split; [exact Ha|]. split; [|split; [|split; [exact He|exact B1]]].
    + split; cbn [cold_2d s_state snd]; rewrite ?its_nodes; auto; try lia.
      * now rewrite B4.
      * rewrite B1. reflexivity.
      * rewrite B1. exact Hin.
      * destruct Hq as (Hm & Ed & Hw). destruct (PropsInteractor.C55_all_ranks_know_the_body mul pow lt two_dx half_dx [py; px] [ny; nx] dx shift g q (g_master q) (xs b (g_master q))) as (_ & _ & _ & _ & _ & _ & _ & _ & A); auto; try (rewrite P; exact Hm).
        destruct (A mapped Hdom) as (A1 & _). unfold state_made. cbv zeta. cbn [address]. rewrite mapped. exact A1.
      * intros E. rewrite B3 in E. congruence.
    + split; [reflexivity|]. split; [intros r Hr; split; reflexivity|]. exists (fun b' => address (state_made (fun _ => q) ord b' (xs b'))). split; [reflexivity|].
      exists (cold_start z u0 (fun b' => address (state_made (fun _ => q) ord b' (xs b')))). split; [repeat split|]. split; [reflexivity|]. split; [exact Ht|]. intros b' Hb'. reflexivity.
Qed.
End Scratch.
End Two.

Section Three.
Context {T W V C B L : Type}.
(* times, as in C59 *)
Variables (before : W -> W -> bool) (plus : W -> W -> W) (zero : W) (due : W -> W -> bool) (limits : list W) (final : W).
Variables (le : T -> T -> Prop) (mnT mx : T -> T -> T) (leW : W -> W -> Prop) (mn mxW : W -> W -> W) (mag : list T -> T) (lim : T -> W) (pre : W -> W).
Hypothesis values_ordered : ordered le mnT mx.
Hypothesis times_ordered : ordered leW mn mxW.
Hypothesis limit_antitone : forall k l, le (mag k) (mag l) -> leW (lim (mag l)) (lim (mag k)).
(* flow and bodies, as in C54 *)
Variables (add sub mul : T -> T -> T) (z : T) (times0 scale : T -> T) (sum : list T -> T) (dx shift : Q).
Variables (damp : C -> C -> T -> T) (coord : nat -> Z -> C) (width : Z) (conv : (list Z -> T) -> list Z -> T) (Kcx Kcy Kcz : @kfun T)
          (lap : T -> T -> T -> T) (fsub : T -> T -> T) (filt : option (filter_type * nat * Z)).
Variables (w0 w1 w2 p0 p1 p2 vx vy vz fx fy fz b0 b1 b2 buf D S : nat) (nb : nat).
Hypothesis add_monoid : comm_monoid add z.
Hypothesis zeroing : forall x, times0 x = z.
Hypothesis spacing : (0 < dx)%Q.
Variables (rules : nat -> body_rules T B L) (look : list (list T) -> V) (none : L).
(* the body that is in the flow; the time step as a number; the flow's steps *)
Variables (b : nat) (value : W -> T) (step : nat -> W -> W -> @ns3_step T).
Notation num := (@three W).
Notation script := (fixed_calls b value step).
Notation ws := [w0; w1; w2].
Notation vs := [vx; vy; vz].
Notation fs := [fx; fy; fz].
Notation bs := [b0; b1; b2].
Notation Fs := [w0; w1; w2; p0; p1; p2; vx; vy; vz].
Notation setting pz py px n0 n1 n2 g xg := (ns3_setting pz py px n0 n1 n2 g width filt xg coord w0 w1 w2 p0 p1 p2 vx vy vz fx fy fz b0 b1 b2 buf D S Kcx Kcy Kcz).
Notation all_ok pz py px g actors := (actors_ok [pz; py; px] g nb actors [w0; w1; w2; p0; p1; p2; vx; vy; vz; fx; fy; fz; b0; b1; b2; buf; D; S]).
Notation bufsz n0 n1 n2 g := [[g; n1 + 2 * g; n2 + 2 * g]; [n0 + 2 * g; g; n2 + 2 * g]; [n0 + 2 * g; n1 + 2 * g; g]].
Notation shows pz py px n0 n1 n2 g actors := (@shows_at T B z [pz; py; px] [n0; n1; n2] g Fs fs nb actors (bufsz n0 n1 n2 g)).
Notation flow_step N := (fun frc u s => serial_ns_3d add z damp coord width conv Kcx Kcy Kcz lap fsub filt N w0 w1 w2 p0 p1 p2 vx vy vz b0 b1 b2 fx fy fz u (with_forcing3 fs frc s)).
Notation time_step pz py px n0 n1 n2 g full xg := (fun sr : @ns3_step T * (Z -> nat -> list Z -> T) => time_step_3d add z damp conv lap fsub filt pz py px n0 n1 n2 g full width xg w0 w1 w2 p0 p1 p2 vx vy vz fx fy fz b0 b1 b2 buf D S Kcx Kcy Kcz (snd sr) (fst sr)).
Notation flow_ok := (fun s : @ns3_step T * (Z -> nat -> list Z -> T) => flow3_ok z ws vs bs fs (fst s)).
(* [race h]: arbitrary values for the cells that the curl kernel updates while a ghost it reads is being received, in the step taken after [h] has been seen *)
Notation racing := (fun lift : list V -> @ns3_step T -> @ns3_step T * (Z -> nat -> list Z -> T) => exists race, lift = (fun h s => (s, race h))).
(* serial iterations: of all calls, with the time step for the top speed of the flow *)
Notation advance N actors := (driven 3 N Fs (fun b => a_body (actors b)) rules look num script add sub mul z scale sum dx shift vs (flow_step N)).
Notation serial_step N actors := (serial_iteration before plus zero due limits final le mag lim pre N vs (fun x => cs_u (fst x)) (advance N actors)).
Notation serial_run N actors := (serial_iterations before plus zero due limits final le mag lim pre N vs (fun x => cs_u (fst x)) (advance N actors)).
(* the ranks' iterations *)
Notation rest pz py px n0 n1 n2 g full xg actors ord := (drive add sub mul z scale sum dx shift [pz; py; px] [n0; n1; n2] g vs Fs fs actors
  (exch_3d pz py px n0 n1 n2 g full vs) (spread_3 add mul times0 dx shift pz py px n0 n1 n2 g fs)
  (time_step pz py px n0 n1 n2 g full xg) rules num script look none ord racing).
Notation ranks_run pz py px n0 n1 n2 g full xg actors ord := (iterations [pz; py; px] [n0; n1; n2] g before plus zero due limits final mag mx lim mn pre vs buf
  (keeps Fs fs nb actors) (rest pz py px n0 n1 n2 g full xg actors ord)).
(* data timer, np.sum, units *)
Context {TI D' : Type}.
Variables (timer : nat) (np_sum : list T -> T) (scaled : W -> TI) (coeff : T -> D').
Notation history actors := (drag_history plus timer b (v_count (a_body (actors b))) np_sum scaled coeff).
Notation file actors := (drag_file plus timer (a_master (actors b)) (gfo (a_arrays (actors b))) (v_count (a_body (actors b))) np_sum scaled coeff).
Notation legal pz py px n0 n1 n2 actors ord s0 a0 := (drives_legally_3d before plus zero due limits final le mag lim pre add sub mul z scale sum dx shift damp coord width conv Kcx Kcy Kcz lap fsub filt w0 w1 w2 p0 p1 p2 vx vy vz fx fy fz b0 b1 b2 nb rules three (fixed_calls b value step) look pz py px n0 n1 n2 actors ord s0 a0).
Notation fit pz py px n0 n1 n2 actors ord s0 a0 := (fits [pz; py; px] [n0; n1; n2] dx shift nb actors rules ord b (snd (s_state s0) b) a0).

(** C69 (3D).  A body that fits at the start makes only legal calls, in every iteration of every run, whatever the flow does. *)
Theorem C69_calls_legal_3d pz py px n0 n1 n2 g actors ord (s0 : sconfig W (cstate T * (nat -> B))) a0 : KernelList.grid3 pz py px n0 n1 n2 g ->
  fit pz py px n0 n1 n2 actors ord s0 a0 -> (forall k t d, flow3_ok z ws vs bs fs (step k t d)) -> legal pz py px n0 n1 n2 actors ord s0 a0.
Proof.
  intros G [F1 F2 F3 F4 F5 F6 F7] Hf hs s a h s' R I race. pose proof (KernelProofs.g3_ok _ _ _ _ _ _ _ G) as GO.
  pose proof (FixedProofs.mapped_to [pz; py; px] [n0; n1; n2] dx shift _ _ spacing GO F5 (FixedProofs.inside_in_domain _ _ _ _ _ _ GO F4)) as M.
  exact (FixedProofs.fixed_legal before plus zero due limits final le mag lim pre [pz; py; px] [n0; n1; n2] Fs fs vs nb actors rules look add sub mul z scale sum dx shift _ b value step ord _ flow_ok s0 a0
    spacing GO F1 F2 F3 F4 M F6 F7 hs s a (fun h s => (s, race h)) (h_dt h) R (fun _ _ k t d => Hf k t d)).
Qed.
(** C69 (3D).  The driver ends exactly if the serial one does, after as many iterations; every memory it passes through shows the serial
    state; and the file it leaves has the rows of the serial history. *)
Theorem C69_flow_past_body_3d pz py px n0 n1 n2 g full xg actors ord c0 s0 a0 :
  setting pz py px n0 n1 n2 g xg -> all_ok pz py px g actors -> full = true \/ at_most_one_split [pz; py; px] -> fit pz py px n0 n1 n2 actors ord s0 a0 -> (forall k t d, flow3_ok z ws vs bs fs (step k t d)) ->
  all_at [pz; py; px] (shows pz py px n0 n1 n2 g actors) (eq a0) c0 s0 -> off_edge z [pz; py; px] [n0; n1; n2] (fst (s_state s0)) ->
  ((exists tr c, ranks_run pz py px n0 n1 n2 g full xg actors ord c0 tr c /\ over [pz; py; px] before final c) <->
   (exists hs s, serial_run (global_size [pz; py; px] [n0; n1; n2]) actors s0 hs s /\ serial_over before final s)) /\
  forall tr c, ranks_run pz py px n0 n1 n2 g full xg actors ord c0 tr c ->
    exists hs s, serial_run (global_size [pz; py; px] [n0; n1; n2]) actors s0 hs s /\ Forall2 (same_event (shows pz py px n0 n1 n2 g actors)) tr hs /\
      all_at [pz; py; px] (shows pz py px n0 n1 n2 g actors) (fun _ => True) c s /\
      (over [pz; py; px] before final c -> forall r, 0 <= r < pz * py * px -> file actors r (c_time c0 r) tr = if r =? a_master (actors b) then Some (history actors (s_time s0) hs) else None).
Proof.
  intros HS HA Hc Hfit Hf H Ho. pose proof HS as [G _ _ _ _ _ _ _]. pose proof (f_body _ _ _ _ _ _ _ _ _ _ _ Hfit) as Hb. pose proof (C69_calls_legal_3d pz py px n0 n1 n2 g actors ord s0 a0 G Hfit Hf) as Hl. split.
  - exact (proj1 (C60_ends_as_serial_3d before plus zero due limits final le mnT mx leW mn mxW mag lim pre values_ordered times_ordered limit_antitone add sub mul z times0 scale sum dx shift damp coord width conv Kcx Kcy Kcz lap fsub filt w0 w1 w2 p0 p1 p2 vx vy vz fx fy fz b0 b1 b2 buf D S nb
      add_monoid zeroing spacing rules num script look none pz py px n0 n1 n2 g full xg actors ord c0 s0 a0 HS HA Hc Hl H Ho)).
  - intros tr c It.
    destruct (C60_lockstep_3d before plus zero due limits final le mnT mx leW mn mxW mag lim pre values_ordered times_ordered limit_antitone add sub mul z times0 scale sum dx shift damp coord width conv Kcx Kcy Kcz lap fsub filt w0 w1 w2 p0 p1 p2 vx vy vz fx fy fz b0 b1 b2 buf D S nb
      add_monoid zeroing spacing rules num script look none pz py px n0 n1 n2 g full xg actors ord c0 s0 a0 tr c HS HA Hc Hl H Ho It) as (hs & s & S1 & F1 & C1 & _).
    exists hs, s. split; [exact S1|]. split; [exact F1|]. split; [exact C1|]. intros _ r Hr. destruct H as (_ & H2 & _). destruct (H2 r ltac:(cbn; lia)) as [-> _].
    apply (DragProofs.file_shown plus timer b np_sum scaled coeff z [pz; py; px] [n0; n1; n2] g Fs fs nb actors (bufsz n0 n1 n2 g) Hb ltac:(discriminate) tr hs (s_time s0) r F1).
Qed.

(** From the constructors on: one body, requested as q, nodes mapped by position (assume_data_locality off), auto_ghosting. *)
Section Scratch.
Variables (pow : T -> Z -> T) (lt : T -> T -> bool) (two_dx half_dx : T) (base : nat) (q : request T) (u0 : nat -> list Z -> T) (body0 : nat -> B) (t0 : W) (ts0 : list W).
Hypothesis one_body : nb = 1%nat.
Hypothesis that_body : b = 0%nat.
Hypothesis new_arrays : forall f, In f [w0; w1; w2; p0; p1; p2; vx; vy; vz; fx; fy; fz; b0; b1; b2; buf; D; S] -> (f < base)%nat.
Hypothesis its_nodes : b_nodes (rules b) (body0 b) = g_nodes q.
Hypothesis mapped : g_local q = false.
Hypothesis ghosting : g_auto q = true.
Definition cold_3d : sconfig W (cstate T * (nat -> B)) := {| s_count := 0; s_time := t0; s_timers := ts0; s_state := (cold_start z u0 (fun _ => []), body0) |}.
Notation made_of xs := (fun b' : nat => @actor_made T (fun _ => q) base b' (xs b' (g_master q))).
Definition begin_3d pz py px n0 n1 n2 g ord (xs : nat -> Z -> @made T) (m : mem T) : config T W ((nat -> vb) * (Z -> nat -> B)) :=
  {| c_count := 0; c_time := fun _ => t0; c_timers := fun _ => ts0; c_mem := init_memories z (made_of xs) nb (start_memory z [pz; py; px] [n0; n1; n2] g Fs fs u0 m);
     c_rest := (fun b' => state_made (fun _ => q) ord b' (xs b'), fun _ => body0) |}.
(** C69 (3D).  Whatever was in memory: what the constructors leave is a legal start, at rest, for every decomposition whose ghost zone holds
    the kernel, so that the theorems above apply to the rest of the program. *)
Theorem C69_from_scratch_3d pz py px n0 n1 n2 g xg ord xs m :
  setting pz py px n0 n1 n2 g xg -> (forall f P, ~ inb (global_size [pz; py; px] [n0; n1; n2]) P -> u0 f P = z) -> request_ok (pz * py * px) 3 g q ->
  stays_inside dx shift (global_size [pz; py; px] [n0; n1; n2]) (width_of q) (g_nodes q) ->
  (forall b' a, NoDup (ord b' a) /\ forall s, In s (ord b' a) <-> In s a /\ s <> g_master q) ->
  (forall b' r, 0 <= r < pz * py * px -> interactor_init mul pow lt two_dx half_dx [pz; py; px] [n0; n1; n2] dx shift g q r = Ready (xs b' r)) ->
  let actors := made_of xs in let c0 := begin_3d pz py px n0 n1 n2 g ord xs m in let a0 := fun b' => address (state_made (fun _ => q) ord b' (xs b')) in
  all_ok pz py px g actors /\ fit pz py px n0 n1 n2 actors ord cold_3d a0 /\ all_at [pz; py; px] (shows pz py px n0 n1 n2 g actors) (eq a0) c0 cold_3d /\ off_edge z [pz; py; px] [n0; n1; n2] (fst (s_state cold_3d)) /\
  a_body (actors b) = body_of mul pow q.
Proof.
  intros HS Hu Hq Hin Ho Hx actors c0 a0. subst actors c0 a0. pose proof HS as [G Hg _ _ _ HD _ _]. pose proof (KernelProofs.g3_ok _ _ _ _ _ _ _ G) as GO.
  assert (P : zprod [pz; py; px] = pz * py * px) by (cbn [zprod fold_right]; lia).
  pose proof (FixedProofs.inside_in_domain _ _ _ _ _ _ GO Hin) as Hdom.
  destruct (PropsInteractor.C55_simulation_starts_at_rest mul pow lt two_dx half_dx z [pz; py; px] [n0; n1; n2] dx shift g Fs fs [w0; w1; w2; p0; p1; p2; vx; vy; vz; fx; fy; fz; b0; b1; b2; buf; D; S] u0
    (bufsz n0 n1 n2 g) (fun _ => q) ord nb base xs m) as (Ht & He & Ha & Hb); auto.
  - intros f Hf. cbn in *. tauto.
  - intros f Hf. cbn in *. tauto.
  - intros f Hf Hf'. apply (proj2 (proj2 (IoLagProofs.NoDup_app_split Fs (fs ++ [b0; b1; b2; buf; D; S]) HD))) in Hf. apply Hf. apply in_app_iff. auto.
  - intros b' _. rewrite P. apply Hq.
  - intros b' r _. rewrite P. apply Hx.
  - cbv zeta in Ht, He, Ha, Hb. destruct (Hb b ltac:(lia)) as (B1 & B2 & B3 & B4). split; [exact Ha|]. split; [|split; [|split; [exact He|exact B1]]].
    + split; cbn [cold_3d s_state snd]; rewrite ?its_nodes; auto; try lia.
      * now rewrite B4.
      * rewrite B1. reflexivity.
      * rewrite B1. exact Hin.
      * destruct Hq as (Hm & Ed & Hw). destruct (PropsInteractor.C55_all_ranks_know_the_body mul pow lt two_dx half_dx [pz; py; px] [n0; n1; n2] dx shift g q (g_master q) (xs b (g_master q))) as (_ & _ & _ & _ & _ & _ & _ & _ & A); auto; try (rewrite P; exact Hm).
        destruct (A mapped Hdom) as (A1 & _). unfold state_made. cbv zeta. cbn [address]. rewrite mapped. exact A1.
      * intros E. rewrite B3 in E. congruence.
    + split; [reflexivity|]. split; [intros r Hr; split; reflexivity|]. exists (fun b' => address (state_made (fun _ => q) ord b' (xs b'))). split; [reflexivity|].
      exists (cold_start z u0 (fun b' => address (state_made (fun _ => q) ord b' (xs b')))). split; [repeat split|]. split; [reflexivity|]. split; [exact Ht|]. intros b' Hb'. reflexivity.
Qed.
End Scratch.
End Three.

(** *** A case: body 0 of PropsInteractor, alone and fixed, on 2 x 1 ranks, from its constructor on; flow at rest, end at time 11. *)
Definition fb_q : request Z := PropsInteractor.ix_request 0.
Definition fb_made (b' : nat) (r : Z) : @made Z := match interactor_init Z.mul Z.pow Z.ltb 2 0 [2; 1] [4; 5] 1 0 2 fb_q r with Ready x => x | _ => PropsInteractor.none_made end.
Definition fb_actor (b' : nat) : actor Z := actor_made (fun _ => fb_q) 9 b' (fb_made b' (g_master fb_q)).
Definition fb_order (b' : nat) (a : list Z) : list Z := PropsInteractor.set_order (fun _ => fb_q) b' a.
Definition fb_adv : nat -> Z -> Z -> cstate Z * (nat -> bool * list Z) -> cstate Z * (nat -> bool * list Z) :=
  driven 2 (global_size [2; 1] [4; 5]) [0; 1; 2; 3]%nat (fun b => a_body (fb_actor b)) PropsLoop.lx_rules PropsLoop.lx_look three (fixed_calls 0 (fun d => d) (fun _ _ _ => PropsNS.e_step))
    Z.add Z.sub Z.mul 0 (fun x => x) (fold_right Z.add 0) 1 0 [2; 3]%nat PropsLoop.lx_flow.
Notation fb_start := (cold_2d (T := Z) 0 (fun _ _ => 0) (fun _ : nat => (false, @nil Z)) 0 [0; 0]).
Notation fb_step := (serial_iteration Z.ltb Z.add 0 dr_due [5; 11] 11 Z.le dr_mag dr_lim (fun d => d) (global_size [2; 1] [4; 5]) [2; 3]%nat (fun x => cs_u (fst x)) fb_adv).
Notation fb_run := (serial_iterations Z.ltb Z.add 0 dr_due [5; 11] 11 Z.le dr_mag dr_lim (fun d => d) (global_size [2; 1] [4; 5]) [2; 3]%nat (fun x => cs_u (fst x)) fb_adv).
Definition fb_mid : sconfig Z (cstate Z * (nat -> bool * list Z)) := {| s_count := 1; s_time := 10; s_timers := [10; 10]; s_state := fb_adv 0 0 10 (s_state fb_start) |}.
Definition fb_end : sconfig Z (cstate Z * (nat -> bool * list Z)) := {| s_count := 2; s_time := 11; s_timers := [1; 11]; s_state := fb_adv 1 10 1 (s_state fb_mid) |}.
Definition fb_h1 : happening Z (cstate Z * (nat -> bool * list Z)) := {| h_due := [true; true]; h_state := s_state fb_start; h_dt := 10 |}.
Definition fb_h2 : happening Z (cstate Z * (nat -> bool * list Z)) := {| h_due := [true; false]; h_state := s_state fb_mid; h_dt := 1 |}.
Lemma fb_step1 : fb_step fb_start fb_h1 fb_mid.
Proof. apply (si Z.ltb Z.add 0 dr_due [5; 11] 11 Z.le dr_mag dr_lim (fun d => d) (global_size [2; 1] [4; 5]) [2; 3]%nat (fun x => cs_u (fst x)) fb_adv fb_start 0); [reflexivity|]. apply AdaptiveThms.is_max_check. vm_compute. reflexivity. Qed.
Lemma fb_step2 : fb_step fb_mid fb_h2 fb_end.
Proof. apply (si Z.ltb Z.add 0 dr_due [5; 11] 11 Z.le dr_mag dr_lim (fun d => d) (global_size [2; 1] [4; 5]) [2; 3]%nat (fun x => cs_u (fst x)) fb_adv fb_mid 183); [reflexivity|]. apply AdaptiveThms.is_max_check. vm_compute. reflexivity. Qed.
Lemma fb_in : stays_inside 1 0 (global_size [2; 1] [4; 5]) 1 (g_nodes fb_q).
Proof. split; vm_compute; repeat constructor; try discriminate; lia. Qed.
Lemma fb_ready b' r : interactor_init Z.mul Z.pow Z.ltb 2 0 [2; 1] [4; 5] 1 0 2 fb_q r = Ready (fb_made b' r).
Proof.
  assert (G : grid_ok [2; 1] [4; 5]) by (split; [reflexivity|unfold positive; repeat (apply Forall_cons; [lia|]); apply Forall_nil|unfold positive; repeat (apply Forall_cons; [lia|]); apply Forall_nil]).
  unfold fb_made. destruct (PropsInteractor.C55_construction_succeeds Z.mul Z.pow Z.ltb 2 0 [2; 1] [4; 5] 1 0 2 fb_q r ltac:(PropsInteractor.qle) G (or_introl eq_refl) ltac:(repeat split; cbn; lia) (or_intror (PropsInteractor.ix_in 0))) as [x ->]. reflexivity.
Qed.
Example C69_nonvacuous :
  ns2_setting 2 1 4 5 2 2 0%nat PropsNS.e_xg (fun _ i => i) 0 1 2 3 4 5 6 7 8 PropsNS.e_cx PropsNS.e_cy /\
  actors_ok [2; 1] 2 1 fb_actor [0; 1; 2; 3; 4; 5; 6; 7; 8]%nat /\
  fits [2; 1] [4; 5] 1 0 1 fb_actor PropsLoop.lx_rules fb_order 0 (snd (s_state fb_start) 0%nat) (fun b' => address (state_made (fun _ => fb_q) fb_order b' (fb_made b'))) /\
  flow2_ok 0 0 2 3 4 5 PropsNS.e_step /\
  (exists c0, all_at [2; 1] (shows_at 0 [2; 1] [4; 5] 2 [0; 1; 2; 3]%nat [4; 5]%nat 1 fb_actor [[2; 9]; [8; 2]]) (eq (fun b' => address (state_made (fun _ => fb_q) fb_order b' (fb_made b')))) c0 fb_start) /\
  off_edge 0 [2; 1] [4; 5] (fst (s_state fb_start)) /\
  fb_run fb_start (([] ++ [fb_h1]) ++ [fb_h2]) fb_end /\ serial_over Z.ltb 11 fb_end /\
  drag_history Z.add 0 0 2 (fold_right Z.add 0) (fun t => t) (fun d => - d) 0 (([] ++ [fb_h1]) ++ [fb_h2]) = [(0, 0); (10, 48)].
Proof.
  split; [exact PropsNS.setting_instance|].
  destruct (C69_from_scratch_2d Z.ltb Z.add 0 dr_due (fun d : Z => d) Z.sub Z.mul 0 (fun x => x) 1 0 (fun _ i => i) 2 (fun v => v) PropsNS.e_cx PropsNS.e_cy 0 1 2 3 4 5 6 7 8 1 eq_refl PropsLoop.lx_rules 0 (fun d => d)
    (fun _ _ _ => PropsNS.e_step) (fun t => t) (fun d => - d) Z.pow Z.ltb 2 0 9 fb_q (fun _ _ => 0) (fun _ => (false, @nil Z)) 0 [0; 0] eq_refl eq_refl ltac:(cbn [In]; intuition lia) eq_refl eq_refl eq_refl
    2 1 4 5 2 0 PropsNS.e_xg fb_order fb_made (fun _ => 7) PropsNS.setting_instance ltac:(auto) ltac:(repeat split; cbn; lia) fb_in (PropsInteractor.set_order_ok (fun _ => fb_q)) ltac:(intros; apply fb_ready)) as (A1 & A2 & A3 & A4 & _).
  split; [exact A1|]. split; [exact A2|]. split; [destruct PropsNS.step_instance as (X & X' & _); split; [exact X'|]; destruct X as (_ & _ & _ & X); cbn [n2_frc PropsNS.e_step] in *; tauto|]. split; [eexists; exact A3|]. split; [exact A4|].
  split; [eapply sis_snoc; [eapply sis_snoc; [apply sis_nil|exact fb_step1]|exact fb_step2]|]. split; [reflexivity|]. vm_compute. reflexivity.
Qed.
Print Assumptions C69_calls_legal_2d.
Print Assumptions C69_flow_past_body_2d.
Print Assumptions C69_from_scratch_2d.
Print Assumptions C69_calls_legal_3d.
Print Assumptions C69_flow_past_body_3d.
Print Assumptions C69_from_scratch_3d.
