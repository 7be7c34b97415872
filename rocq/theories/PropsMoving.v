(** Property C70: bodies that move.  What has to hold of the serial run for the theorems on coupled drivers (C60, C68) to apply. *)
From Coq Require Import QArith FunctionalExtensionality.
From Verif Require Import Base SpecGrid SpecGhostSum SpecStencil SpecStep SpecPenalise SpecFilter SpecDouble SpecLag SpecIB SpecVbf SpecNS SpecBodies SpecCoupled SpecReduce SpecDiag SpecLoop SpecInteractor SpecAdaptive SpecDriver SpecFixed SpecMoving
  Comm Blocking Spmd Stencil Lagrangian Vbf NavierStokes Coupled SpecTracks Loop Interactor Diagnostics Adaptive Driver.
From Verif Require PropsNS PropsCoupled PropsLoop PropsInteractor KernelProofs AdaptiveProofs AdaptiveThms FixedProofs MovingProofs IoLagProofs.
From Verif Require Import PropsDriver.
Open Scope Z_scope.

(** Where a body may be when it acts: body p of the nb bodies, with all its nodes, inside the domain; with assume_data_locality, in its master's block. *)
Definition well_placed {T} (dx shift : Q) (dims loc : list Z) (nb : nat) (actors : nat -> actor T) (p : nat * list (list Q)) : Prop :=
  (fst p < nb)%nat /\ Z.of_nat (length (snd p)) = v_count (a_body (actors (fst p))) /\
  stays_inside dx shift (global_size dims loc) (v_width (a_body (actors (fst p)))) (snd p) /\
  (a_local (actors (fst p)) = true -> in_blocks dx shift dims loc (snd p) (repeat (a_master (actors (fst p))) (length (snd p)))).
(** The interactors refresh ghosts themselves (auto_ghosting, the default); the sets of their slave ranks are enumerated in some order. *)
Definition by_default {T} (nb : nat) (actors : nat -> actor T) (ord : nat -> list Z -> list Z) : Prop :=
  forall b, (b < nb)%nat -> a_auto (actors b) = true /\ forall a, NoDup (ord b a) /\ forall s, In s (ord b a) <-> In s a /\ s <> a_master (actors b).

(** C70.  When the numbers of nodes tell: on one rank; and when all nodes that change their block go from one block to one other. *)
Theorem C70_when_counts_tell dx shift dims loc X Y : length X = length Y ->
  zprod dims = 1 \/ one_way dx shift dims loc X Y -> counts_tell dx shift dims loc X Y.
Proof. intros HL [H|H]; [now apply MovingProofs.one_rank_tells|now apply MovingProofs.one_way_tells]. Qed.
(** Finding: they need not tell.  Two nodes that swap blocks leave all numbers as they were, so that the interactor keeps the old mapping. *)
Theorem C70_counts_tell_refuted : exists dx shift dims loc X Y, grid_ok dims loc /\ (0 < dx)%Q /\ length X = length Y /\
  Forall (in_domain dx shift dims loc) X /\ Forall (in_domain dx shift dims loc) Y /\ ~ counts_tell dx shift dims loc X Y.
Proof.
  exists 1%Q, 0%Q, [2; 1], [4; 5], [[3 # 2; 5 # 2]; [3 # 2; 11 # 2]]%Q, [[3 # 2; 11 # 2]; [3 # 2; 5 # 2]]%Q.
  assert (G : grid_ok [2; 1] [4; 5]) by (split; [reflexivity|unfold positive; repeat (apply Forall_cons; [lia|]); apply Forall_nil|unfold positive; repeat (apply Forall_cons; [lia|]); apply Forall_nil]).
  assert (P : (0 < 1)%Q) by PropsInteractor.qle.
  split; [exact G|]. split; [exact P|]. split; [reflexivity|]. split; [repeat constructor; PropsInteractor.qle|]. split; [repeat constructor; PropsInteractor.qle|].
  intros H. specialize (H [0; 1] [1; 0]).
  assert (E : [1; 0] = [0; 1]); [|discriminate E]. apply H.
  - repeat constructor; try (vm_compute; intuition discriminate); PropsInteractor.qle.
  - repeat constructor; try (vm_compute; intuition discriminate); PropsInteractor.qle.
  - intros r Hr. change (zprod [2; 1]) with 2 in Hr. assert (Er : r = 0 \/ r = 1) by lia. destruct Er as [-> | ->]; reflexivity.
Qed.

Section Two.
Context {T W V C B L : Type}.
(* times, as in C59 *)
Variables (before : W -> W -> bool) (plus : W -> W -> W) (zero : W) (due : W -> W -> bool) (limits : list W) (final : W).
Variables (le : T -> T -> Prop) (mnT mx : T -> T -> T) (leW : W -> W -> Prop) (mn mxW : W -> W -> W) (mag : list T -> T) (lim : T -> W) (pre : W -> W).
Hypothesis values_ordered : ordered le mnT mx.
Hypothesis times_ordered : ordered leW mn mxW.
Hypothesis limit_antitone : forall k l, le (mag k) (mag l) -> leW (lim (mag l)) (lim (mag k)).
(* flow and bodies, as in C54 *)
Variables (add sub mul : T -> T -> T) (z : T) (times0 scale : T -> T) (sum : list T -> T) (dx shift : Q).
Variables (damp : C -> C -> T -> T) (coord : nat -> Z -> C) (width : Z) (conv : (list Z -> T) -> list Z -> T) (Kcx Kcy : @kfun T).
Variables (w psi vx vy fx fy buf D S : nat) (nb : nat).
Hypothesis add_monoid : comm_monoid add z.
Hypothesis zeroing : forall x, times0 x = z.
Hypothesis spacing : (0 < dx)%Q.
(* the calls of iteration k, at time t with time step d *)
Variables (rules : nat -> body_rules T B L) (num : nat -> W -> W -> nat) (script : nat -> W -> W -> list V -> action T (@ns2_step T)) (look : list (list T) -> V) (none : L).
Notation Fs := [w; psi; vx; vy].
Notation setting py px ny nx g dd xg := (ns2_setting py px ny nx g width dd xg coord w psi vx vy fx fy buf D S Kcx Kcy).
Notation all_ok py px g actors := (actors_ok [py; px] g nb actors [w; psi; vx; vy; fx; fy; buf; D; S]).
Notation shows py px ny nx g actors := (@shows_at T B z [py; px] [ny; nx] g Fs [fx; fy] nb actors [[g; nx + 2 * g]; [ny + 2 * g; g]]).
Notation flow_step N := (fun frc u s => serial_ns_2d add z damp coord width conv Kcx Kcy N w psi vx vy fx fy u (with_forcing2 [fx; fy] frc s)).
Notation plain := (fun lift : list V -> @ns2_step T -> @ns2_step T => lift = (fun _ s => s)).
(* serial iterations: of all calls, with the time step for the top speed of the flow *)
Notation advance N actors := (driven 2 N Fs (fun b => a_body (actors b)) rules look num script add sub mul z scale sum dx shift [vx; vy] (flow_step N)).
Notation serial_step N actors := (serial_iteration before plus zero due limits final le mag lim pre N [vx; vy] (fun x => cs_u (fst x)) (advance N actors)).
Notation serial_run N actors := (serial_iterations before plus zero due limits final le mag lim pre N [vx; vy] (fun x => cs_u (fst x)) (advance N actors)).
(* the ranks' iterations *)
Notation rest py px ny nx g full dd xg actors ord := (drive add sub mul z scale sum dx shift [py; px] [ny; nx] g [vx; vy] Fs [fx; fy] actors
  (exch_2d py px ny nx g full [vx; vy]) (spread_2 add mul times0 dx shift py px ny nx g [fx; fy])
  (time_step_2d add z damp conv py px ny nx g full dd width xg w psi vx vy fx fy buf D S Kcx Kcy) rules num script look none ord plain).
Notation ranks_run py px ny nx g full dd xg actors ord := (iterations [py; px] [ny; nx] g before plus zero due limits final mag mx lim mn pre [vx; vy] buf
  (keeps Fs [fx; fy] nb actors) (rest py px ny nx g full dd xg actors ord)).
Notation legal py px ny nx actors ord s0 a0 := (drives_legally_2d before plus zero due limits final le mag lim pre add sub mul z scale sum dx shift damp coord width conv Kcx Kcy w psi vx vy fx fy nb rules num script look py px ny nx actors ord s0 a0).
(* the calls of the serial run at which bodies act *)
Notation serial_acted N actors s0 := (acted 2 N Fs (fun b => a_body (actors b)) rules look num script add sub mul z scale sum dx shift [vx; vy] (flow_step N) (serial_step N actors) s0).
(* the calls of the script are calls to bodies that exist and legal flow steps *)
Definition good_script_2d : Prop := forall k t d h, match script k t d h with OAdvance b _ => (b < nb)%nat | OFlow s => flow2_ok z w vx vy fx fy s | _ => True end.
(* in the serial run from s0 on, bodies act only where they may; their numbers of nodes per block tell, starting from the positions X0 *)
Definition serial_stays_2d py px ny nx actors (s0 : sconfig W (cstate T * (nat -> B))) (X0 : nat -> list (list Q)) : Prop :=
  forall hs s l, serial_acted (global_size [py; px] [ny; nx]) actors s0 hs s l ->
    Forall (well_placed dx shift [py; px] [ny; nx] nb actors) l /\ forall b, (b < nb)%nat -> tell_along dx shift [py; px] [ny; nx] (X0 b) (of_body b l).

(** C70 (2D).  If the bodies of the serial run stay inside, all calls of the ranks are legal: bodies that move with the flow, that are called several
    times in an iteration, or that the user's script chooses from what it sees. *)
Theorem C70_calls_legal_2d py px ny nx g actors ord (s0 : sconfig W (cstate T * (nat -> B))) a0 X0 : KernelList.grid2 py px ny nx g ->
  by_default nb actors ord -> good_script_2d -> (forall b, (b < nb)%nat -> in_blocks dx shift [py; px] [ny; nx] (X0 b) (a0 b)) ->
  serial_stays_2d py px ny nx actors s0 X0 -> legal py px ny nx actors ord s0 a0.
Proof.
  intros G HD Hs HX Hr hs s a h s' R I. pose proof (KernelProofs.g2_ok _ _ _ _ _ G) as GO.
  exact (MovingProofs.moving_legal [py; px] [ny; nx] Fs [fx; fy] [vx; vy] nb actors rules look num script add sub mul z scale sum dx shift _ ord plain (flow2_ok z w vx vy fx fy)
    spacing GO (fun b Hb => proj1 (HD b Hb)) (fun b a Hb => proj2 (HD b Hb) a)
    ltac:(intros k t d v; specialize (Hs k t d v); destruct (script k t d v); auto; intros lift h' ->; exact Hs) _ s0 a0 X0 HX Hr hs s a h s' (fun _ s => s) R I eq_refl).
Qed.
(** C70 (2D).  Then the driver ends exactly if the serial one does, and every memory it passes through shows the serial state. *)
Theorem C70_runs_as_serial_2d py px ny nx g full dd xg actors ord c0 s0 a0 X0 :
  setting py px ny nx g dd xg -> all_ok py px g actors -> by_default nb actors ord -> good_script_2d ->
  (forall b, (b < nb)%nat -> in_blocks dx shift [py; px] [ny; nx] (X0 b) (a0 b)) -> serial_stays_2d py px ny nx actors s0 X0 ->
  all_at [py; px] (shows py px ny nx g actors) (eq a0) c0 s0 -> off_edge z [py; px] [ny; nx] (fst (s_state s0)) ->
  ((exists tr c, ranks_run py px ny nx g full dd xg actors ord c0 tr c /\ over [py; px] before final c) <->
   (exists hs s, serial_run (global_size [py; px] [ny; nx]) actors s0 hs s /\ serial_over before final s)) /\
  forall tr c, ranks_run py px ny nx g full dd xg actors ord c0 tr c ->
    exists hs s, serial_run (global_size [py; px] [ny; nx]) actors s0 hs s /\ Forall2 (same_event (shows py px ny nx g actors)) tr hs /\
      all_at [py; px] (shows py px ny nx g actors) (fun _ => True) c s.
Proof.
  intros HS HA HD Hsc HX Hr H Ho. pose proof HS as [G _ _ _ _ _ _ _ _]. pose proof (C70_calls_legal_2d py px ny nx g actors ord s0 a0 X0 G HD Hsc HX Hr) as Hl. split.
  - exact (proj1 (C60_ends_as_serial_2d before plus zero due limits final le mnT mx leW mn mxW mag lim pre values_ordered times_ordered limit_antitone add sub mul z times0 scale sum dx shift damp coord width conv Kcx Kcy w psi vx vy fx fy buf D S nb
      add_monoid zeroing spacing rules num script look none py px ny nx g full dd xg actors ord c0 s0 a0 HS HA Hl H Ho)).
  - intros tr c It.
    destruct (C60_lockstep_2d before plus zero due limits final le mnT mx leW mn mxW mag lim pre values_ordered times_ordered limit_antitone add sub mul z times0 scale sum dx shift damp coord width conv Kcx Kcy w psi vx vy fx fy buf D S nb
      add_monoid zeroing spacing rules num script look none py px ny nx g full dd xg actors ord c0 s0 a0 tr c HS HA Hl H Ho It) as (hs & s & S1 & F1 & C1 & _).
    exists hs, s. auto.
Qed.

(** From the constructors on: nb bodies, requested as qs. *)
Section Scratch.
Variables (pow : T -> Z -> T) (lt : T -> T -> bool) (two_dx half_dx : T) (base : nat) (qs : nat -> request T) (u0 : nat -> list Z -> T) (body0 : nat -> B) (t0 : W) (ts0 : list W).
Definition cold_2d : sconfig W (cstate T * (nat -> B)) := {| s_count := 0; s_time := t0; s_timers := ts0; s_state := (cold_start z u0 (fun _ => []), body0) |}.
Notation made_of xs := (fun b' : nat => @actor_made T qs base b' (xs b' (g_master (qs b')))).
Definition begin_2d py px ny nx g ord (xs : nat -> Z -> @made T) (m : mem T) : config T W ((nat -> vb) * (Z -> nat -> B)) :=
  {| c_count := 0; c_time := fun _ => t0; c_timers := fun _ => ts0; c_mem := init_memories z (made_of xs) nb (start_memory z [py; px] [ny; nx] g [w; psi; vx; vy] [fx; fy] u0 m);
     c_rest := (fun b' => state_made qs ord b' (xs b'), fun _ => body0) |}.
(** C70 (2D).  Whatever was in memory: what the constructors leave is a legal start, at rest, for every decomposition whose ghost zone holds
    the kernels; the bodies' nodes are where they were when the interactors were made. *)
Theorem C70_from_scratch_2d py px ny nx g dd xg ord xs m :
  setting py px ny nx g dd xg -> (forall f P, ~ inb (global_size [py; px] [ny; nx]) P -> u0 f P = z) ->
  (forall f, In f [w; psi; vx; vy; fx; fy; buf; D; S] -> (f < base)%nat) ->
  (forall b, (b < nb)%nat -> request_ok (py * px) 2 g (qs b) /\ g_auto (qs b) = true /\ Forall (in_domain dx shift [py; px] [ny; nx]) (g_nodes (qs b)) /\
     (g_local (qs b) = true -> in_blocks dx shift [py; px] [ny; nx] (g_nodes (qs b)) (repeat (g_master (qs b)) (length (g_nodes (qs b)))))) ->
  (forall b a, (b < nb)%nat -> NoDup (ord b a) /\ forall s, In s (ord b a) <-> In s a /\ s <> g_master (qs b)) ->
  (forall b r, (b < nb)%nat -> 0 <= r < py * px -> interactor_init mul pow lt two_dx half_dx [py; px] [ny; nx] dx shift g (qs b) r = Ready (xs b r)) ->
  let actors := made_of xs in let c0 := begin_2d py px ny nx g ord xs m in let a0 := fun b => address (state_made qs ord b (xs b)) in
  all_ok py px g actors /\ by_default nb actors ord /\ (forall b, (b < nb)%nat -> in_blocks dx shift [py; px] [ny; nx] (g_nodes (qs b)) (a0 b)) /\
  all_at [py; px] (shows py px ny nx g actors) (eq a0) c0 cold_2d /\ off_edge z [py; px] [ny; nx] (fst (s_state cold_2d)) /\
  forall b, (b < nb)%nat -> a_body (actors b) = body_of mul pow (qs b).
Proof.
  intros HS Hu Hnew Hq Ho Hx actors c0 a0. subst actors c0 a0. pose proof HS as [G Hg _ _ _ _ HD _ _]. pose proof (KernelProofs.g2_ok _ _ _ _ _ G) as GO.
  assert (P : zprod [py; px] = py * px) by (cbn [zprod fold_right]; lia).
  destruct (PropsInteractor.C55_simulation_starts_at_rest mul pow lt two_dx half_dx z [py; px] [ny; nx] dx shift g [w; psi; vx; vy] [fx; fy] [w; psi; vx; vy; fx; fy; buf; D; S] u0
    [[g; nx + 2 * g]; [ny + 2 * g; g]] qs ord nb base xs m) as (Ht & He & Ha & Hb); auto.
  - intros f Hf. cbn in *. tauto.
  - intros f Hf. cbn in *. tauto.
  - intros f Hf Hf'. clear -HD Hf Hf'. repeat rewrite NoDup_cons_iff in HD. cbn [In] in *. destruct HD as (D1 & D2 & D3 & D4 & _). intuition congruence.
  - intros b' Hb'. rewrite P. apply Hq. exact Hb'.
  - intros b' Hb'. right. apply (Hq b' Hb').
  - intros b' r Hb'. rewrite P. now apply Hx.
  - cbv zeta in Ht, He, Ha, Hb. split; [exact Ha|]. split; [|split; [|split; [|split; [exact He|]]]].
    + intros b Hlt. destruct (Hb b Hlt) as (B1 & B2 & B3 & B4). destruct (Hq b Hlt) as (Q1 & Q2 & _). split; [rewrite B4; exact Q2|]. intros a. rewrite B2. now apply Ho.
    + intros b Hlt. destruct (Hb b Hlt) as (B1 & _). destruct (Hq b Hlt) as ((Hm & Ed & Hw) & Q2 & Hdom & Hloc).
      destruct (PropsInteractor.C55_all_ranks_know_the_body mul pow lt two_dx half_dx [py; px] [ny; nx] dx shift g (qs b) (g_master (qs b)) (xs b (g_master (qs b)))) as (_ & _ & _ & _ & _ & _ & _ & A1 & A2); auto; try (rewrite P; exact Hm).
      unfold state_made. cbv zeta. cbn [address]. destruct (g_local (qs b)) eqn:El.
      * replace (Z.to_nat (k_total (xs b (g_master (qs b))))) with (length (g_nodes (qs b))); [now apply Hloc|].
        pose proof (f_equal v_count B1) as E. cbn [actor_made a_body v_count body_of] in E. rewrite E. now rewrite Nat2Z.id.
      * destruct (A2 eq_refl Hdom) as (A3 & _). exact A3.
    + split; [reflexivity|]. split; [intros r Hr; split; reflexivity|]. exists (fun b' => address (state_made qs ord b' (xs b'))). split; [reflexivity|].
      exists (cold_start z u0 (fun b' => address (state_made qs ord b' (xs b')))). split; [repeat split|]. split; [reflexivity|]. split; [exact Ht|]. intros b' Hb'. reflexivity.
    + intros b Hlt. apply (Hb b Hlt).
Qed.
End Scratch.
End Two.

Section Three.
Context {T W V C B L : Type}.
(* times, as in C59 *)
Variables (before : W -> W -> bool) (plus : W -> W -> W) (zero : W) (due : W -> W -> bool) (limits : list W) (final : W).
Variables (le : T -> T -> Prop) (mnT mx : T -> T -> T) (leW : W -> W -> Prop) (mn mxW : W -> W -> W) (mag : list T -> T) (lim : T -> W) (pre : W -> W).
Hypothesis values_ordered : ordered le mnT mx.
Hypothesis times_ordered : ordered leW mn mxW.
Hypothesis limit_antitone : forall k l, le (mag k) (mag l) -> leW (lim (mag l)) (lim (mag k)).
(* flow and bodies, as in C54 *)
Variables (add sub mul : T -> T -> T) (z : T) (times0 scale : T -> T) (sum : list T -> T) (dx shift : Q).
Variables (damp : C -> C -> T -> T) (coord : nat -> Z -> C) (width : Z) (conv : (list Z -> T) -> list Z -> T) (Kcx Kcy Kcz : @kfun T)
          (lap : T -> T -> T -> T) (fsub : T -> T -> T) (filt : option (filter_type * nat * Z)).
Variables (w0 w1 w2 p0 p1 p2 vx vy vz fx fy fz b0 b1 b2 buf D S : nat) (nb : nat).
Hypothesis add_monoid : comm_monoid add z.
Hypothesis zeroing : forall x, times0 x = z.
Hypothesis spacing : (0 < dx)%Q.
(* the calls of iteration k, at time t with time step d *)
Variables (rules : nat -> body_rules T B L) (num : nat -> W -> W -> nat) (script : nat -> W -> W -> list V -> action T (@ns3_step T)) (look : list (list T) -> V) (none : L).
Notation ws := [w0; w1; w2].
Notation vs := [vx; vy; vz].
Notation fs := [fx; fy; fz].
Notation bs := [b0; b1; b2].
Notation Fs := [w0; w1; w2; p0; p1; p2; vx; vy; vz].
Notation setting pz py px n0 n1 n2 g xg := (ns3_setting pz py px n0 n1 n2 g width filt xg coord w0 w1 w2 p0 p1 p2 vx vy vz fx fy fz b0 b1 b2 buf D S Kcx Kcy Kcz).
Notation all_ok pz py px g actors := (actors_ok [pz; py; px] g nb actors [w0; w1; w2; p0; p1; p2; vx; vy; vz; fx; fy; fz; b0; b1; b2; buf; D; S]).
Notation bufsz n0 n1 n2 g := [[g; n1 + 2 * g; n2 + 2 * g]; [n0 + 2 * g; g; n2 + 2 * g]; [n0 + 2 * g; n1 + 2 * g; g]].
Notation shows pz py px n0 n1 n2 g actors := (@shows_at T B z [pz; py; px] [n0; n1; n2] g Fs fs nb actors (bufsz n0 n1 n2 g)).
Notation flow_step N := (fun frc u s => serial_ns_3d add z damp coord width conv Kcx Kcy Kcz lap fsub filt N w0 w1 w2 p0 p1 p2 vx vy vz b0 b1 b2 fx fy fz u (with_forcing3 fs frc s)).
Notation time_step pz py px n0 n1 n2 g full xg := (fun sr : @ns3_step T * (Z -> nat -> list Z -> T) => time_step_3d add z damp conv lap fsub filt pz py px n0 n1 n2 g full width xg w0 w1 w2 p0 p1 p2 vx vy vz fx fy fz b0 b1 b2 buf D S Kcx Kcy Kcz (snd sr) (fst sr)).
Notation flow_ok := (fun s : @ns3_step T * (Z -> nat -> list Z -> T) => flow3_ok z ws vs bs fs (fst s)).
(* [race h]: arbitrary values for the cells that the curl kernel updates while a ghost it reads is being received, in the step taken after [h] has been seen *)
Notation racing := (fun lift : list V -> @ns3_step T -> @ns3_step T * (Z -> nat -> list Z -> T) => exists race, lift = (fun h s => (s, race h))).
(* serial iterations: of all calls, with the time step for the top speed of the flow *)
Notation advance N actors := (driven 3 N Fs (fun b => a_body (actors b)) rules look num script add sub mul z scale sum dx shift vs (flow_step N)).
Notation serial_step N actors := (serial_iteration before plus zero due limits final le mag lim pre N vs (fun x => cs_u (fst x)) (advance N actors)).
Notation serial_run N actors := (serial_iterations before plus zero due limits final le mag lim pre N vs (fun x => cs_u (fst x)) (advance N actors)).
(* the ranks' iterations *)
Notation rest pz py px n0 n1 n2 g full xg actors ord := (drive add sub mul z scale sum dx shift [pz; py; px] [n0; n1; n2] g vs Fs fs actors
  (exch_3d pz py px n0 n1 n2 g full vs) (spread_3 add mul times0 dx shift pz py px n0 n1 n2 g fs)
  (time_step pz py px n0 n1 n2 g full xg) rules num script look none ord racing).
Notation ranks_run pz py px n0 n1 n2 g full xg actors ord := (iterations [pz; py; px] [n0; n1; n2] g before plus zero due limits final mag mx lim mn pre vs buf
  (keeps Fs fs nb actors) (rest pz py px n0 n1 n2 g full xg actors ord)).
Notation legal pz py px n0 n1 n2 actors ord s0 a0 := (drives_legally_3d before plus zero due limits final le mag lim pre add sub mul z scale sum dx shift damp coord width conv Kcx Kcy Kcz lap fsub filt w0 w1 w2 p0 p1 p2 vx vy vz fx fy fz b0 b1 b2 nb rules num script look pz py px n0 n1 n2 actors ord s0 a0).
(* the calls of the serial run at which bodies act *)
Notation serial_acted N actors s0 := (acted 3 N Fs (fun b => a_body (actors b)) rules look num script add sub mul z scale sum dx shift vs (flow_step N) (serial_step N actors) s0).
(* the calls of the script are calls to bodies that exist and legal flow steps *)
Definition good_script_3d : Prop := forall k t d h, match script k t d h with OAdvance b _ => (b < nb)%nat | OFlow s => flow3_ok z ws vs bs fs s | _ => True end.
(* in the serial run from s0 on, bodies act only where they may; their numbers of nodes per block tell, starting from the positions X0 *)
Definition serial_stays_3d pz py px n0 n1 n2 actors (s0 : sconfig W (cstate T * (nat -> B))) (X0 : nat -> list (list Q)) : Prop :=
  forall hs s l, serial_acted (global_size [pz; py; px] [n0; n1; n2]) actors s0 hs s l ->
    Forall (well_placed dx shift [pz; py; px] [n0; n1; n2] nb actors) l /\ forall b, (b < nb)%nat -> tell_along dx shift [pz; py; px] [n0; n1; n2] (X0 b) (of_body b l).

(** C70 (3D).  If the bodies of the serial run stay inside, all calls of the ranks are legal: bodies that move with the flow, that are called several
    times in an iteration, or that the user's script chooses from what it sees. *)
Theorem C70_calls_legal_3d pz py px n0 n1 n2 g actors ord (s0 : sconfig W (cstate T * (nat -> B))) a0 X0 : KernelList.grid3 pz py px n0 n1 n2 g ->
  by_default nb actors ord -> good_script_3d -> (forall b, (b < nb)%nat -> in_blocks dx shift [pz; py; px] [n0; n1; n2] (X0 b) (a0 b)) ->
  serial_stays_3d pz py px n0 n1 n2 actors s0 X0 -> legal pz py px n0 n1 n2 actors ord s0 a0.
Proof.
  intros G HD Hs HX Hr hs s a h s' R I race. pose proof (KernelProofs.g3_ok _ _ _ _ _ _ _ G) as GO.
  exact (MovingProofs.moving_legal [pz; py; px] [n0; n1; n2] Fs fs vs nb actors rules look num script add sub mul z scale sum dx shift _ ord racing flow_ok
    spacing GO (fun b Hb => proj1 (HD b Hb)) (fun b a Hb => proj2 (HD b Hb) a)
    ltac:(intros k t d v; specialize (Hs k t d v); destruct (script k t d v); auto; intros lift h' [rc ->]; exact Hs) _ s0 a0 X0 HX Hr hs s a h s' (fun h s => (s, race h)) R I ltac:(exists race; reflexivity)).
Qed.
(** C70 (3D).  Then the driver ends exactly if the serial one does, and every memory it passes through shows the serial state. *)
Theorem C70_runs_as_serial_3d pz py px n0 n1 n2 g full xg actors ord c0 s0 a0 X0 :
  setting pz py px n0 n1 n2 g xg -> all_ok pz py px g actors -> full = true \/ at_most_one_split [pz; py; px] -> by_default nb actors ord -> good_script_3d ->
  (forall b, (b < nb)%nat -> in_blocks dx shift [pz; py; px] [n0; n1; n2] (X0 b) (a0 b)) -> serial_stays_3d pz py px n0 n1 n2 actors s0 X0 ->
  all_at [pz; py; px] (shows pz py px n0 n1 n2 g actors) (eq a0) c0 s0 -> off_edge z [pz; py; px] [n0; n1; n2] (fst (s_state s0)) ->
  ((exists tr c, ranks_run pz py px n0 n1 n2 g full xg actors ord c0 tr c /\ over [pz; py; px] before final c) <->
   (exists hs s, serial_run (global_size [pz; py; px] [n0; n1; n2]) actors s0 hs s /\ serial_over before final s)) /\
  forall tr c, ranks_run pz py px n0 n1 n2 g full xg actors ord c0 tr c ->
    exists hs s, serial_run (global_size [pz; py; px] [n0; n1; n2]) actors s0 hs s /\ Forall2 (same_event (shows pz py px n0 n1 n2 g actors)) tr hs /\
      all_at [pz; py; px] (shows pz py px n0 n1 n2 g actors) (fun _ => True) c s.
Proof.
  intros HS HA Hc HD Hsc HX Hr H Ho. pose proof HS as [G _ _ _ _ _ _ _]. pose proof (C70_calls_legal_3d pz py px n0 n1 n2 g actors ord s0 a0 X0 G HD Hsc HX Hr) as Hl. split.
  - exact (proj1 (C60_ends_as_serial_3d before plus zero due limits final le mnT mx leW mn mxW mag lim pre values_ordered times_ordered limit_antitone add sub mul z times0 scale sum dx shift damp coord width conv Kcx Kcy Kcz lap fsub filt w0 w1 w2 p0 p1 p2 vx vy vz fx fy fz b0 b1 b2 buf D S nb
      add_monoid zeroing spacing rules num script look none pz py px n0 n1 n2 g full xg actors ord c0 s0 a0 HS HA Hc Hl H Ho)).
  - intros tr c It.
    destruct (C60_lockstep_3d before plus zero due limits final le mnT mx leW mn mxW mag lim pre values_ordered times_ordered limit_antitone add sub mul z times0 scale sum dx shift damp coord width conv Kcx Kcy Kcz lap fsub filt w0 w1 w2 p0 p1 p2 vx vy vz fx fy fz b0 b1 b2 buf D S nb
      add_monoid zeroing spacing rules num script look none pz py px n0 n1 n2 g full xg actors ord c0 s0 a0 tr c HS HA Hc Hl H Ho It) as (hs & s & S1 & F1 & C1 & _).
    exists hs, s. auto.
Qed.

(** From the constructors on: nb bodies, requested as qs. *)
Section Scratch.
Variables (pow : T -> Z -> T) (lt : T -> T -> bool) (two_dx half_dx : T) (base : nat) (qs : nat -> request T) (u0 : nat -> list Z -> T) (body0 : nat -> B) (t0 : W) (ts0 : list W).
Definition cold_3d : sconfig W (cstate T * (nat -> B)) := {| s_count := 0; s_time := t0; s_timers := ts0; s_state := (cold_start z u0 (fun _ => []), body0) |}.
Notation made_of xs := (fun b' : nat => @actor_made T qs base b' (xs b' (g_master (qs b')))).
Definition begin_3d pz py px n0 n1 n2 g ord (xs : nat -> Z -> @made T) (m : mem T) : config T W ((nat -> vb) * (Z -> nat -> B)) :=
  {| c_count := 0; c_time := fun _ => t0; c_timers := fun _ => ts0; c_mem := init_memories z (made_of xs) nb (start_memory z [pz; py; px] [n0; n1; n2] g Fs fs u0 m);
     c_rest := (fun b' => state_made qs ord b' (xs b'), fun _ => body0) |}.
(** C70 (3D).  Whatever was in memory: what the constructors leave is a legal start, at rest, for every decomposition whose ghost zone holds
    the kernels; the bodies' nodes are where they were when the interactors were made. *)
Theorem C70_from_scratch_3d pz py px n0 n1 n2 g xg ord xs m :
  setting pz py px n0 n1 n2 g xg -> (forall f P, ~ inb (global_size [pz; py; px] [n0; n1; n2]) P -> u0 f P = z) ->
  (forall f, In f [w0; w1; w2; p0; p1; p2; vx; vy; vz; fx; fy; fz; b0; b1; b2; buf; D; S] -> (f < base)%nat) ->
  (forall b, (b < nb)%nat -> request_ok (pz * py * px) 3 g (qs b) /\ g_auto (qs b) = true /\ Forall (in_domain dx shift [pz; py; px] [n0; n1; n2]) (g_nodes (qs b)) /\
     (g_local (qs b) = true -> in_blocks dx shift [pz; py; px] [n0; n1; n2] (g_nodes (qs b)) (repeat (g_master (qs b)) (length (g_nodes (qs b)))))) ->
  (forall b a, (b < nb)%nat -> NoDup (ord b a) /\ forall s, In s (ord b a) <-> In s a /\ s <> g_master (qs b)) ->
  (forall b r, (b < nb)%nat -> 0 <= r < pz * py * px -> interactor_init mul pow lt two_dx half_dx [pz; py; px] [n0; n1; n2] dx shift g (qs b) r = Ready (xs b r)) ->
  let actors := made_of xs in let c0 := begin_3d pz py px n0 n1 n2 g ord xs m in let a0 := fun b => address (state_made qs ord b (xs b)) in
  all_ok pz py px g actors /\ by_default nb actors ord /\ (forall b, (b < nb)%nat -> in_blocks dx shift [pz; py; px] [n0; n1; n2] (g_nodes (qs b)) (a0 b)) /\
  all_at [pz; py; px] (shows pz py px n0 n1 n2 g actors) (eq a0) c0 cold_3d /\ off_edge z [pz; py; px] [n0; n1; n2] (fst (s_state cold_3d)) /\
  forall b, (b < nb)%nat -> a_body (actors b) = body_of mul pow (qs b).
Proof.
  intros HS Hu Hnew Hq Ho Hx actors c0 a0. subst actors c0 a0. pose proof HS as [G Hg _ _ _ HD _ _]. pose proof (KernelProofs.g3_ok _ _ _ _ _ _ _ G) as GO.
  assert (P : zprod [pz; py; px] = pz * py * px) by (cbn [zprod fold_right]; lia).
  destruct (PropsInteractor.C55_simulation_starts_at_rest mul pow lt two_dx half_dx z [pz; py; px] [n0; n1; n2] dx shift g Fs fs [w0; w1; w2; p0; p1; p2; vx; vy; vz; fx; fy; fz; b0; b1; b2; buf; D; S] u0
    (bufsz n0 n1 n2 g) qs ord nb base xs m) as (Ht & He & Ha & Hb); auto.
  - intros f Hf. cbn in *. tauto.
  - intros f Hf. cbn in *. tauto.
  - intros f Hf Hf'. apply (proj2 (proj2 (IoLagProofs.NoDup_app_split Fs (fs ++ [b0; b1; b2; buf; D; S]) HD))) in Hf. apply Hf. apply in_app_iff. auto.
  - intros b' Hb'. rewrite P. apply Hq. exact Hb'.
  - intros b' Hb'. right. apply (Hq b' Hb').
  - intros b' r Hb'. rewrite P. now apply Hx.
  - cbv zeta in Ht, He, Ha, Hb. split; [exact Ha|]. split; [|split; [|split; [|split; [exact He|]]]].
    + intros b Hlt. destruct (Hb b Hlt) as (B1 & B2 & B3 & B4). destruct (Hq b Hlt) as (Q1 & Q2 & _). split; [rewrite B4; exact Q2|]. intros a. rewrite B2. now apply Ho.
    + intros b Hlt. destruct (Hb b Hlt) as (B1 & _). destruct (Hq b Hlt) as ((Hm & Ed & Hw) & Q2 & Hdom & Hloc).
      destruct (PropsInteractor.C55_all_ranks_know_the_body mul pow lt two_dx half_dx [pz; py; px] [n0; n1; n2] dx shift g (qs b) (g_master (qs b)) (xs b (g_master (qs b)))) as (_ & _ & _ & _ & _ & _ & _ & A1 & A2); auto; try (rewrite P; exact Hm).
      unfold state_made. cbv zeta. cbn [address]. destruct (g_local (qs b)) eqn:El.
      * replace (Z.to_nat (k_total (xs b (g_master (qs b))))) with (length (g_nodes (qs b))); [now apply Hloc|].
        pose proof (f_equal v_count B1) as E. cbn [actor_made a_body v_count body_of] in E. rewrite E. now rewrite Nat2Z.id.
      * destruct (A2 eq_refl Hdom) as (A3 & _). exact A3.
    + split; [reflexivity|]. split; [intros r Hr; split; reflexivity|]. exists (fun b' => address (state_made qs ord b' (xs b'))). split; [reflexivity|].
      exists (cold_start z u0 (fun b' => address (state_made qs ord b' (xs b')))). split; [repeat split|]. split; [reflexivity|]. split; [exact Ht|]. intros b' Hb'. reflexivity.
    + intros b Hlt. apply (Hb b Hlt).
Qed.
End Scratch.
End Three.

(** *** A case: the driver of PropsDriver: two bodies on 2 x 1 ranks, body 0 moves across the border of the blocks in the first iteration. *)
Notation mv_stays := (serial_stays_2d Z.ltb Z.add 0 dr_due [5; 11] 12 Z.le dr_mag dr_lim (fun d => d) Z.add Z.sub Z.mul 0 (fun x => x) (fold_right Z.add 0) 1 0 (fun _ _ : Z => fun v => v) (fun _ i => i) 2 (fun v => v)
  PropsNS.e_cx PropsNS.e_cy 0 1 2 3 4 5 2 PropsLoop.lx_rules dr_num dr_script PropsLoop.lx_look 2 1 4 5 PropsCoupled.ex_actor).
Definition mv_X (b : nat) : list (list Q) := match b with O => p_nodes PropsCoupled.ex_pose0 | _ => p_nodes PropsCoupled.ex_poseb end.
Notation mv_acts := (acts 2 (global_size [2; 1] [4; 5]) [0; 1; 2; 3]%nat (fun b => a_body (PropsCoupled.ex_actor b)) PropsLoop.lx_rules PropsLoop.lx_look dr_num dr_script Z.add Z.sub Z.mul 0 (fun x => x) (fold_right Z.add 0) 1 0 [2; 3]%nat PropsLoop.lx_flow).
Lemma mv_acts1 : mv_acts 0 0 10 (s_state dr_start) = [(0%nat, p_nodes PropsCoupled.ex_pose0); (0%nat, p_nodes PropsCoupled.ex_pose1); (1%nat, p_nodes PropsCoupled.ex_poseb)].
Proof. vm_compute. reflexivity. Qed.
Lemma mv_acts2 : mv_acts 1 10 4 (s_state dr_mid) = [(0%nat, p_nodes PropsCoupled.ex_pose1)].
Proof. vm_compute. reflexivity. Qed.
Lemma mv_grid : grid_ok [2; 1] [4; 5].
Proof. split; [reflexivity|unfold positive; repeat (apply Forall_cons; [lia|]); apply Forall_nil|unfold positive; repeat (apply Forall_cons; [lia|]); apply Forall_nil]. Qed.
Lemma mv_where : in_blocks 1 0 [2; 1] [4; 5] (p_nodes PropsCoupled.ex_pose0) [0; 1] /\ in_blocks 1 0 [2; 1] [4; 5] (p_nodes PropsCoupled.ex_pose1) [1; 1] /\ in_blocks 1 0 [2; 1] [4; 5] (p_nodes PropsCoupled.ex_poseb) [0].
Proof. split; [|split]; repeat constructor; try (vm_compute; intuition discriminate); PropsInteractor.qle. Qed.
Lemma mv_inside : Forall (in_domain 1 0 [2; 1] [4; 5]) (p_nodes PropsCoupled.ex_pose0) /\ Forall (in_domain 1 0 [2; 1] [4; 5]) (p_nodes PropsCoupled.ex_pose1) /\ Forall (in_domain 1 0 [2; 1] [4; 5]) (p_nodes PropsCoupled.ex_poseb).
Proof. split; [|split]; repeat constructor; PropsInteractor.qle. Qed.
Lemma mv_is X a a' : Forall (in_domain 1 0 [2; 1] [4; 5]) X -> in_blocks 1 0 [2; 1] [4; 5] X a -> in_blocks 1 0 [2; 1] [4; 5] X a' -> a = a'.
Proof. exact (MovingProofs.blocks_unique [2; 1] [4; 5] 1 0 eq_refl mv_grid X a a'). Qed.
Lemma mv_same X : Forall (in_domain 1 0 [2; 1] [4; 5]) X -> counts_tell 1 0 [2; 1] [4; 5] X X.
Proof. intros D a a' H H' _. exact (mv_is X a' a D H' H). Qed.
Lemma mv_crossing : counts_tell 1 0 [2; 1] [4; 5] (p_nodes PropsCoupled.ex_pose0) (p_nodes PropsCoupled.ex_pose1).
Proof.
  intros a a' H H' C. destruct mv_where as (W0 & W1 & _). destruct mv_inside as (D0 & D1 & _). pose proof (mv_is _ a _ D0 H W0) as ->. pose proof (mv_is _ a' _ D1 H' W1) as ->.
  specialize (C 0 ltac:(cbn; lia)). discriminate C.
Qed.
Lemma mv_once s h s' h' s'' : dr_step s h s' -> dr_step s h' s'' -> h = h' /\ s' = s''.
Proof. exact (dr_once s h s' h' s''). Qed.
Lemma mv_well p : In p [(0%nat, p_nodes PropsCoupled.ex_pose0); (0%nat, p_nodes PropsCoupled.ex_pose1); (1%nat, p_nodes PropsCoupled.ex_poseb)] -> well_placed 1 0 [2; 1] [4; 5] 2 PropsCoupled.ex_actor p.
Proof. intros [<-|[<-|[<-|[]]]]; (split; [cbn; lia|]; split; [reflexivity|]; split; [split; vm_compute; repeat constructor; try discriminate; lia|intros H; discriminate H]). Qed.
Lemma mv_stays_inside : mv_stays dr_start mv_X.
Proof.
  assert (A : forall hs s l, acted 2 (global_size [2; 1] [4; 5]) [0; 1; 2; 3]%nat (fun b => a_body (PropsCoupled.ex_actor b)) PropsLoop.lx_rules PropsLoop.lx_look dr_num dr_script Z.add Z.sub Z.mul 0 (fun x => x) (fold_right Z.add 0) 1 0 [2; 3]%nat PropsLoop.lx_flow
    dr_step dr_start hs s l -> (s = dr_start /\ l = []) \/ (s = dr_mid /\ l = mv_acts 0 0 10 (s_state dr_start)) \/ (s = dr_end /\ l = mv_acts 0 0 10 (s_state dr_start) ++ mv_acts 1 10 4 (s_state dr_mid))).
  { intros hs s l R. induction R as [|hs s l h s' R IH I]; [now left|]. destruct IH as [[-> ->]|[[-> ->]|[-> ->]]].
    - destruct (dr_once _ _ _ _ _ I dr_step1) as [-> ->]. right. left. split; reflexivity.
    - destruct (dr_once _ _ _ _ _ I dr_step2) as [-> ->]. right. right. split; reflexivity.
    - destruct (dr_over _ _ I). }
  destruct mv_inside as (D0 & D1 & D2). intros hs s l R. apply A in R. rewrite mv_acts1, mv_acts2 in R. destruct R as [[_ ->]|[[_ ->]|[_ ->]]].
  - split; [constructor|]. intros b Hb. exact I.
  - split; [apply Forall_forall; exact mv_well|]. intros [|[|b]] Hb; [| |lia]; cbn; auto using mv_same, mv_crossing.
  - split; [apply Forall_forall; intros p Hp; apply mv_well; cbn [app In] in *; tauto|]. intros [|[|b]] Hb; [| |lia]; cbn; auto 6 using mv_same, mv_crossing.
Qed.
Definition mv_ord (b : nat) (a : list Z) : list Z := filter (fun s => negb (s =? a_master (PropsCoupled.ex_actor b))) (nodup Z.eq_dec a).
Example C70_nonvacuous :
  by_default 2 PropsCoupled.ex_actor mv_ord /\ good_script_2d 0 0 2 3 4 5 2 dr_script /\
  (forall b, (b < 2)%nat -> in_blocks 1 0 [2; 1] [4; 5] (mv_X b) (cs_map PropsCoupled.ex_state b)) /\
  mv_stays dr_start mv_X /\ dr_run dr_start (([] ++ [dr_h1]) ++ [dr_h2]) dr_end /\
  all_at [2; 1] (shows_at 0 [2; 1] [4; 5] 2 [0; 1; 2; 3]%nat [4; 5]%nat 2 PropsCoupled.ex_actor [[2; 9]; [8; 2]]) (eq (cs_map PropsCoupled.ex_state)) dr_ranks dr_start /\
  off_edge 0 [2; 1] [4; 5] (fst (s_state dr_start)) /\ ~ (forall b, (b < 2)%nat -> in_blocks 1 0 [2; 1] [4; 5] (p_nodes PropsCoupled.ex_pose1) (cs_map PropsCoupled.ex_state b)).
Proof.
  destruct C60_nonvacuous as (_ & _ & _ & _ & _ & E5 & E6 & _). split; [|split; [|split; [|split; [exact mv_stays_inside|split; [|split; [exact E5|split; [exact E6|]]]]]]].
  - intros b Hb. assert (Eb : b = 0%nat \/ b = 1%nat) by lia. split; [destruct Eb as [-> | ->]; reflexivity|]. intros a. unfold mv_ord. split; [apply NoDup_filter, NoDup_nodup|]. intros s. rewrite filter_In, nodup_In. destruct (Z.eqb_spec s (a_master (PropsCoupled.ex_actor b))); cbn [negb]; intuition congruence.
  - intros k t d h. destruct k as [|k]; destruct h as [|v [|v' [|v'' h]]]; cbn; auto; try lia. destruct PropsNS.step_instance as (X & X' & _). split; [exact X'|]. destruct X as (_ & _ & _ & X). cbn [n2_frc PropsNS.e_step] in *. tauto.
  - intros b Hb. assert (Eb : b = 0%nat \/ b = 1%nat) by lia. destruct mv_where as (W0 & W1 & W2). destruct Eb as [-> | ->]; assumption.
  - eapply sis_snoc; [eapply sis_snoc; [apply sis_nil|exact dr_step1]|exact dr_step2].
  - intros H. specialize (H 0%nat ltac:(lia)). pose proof (mv_is _ _ _ (proj1 (proj2 mv_inside)) H (proj1 (proj2 mv_where))) as E. discriminate E.
Qed.
(** 3D: the body and the flow of PropsDriver on 2 x 1 x 2 ranks. *)
Notation m3_stays := (serial_stays_3d Z.ltb Z.add 0 dr_due [5; 11] 8 Z.le dr_mag dr_lim (fun d => d) Z.add Z.sub Z.mul 0 (fun x => x) (fold_right Z.add 0) 1 0 (fun _ _ : Z => fun v => v) (fun _ i => i) 2 (fun v => v)
  (PropsNS.e3_c 3) (PropsNS.e3_c 4) (PropsNS.e3_c 5) (fun a b c => a + b + c) Z.sub (Some (Multiplicative, 1%nat, 2)) 0 1 2 3 4 5 6 7 8 9 10 11 12 13 14 1 PropsLoop.l3_rules d3_num d3_script PropsLoop.lx_look 2 1 2 4 5 4 PropsCoupled.e3_actor).
Notation m3_acts := (acts 3 (global_size [2; 1; 2] [4; 5; 4]) [0; 1; 2; 3; 4; 5; 6; 7; 8]%nat (fun b => a_body (PropsCoupled.e3_actor b)) PropsLoop.l3_rules PropsLoop.lx_look d3_num d3_script Z.add Z.sub Z.mul 0 (fun x => x) (fold_right Z.add 0) 1 0 [6; 7; 8]%nat d3_flow).
Lemma m3_grid : grid_ok [2; 1; 2] [4; 5; 4].
Proof. split; [reflexivity|unfold positive; repeat (apply Forall_cons; [lia|]); apply Forall_nil|unfold positive; repeat (apply Forall_cons; [lia|]); apply Forall_nil]. Qed.
Lemma m3_inside : Forall (in_domain 1 0 [2; 1; 2] [4; 5; 4]) (p_nodes PropsCoupled.e3_pose).
Proof. repeat constructor; PropsInteractor.qle. Qed.
Lemma m3_same : counts_tell 1 0 [2; 1; 2] [4; 5; 4] (p_nodes PropsCoupled.e3_pose) (p_nodes PropsCoupled.e3_pose).
Proof. intros a a' H H' _. exact (MovingProofs.blocks_unique [2; 1; 2] [4; 5; 4] 1 0 eq_refl m3_grid _ a' a m3_inside H' H). Qed.
Lemma m3_stays_inside : m3_stays d3_start (fun _ => p_nodes PropsCoupled.e3_pose).
Proof.
  intros hs s l R.
  assert (A : l = [] \/ (s = d3_end /\ l = m3_acts 0 0 10 (s_state d3_start))).
  { assert (A' : (s = d3_start /\ l = []) \/ (s = d3_end /\ l = m3_acts 0 0 10 (s_state d3_start))); [|tauto].
    induction R as [|hs s l h s' R IH I]; [now left|]. destruct IH as [[-> ->]|[-> ->]].
    - destruct (d3_once _ _ _ _ _ I d3_step1) as [-> ->]. right. split; reflexivity.
    - destruct (d3_over _ _ I). }
  assert (E : m3_acts 0 0 10 (s_state d3_start) = [(0%nat, p_nodes PropsCoupled.e3_pose); (0%nat, p_nodes PropsCoupled.e3_pose)]) by (vm_compute; reflexivity).
  rewrite E in A. destruct A as [-> |[_ ->]]; (split; [|intros [|b] Hb; [|lia]; cbn; auto using m3_same]); [constructor|].
  apply Forall_forall. intros p [<-|[<-|[]]]; (split; [cbn; lia|]; split; [reflexivity|]; split; [split; vm_compute; repeat constructor; try discriminate; lia|intros H; discriminate H]).
Qed.
Example C70_nonvacuous_3d :
  by_default 1 PropsCoupled.e3_actor (fun b a => filter (fun s => negb (s =? a_master (PropsCoupled.e3_actor b))) (nodup Z.eq_dec a)) /\ good_script_3d 0 0 1 2 6 7 8 9 10 11 12 13 14 1 d3_script /\
  (forall b, (b < 1)%nat -> in_blocks 1 0 [2; 1; 2] [4; 5; 4] (p_nodes PropsCoupled.e3_pose) (cs_map PropsCoupled.e3_state b)) /\
  m3_stays d3_start (fun _ => p_nodes PropsCoupled.e3_pose) /\ d3_run d3_start ([] ++ [d3_h]) d3_end /\
  all_at [2; 1; 2] (shows_at 0 [2; 1; 2] [4; 5; 4] 2 [0; 1; 2; 3; 4; 5; 6; 7; 8]%nat [9; 10; 11]%nat 1 PropsCoupled.e3_actor [[2; 9; 8]; [8; 2; 8]; [8; 9; 2]]) (eq (cs_map PropsCoupled.e3_state)) d3_ranks d3_start.
Proof.
  destruct C60_nonvacuous_3d as (_ & E5 & _). split; [|split; [|split; [|split; [exact m3_stays_inside|split; [|exact E5]]]]].
  - intros b Hb. assert (Eb : b = 0%nat) by lia. subst b. split; [reflexivity|]. intros a. split; [apply NoDup_filter, NoDup_nodup|]. intros s. rewrite filter_In, nodup_In. destruct (Z.eqb_spec s (a_master (PropsCoupled.e3_actor 0))); cbn [negb]; intuition congruence.
  - destruct PropsCoupled.C49_nonvacuous_3d as (_ & _ & H & _). unfold PropsCoupled.e3_events in H. apply Forall_cons_iff in H as [_ H]. apply Forall_cons_iff in H as [_ H]. apply Forall_cons_iff in H as [P3 _].
    intros k t d h. destruct h as [|v [|v' [|v'' h]]]; try exact I; [apply Nat.lt_0_succ|exact P3].
  - intros b Hb. repeat constructor; try (vm_compute; intuition discriminate); PropsInteractor.qle.
  - eapply sis_snoc; [apply sis_nil|exact d3_step1].
Qed.
Print Assumptions C70_when_counts_tell.
Print Assumptions C70_counts_tell_refuted.
Print Assumptions C70_calls_legal_2d.
Print Assumptions C70_runs_as_serial_2d.
Print Assumptions C70_from_scratch_2d.
Print Assumptions C70_calls_legal_3d.
Print Assumptions C70_runs_as_serial_3d.
Print Assumptions C70_from_scratch_3d.
