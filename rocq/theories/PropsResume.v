(** Property C57: restarting a simulation of a flow with immersed bodies. *)
From Coq Require Import QArith String Permutation.
From Verif Require Import Base SpecGrid SpecGhost SpecGhostSum SpecStencil SpecStep SpecPenalise SpecFilter SpecDouble SpecLag SpecIB SpecVbf SpecNS SpecBodies SpecCoupled
  Comm Blocking Spmd Stencil Lagrangian Vbf NavierStokes Coupled SpecTracks IoLag IoEul Restart SpecRestart SpecResume Resume.
From Verif Require PropsNS KernelProofs CoupledProofs CoupledThms LoopProofs RestartProofs ResumeSerial ResumeProofs ResumeThms.
Open Scope Z_scope.
Open Scope list_scope.

(** What the forcing and the bodies' buffers are in a simulator that has just been built: zero. *)
Definition just_built {T} (z : T) (dims loc : list Z) (g : Z) (fs : list nat) (nb : nat) (actors : nat -> actor T) (bufsz : list (list Z)) (m : mem T) : Prop :=
  forc z dims loc g fs (fun _ _ => z) (by_rank m) /\ forall b, (b < nb)%nat -> Forall2 (fun f sz => zero_buf z (zprod dims) f sz (by_rank m)) (a_bufs (actors b)) bufsz.

Section Two.
Context {T C P : Type}.
Variables (add sub mul : T -> T -> T) (z fill : T) (val : T -> Q) (times0 scale : T -> T) (sum : list T -> T) (dx shift : Q).
Variables (damp : C -> C -> T -> T) (coord : nat -> Z -> C) (width : Z) (conv : (list Z -> T) -> list Z -> T) (Kcx Kcy : @kfun T).
Variables (w psi vx vy fx fy buf D S : nat) (nb : nat) (close : P -> P -> bool).
Hypothesis add_monoid : comm_monoid add z.
Hypothesis zeroing : forall x, times0 x = z.
Hypothesis spacing : (0 < dx)%Q.
Notation setting py px ny nx g dd xg := (ns2_setting py px ny nx g width dd xg coord w psi vx vy fx fy buf D S Kcx Kcy).
Notation all_ok py px g actors := (actors_ok [py; px] g nb actors [w; psi; vx; vy; fx; fy; buf; D; S]).
Notation legal py px ny nx actors := (Forall (event_ok [py; px] [ny; nx] nb actors dx shift (flow2_ok z w vx vy fx fy))).
Notation bufsz ny nx g := [[g; nx + 2 * g]; [ny + 2 * g; g]].
Notation shows py px ny nx g actors := (tracks z [py; px] [ny; nx] g [w; psi; vx; vy] [fx; fy] nb actors (bufsz ny nx g)).
(* the parallel program of a history of calls *)
Notation program py px ny nx g full dd xg actors := (coupled_segs add sub mul z scale sum dx shift [py; px] [ny; nx] g [vx; vy] [fx; fy] actors
  (exch_2d py px ny nx g full [vx; vy]) (spread_2 add mul times0 dx shift py px ny nx g [fx; fy])
  (time_step_2d add z damp conv py px ny nx g full dd width xg w psi vx vy fx fy buf D S Kcx Kcy)).
(* the serial simulation of the same history, and what is collected in it *)
Notation flow_step N := (fun frc u s => serial_ns_2d add z damp coord width conv Kcx Kcy N w psi vx vy fx fy u (with_forcing2 [fx; fy] frc s)).
Notation reference N actors := (serial_coupled add sub mul z scale sum dx shift [vx; vy] (flow_step N) (fun b => a_body (actors b))).
Notation collected_in N actors st es := (collects add sub mul z scale sum dx shift [vx; vy] (flow_step N) (fun b => a_body (actors b)) (fun _ _ j => j) st (fun _ => None) es).

(** C57 (2D).  A simulation of a flow with bodies makes the calls es and is saved, as the repository's example with checkpoints does: vorticity,
    velocity, and for each body positions and mismatches.  A simulator just built, with any decomposition, masters and interactor
    options, loads the files and then makes the calls es1 (up to ghost exchanges: es2).  If nothing is in flight at the save
    ([restartable]) and the penalised zone is at least 4 cells wide, and no wider than half the domain, the restarted run
    ends as the run that was not interrupted: the same vorticity, velocity and forcing everywhere, once the flow has been advanced
    also the same stream function, and the same forces on every body that met the flow. *)
Theorem C57_restart_2d py px ny nx full dd xg actors py' px' ny' nx' full' dd' xg' actors' g (params params' : P) (fields fields' : list efield) FF files ord ss ss1 st (es es1 es2 : list (event T (@ns2_step T))) (m0 m mB0 m1 mB e e' : mem T) ssB :
  setting py px ny nx g dd xg -> setting py' px' ny' nx' g dd' xg' -> global_size [py; px] [ny; nx] = global_size [py'; px'] [ny'; nx'] ->
  4 <= width -> Forall (fun n => 2 * width <= n) (global_size [py; px] [ny; nx]) ->
  all_ok py px g actors -> all_ok py' px' g actors' -> (forall b, a_body (actors b) = a_body (actors' b)) -> (forall b, (b < nb)%nat -> a_local (actors b) = false /\ a_local (actors' b) = false) ->
  (* the first run, to the save and on *)
  shows py px ny nx g actors ss m0 st -> off_edge z [py; px] [ny; nx] st -> legal py px ny nx actors (es ++ es1) -> ghosts_ok actors false (es ++ es1) -> moves_ok (zprod [py; px]) (cs_map st) (es ++ es1) ->
  restartable val 2 nb (fun b => a_body (actors b)) es es1 ->
  segs_end (zprod [py; px]) (program py px ny nx g full dd xg actors ss es) m0 m ->
  segs_end (zprod [py; px]) (program py px ny nx g full dd xg actors (final_maps [py; px] ss es) es1) m e ->
  (* the files *)
  add_eulerian_all [ny; nx] g [] (flow_fields_2d [ny; nx] g w vx vy) = Some fields -> saved_as [py; px] [ny; nx] g fields params m FF ->
  (forall b, (b < nb)%nat -> lag_saved_as 2 [mismatch_fields 2 (actors b)] m (files b)) ->
  (* the restart *)
  add_eulerian_all [ny'; nx'] g [] (flow_fields_2d [ny'; nx'] g w vx vy) = Some fields' -> just_built z [py'; px'] [ny'; nx'] g [fx; fy] nb actors' (bufsz ny' nx' g) mB0 ->
  loaded_as fill close [py'; px'] [ny'; nx'] g fields' params' FF mB0 m1 -> orders_ok nb (fun b => a_master (actors' b)) ord ->
  resumed z fill val dx shift [py'; px'] [ny'; nx'] 2 actors' ord files nb m1 ss1 mB ssB ->
  legal py' px' ny' nx' actors' es2 -> ghosts_ok actors' false es2 -> moves_ok (zprod [py'; px']) (fun b => address (ssB b)) es2 -> Forall2 (same_event eq) (calls es1) (calls es2) ->
  segs_end (zprod [py'; px']) (program py' px' ny' nx' g full' dd' xg' actors' ssB es2) mB e' ->
  agree [py; px] [ny; nx] [py'; px'] [ny'; nx'] g [w; vx; vy; fx; fy] e e' /\ (flows es1 = true -> agree [py; px] [ny; nx] [py'; px'] [ny'; nx'] g [w; psi; vx; vy; fx; fy] e e') /\
  forall b c j, (b < nb)%nat -> meets b es1 = true -> 0 <= c < 2 -> 0 <= j < v_count (a_body (actors b)) ->
    e (a_master (actors b), (gfo (a_arrays (actors b)), c * v_count (a_body (actors b)) + j)) = e' (a_master (actors' b), (gfo (a_arrays (actors' b)), c * v_count (a_body (actors b)) + j)).
Proof.
  intros HS HS' EN H4 HN HA HA' Hb Hloc Ht Ho He Hgh Hmv Hrs R0 Ra Ef Hsav Hfile Ef' [B1 B2] Hload Hord Hres He' Hgh' Hmv' Hsame Rb.
  rewrite RestartProofs.fields2 in Ef by reflexivity. rewrite RestartProofs.fields2 in Ef' by reflexivity. injection Ef as <-. injection Ef' as <-.
  pose proof He as He0. apply Forall_app in He0 as [He1 _].
  apply (ResumeThms.resume2 add sub mul z fill val times0 scale sum dx shift damp coord width conv Kcx Kcy w psi vx vy fx fy buf D S nb close add_monoid zeroing spacing py px ny nx full dd xg actors py' px' ny' nx' full' dd' xg' actors' g params params' FF files ord ss ss1 st es es1 es2 m0 m mB0 m1 HS HS' EN H4 HN HA HA' Hb Hloc Hord (rs_save _ _ _ _ _ _ Hrs) He1
    (LoopProofs.ghosts_app _ _ _ _ Hgh) (LoopProofs.moves_app _ _ _ _ Hmv) Ht Ho R0 Hsav Hfile B1 B2 Hload mB e e' ssB He Hgh Hmv Hrs Hres He' Hgh' Hmv' Hsame Ra Rb).
Qed.

(** C57 (2D).  All of this is possible: the fields are accepted, the files can be written; if the parameters match, the simulator just
    built loads the flow and then each body's file, maps its nodes and scatters its mismatches, and runs. *)
Theorem C57_restart_possible_2d py px ny nx full dd xg actors py' px' ny' nx' full' dd' xg' actors' g (params params' : P) (time : T) ord ss ss1 st (es : list (event T (@ns2_step T))) (m0 m mB0 : mem T) :
  setting py px ny nx g dd xg -> setting py' px' ny' nx' g dd' xg' -> global_size [py; px] [ny; nx] = global_size [py'; px'] [ny'; nx'] ->
  all_ok py px g actors -> all_ok py' px' g actors' -> (forall b, a_body (actors b) = a_body (actors' b)) -> (forall b, (b < nb)%nat -> a_local (actors b) = false /\ a_local (actors' b) = false) ->
  shows py px ny nx g actors ss m0 st -> off_edge z [py; px] [ny; nx] st -> legal py px ny nx actors es -> ghosts_ok actors false es -> moves_ok (zprod [py; px]) (cs_map st) es ->
  saveable val 2 nb (fun b => a_body (actors b)) es -> segs_end (zprod [py; px]) (program py px ny nx g full dd xg actors ss es) m0 m ->
  just_built z [py'; px'] [ny'; nx'] g [fx; fy] nb actors' (bufsz ny' nx' g) mB0 -> orders_ok nb (fun b => a_master (actors' b)) ord -> close params' params = true ->
  exists fields fields', add_eulerian_all [ny; nx] g [] (flow_fields_2d [ny; nx] g w vx vy) = Some fields /\ add_eulerian_all [ny'; nx'] g [] (flow_fields_2d [ny'; nx'] g w vx vy) = Some fields' /\
    (exists FF, saved_as [py; px] [ny; nx] g fields params m FF) /\ (forall b, (b < nb)%nat -> exists F, lag_saved_as 2 [mismatch_fields 2 (actors b)] m F) /\
    forall FF files, saved_as [py; px] [ny; nx] g fields params m FF -> (forall b, (b < nb)%nat -> lag_saved_as 2 [mismatch_fields 2 (actors b)] m (files b)) ->
    exists m1 mB ssB, loaded_as fill close [py'; px'] [ny'; nx'] g fields' params' FF mB0 m1 /\ resumed z fill val dx shift [py'; px'] [ny'; nx'] 2 actors' ord files nb m1 ss1 mB ssB /\
      forall es2, legal py' px' ny' nx' actors' es2 -> ghosts_ok actors' false es2 -> moves_ok (zprod [py'; px']) (fun b => address (ssB b)) es2 ->
      exists e', segs_end (zprod [py'; px']) (program py' px' ny' nx' g full' dd' xg' actors' ssB es2) mB e'.
Proof.
  intros HS HS' EN HA HA' Hb Hloc Ht Ho He Hgh Hmv Hsv R0 [B1 B2] Hord Hc.
  destruct (RestartProofs.set_ok _ _ _ _ _ _ _ _ _ _ _ _ _ _ _ _ _ _ _ _ HS) as (Hok & Hg & _). destruct (RestartProofs.set_ok _ _ _ _ _ _ _ _ _ _ _ _ _ _ _ _ _ _ _ _ HS') as (Hok' & _ & _).
  eexists. eexists. split; [now apply RestartProofs.fields2|]. split; [now apply RestartProofs.fields2|]. split; [eexists; eexists; split; [apply Permutation_refl|reflexivity]|]. split.
  { intros b Hbn. exact (ResumeProofs.file_exists 2 (actors b) m time (sv_count _ _ _ _ _ Hsv b Hbn)). }
  intros FF files HF Hfile.
  destruct (RestartProofs.reload_ok fill close [py; px] [ny; nx] g _ m params FF [py'; px'] [ny'; nx'] g [EScalar "vorticity" w; EVector "velocity" [vx; vy]] params' mB0 Hok Hok' EN ltac:(clear -Hg; lia)
    (RestartProofs.fresh2 w vx vy)) as (m1 & HL); auto.
  { eapply ResumeThms.arrays_kept. exact HS. }
  { intros f' Hf'. exists f'. split; auto. destruct f'; cbn; auto. }
  exists m1. destruct (ResumeThms.back2 add sub mul z fill val times0 scale sum dx shift damp coord width conv Kcx Kcy w psi vx vy fx fy buf D S nb close add_monoid zeroing spacing py px ny nx full dd xg actors py' px' ny' nx' full' dd' xg' actors' g params params' FF files ord ss ss1 st es m0 m mB0 m1) as (mB & ssB & R1 & R2); auto.
  exists mB, ssB. auto.
Qed.

(** C57 (2D).  What is in the files, after any calls: of each body the mismatches from before it last met the flow, and the positions
    at which it met it. *)
Theorem C57_what_is_saved_2d py px ny nx g full dd xg actors ss st (es es' : list (event T (@ns2_step T))) ev b p (m0 m : mem T) :
  setting py px ny nx g dd xg -> all_ok py px g actors ->
  shows py px ny nx g actors ss m0 st -> off_edge z [py; px] [ny; nx] st -> legal py px ny nx actors (es ++ ev :: es') -> ghosts_ok actors false (es ++ ev :: es') ->
  segs_end (zprod [py; px]) (program py px ny nx g full dd xg actors ss (es ++ ev :: es')) m0 m ->
  (b < nb)%nat -> a_local (actors b) = false -> ev = EFull b p \/ ev = ELag b p -> meets b es' = false ->
  let before := cs_st (reference (global_size [py; px] [ny; nx]) actors (continues (zprod [py; px])) st es) b in
  let at_master A c j := m (a_master (actors b), (A (a_arrays (actors b)), c * v_count (a_body (actors b)) + j)) in
  forall c j, 0 <= c < 2 -> 0 <= j < v_count (a_body (actors b)) -> at_master gpm c j = pm before c j /\ at_master gvm c j = vm before c j /\ at_master gpos c j = p_pos p c j.
Proof.
  intros HS HA Ht Ho He Hgh R Hbn Hl Hev Hm before at_master c j Hcc Hj.
  destruct (CoupledThms.coupled_more_2d add sub mul z times0 scale sum dx shift damp coord width conv Kcx Kcy py px ny nx g full dd xg w psi vx vy fx fy buf D S nb actors HS add_monoid zeroing spacing HA
    (continues (zprod [py; px])) _ ss m0 st (fun _ => None) Ht Ho Hgh He (CoupledThms.all_fit_continues _ _ _ _ _ _ _ _ ss (CoupledThms.tracks_nums _ _ _ _ _ _ _ _ _ _ _ _ Ht) He) ltac:(intros b' k' _ _ X; discriminate)) as (m' & _ & U & _ & Bk).
  rewrite <- (U m R) in Bk. specialize (Bk b _ Hbn Hl (ResumeSerial.coll_last _ _ _ _ _ _ _ _ _ _ _ _ _ _ b es ev p es' Hev Hm)). exact (Bk c j Hcc Hj).
Qed.

(** C57 (2D).  What exactly a restart continues, whenever it was saved: the simulation whose flow and mismatches are those given back by
    the files ([given_back]); the mismatches are those collected when the bodies last met the flow. *)
Theorem C57_what_continues_2d py px ny nx full dd xg actors py' px' ny' nx' full' dd' xg' actors' g (params params' : P) (fields fields' : list efield) FF files ord ss ss1 st (es es2 : list (event T (@ns2_step T))) (m0 m mB0 m1 mB e' : mem T) ssB :
  setting py px ny nx g dd xg -> setting py' px' ny' nx' g dd' xg' -> global_size [py; px] [ny; nx] = global_size [py'; px'] [ny'; nx'] ->
  4 <= width -> Forall (fun n => 2 * width <= n) (global_size [py; px] [ny; nx]) ->
  all_ok py px g actors -> all_ok py' px' g actors' -> (forall b, a_body (actors b) = a_body (actors' b)) -> (forall b, (b < nb)%nat -> a_local (actors b) = false /\ a_local (actors' b) = false) ->
  shows py px ny nx g actors ss m0 st -> off_edge z [py; px] [ny; nx] st -> legal py px ny nx actors es -> ghosts_ok actors false es -> moves_ok (zprod [py; px]) (cs_map st) es ->
  saveable val 2 nb (fun b => a_body (actors b)) es ->
  segs_end (zprod [py; px]) (program py px ny nx g full dd xg actors ss es) m0 m ->
  add_eulerian_all [ny; nx] g [] (flow_fields_2d [ny; nx] g w vx vy) = Some fields -> saved_as [py; px] [ny; nx] g fields params m FF ->
  (forall b, (b < nb)%nat -> lag_saved_as 2 [mismatch_fields 2 (actors b)] m (files b)) ->
  add_eulerian_all [ny'; nx'] g [] (flow_fields_2d [ny'; nx'] g w vx vy) = Some fields' -> just_built z [py'; px'] [ny'; nx'] g [fx; fy] nb actors' (bufsz ny' nx' g) mB0 ->
  loaded_as fill close [py'; px'] [ny'; nx'] g fields' params' FF mB0 m1 -> orders_ok nb (fun b => a_master (actors' b)) ord ->
  resumed z fill val dx shift [py'; px'] [ny'; nx'] 2 actors' ord files nb m1 ss1 mB ssB ->
  legal py' px' ny' nx' actors' es2 -> ghosts_ok actors' false es2 -> moves_ok (zprod [py'; px']) (fun b => address (ssB b)) es2 ->
  segs_end (zprod [py'; px']) (program py' px' ny' nx' g full' dd' xg' actors' ssB es2) mB e' ->
  let N := global_size [py; px] [ny; nx] in
  exists f0, let s := reference N actors (fun _ _ j => j) (given_back z (collected_in N actors st es) f0 (reference N actors (fun _ _ j => j) st es)) es2 in
  represents [py'; px'] [ny'; nx'] g (if flows es2 then [w; psi; vx; vy] else [w; vx; vy]) e' (cs_u s) /\
  (forall c f, nth_error [fx; fy] c = Some f -> represents [py'; px'] [ny'; nx'] g [f] e' (fun _ => cs_f s (Z.of_nat c))) /\
  forall b c j, (b < nb)%nat -> 0 <= c < 2 -> 0 <= j < v_count (a_body (actors b)) ->
    e' (a_master (actors' b), (gfo (a_arrays (actors' b)), c * v_count (a_body (actors b)) + j)) = fo (cs_st s b) c j.
Proof.
  intros HS HS' EN H4 HN HA HA' Hb Hloc Ht Ho He Hgh Hmv Hsv R0 Ef Hsav Hfile Ef' [B1 B2] Hload Hord Hres He' Hgh' Hmv' Rb.
  rewrite RestartProofs.fields2 in Ef by reflexivity. rewrite RestartProofs.fields2 in Ef' by reflexivity. injection Ef as <-. injection Ef' as <-.
  exact (ResumeThms.exact2 add sub mul z fill val times0 scale sum dx shift damp coord width conv Kcx Kcy w psi vx vy fx fy buf D S nb close add_monoid zeroing spacing py px ny nx full dd xg actors py' px' ny' nx' full' dd' xg' actors' g params params' FF files ord ss ss1 st es es2 m0 m mB0 m1 HS HS' EN H4 HN HA HA' Hb Hloc Hord Hsv He Hgh Hmv Ht Ho R0 Hsav Hfile B1 B2 Hload mB e' ssB Hres He' Hgh' Hmv' Rb).
Qed.
End Two.

Section Three.
Context {T C P : Type}.
Variables (add sub mul : T -> T -> T) (z fill : T) (val : T -> Q) (times0 scale : T -> T) (sum : list T -> T) (dx shift : Q).
Variables (damp : C -> C -> T -> T) (coord : nat -> Z -> C) (width : Z) (conv : (list Z -> T) -> list Z -> T) (Kcx Kcy Kcz : @kfun T)
          (lap : T -> T -> T -> T) (fsub : T -> T -> T) (filt : option (filter_type * nat * Z)).
Variables (w0 w1 w2 p0 p1 p2 vx vy vz fx fy fz b0 b1 b2 buf D S : nat) (nb : nat) (close : P -> P -> bool).
Hypothesis add_monoid : comm_monoid add z.
Hypothesis zeroing : forall x, times0 x = z.
Hypothesis spacing : (0 < dx)%Q.
Notation ws := [w0; w1; w2].
Notation vs := [vx; vy; vz].
Notation fs := [fx; fy; fz].
Notation bs := [b0; b1; b2].
Notation Fs0 := [w0; w1; w2; p0; p1; p2; vx; vy; vz].
Notation kept := [w0; w1; w2; vx; vy; vz].
Notation setting pz py px n0 n1 n2 g xg := (ns3_setting pz py px n0 n1 n2 g width filt xg coord w0 w1 w2 p0 p1 p2 vx vy vz fx fy fz b0 b1 b2 buf D S Kcx Kcy Kcz).
Notation all_ok pz py px g actors := (actors_ok [pz; py; px] g nb actors [w0; w1; w2; p0; p1; p2; vx; vy; vz; fx; fy; fz; b0; b1; b2; buf; D; S]).
Notation legal pz py px n0 n1 n2 actors := (Forall (event_ok [pz; py; px] [n0; n1; n2] nb actors dx shift (fun s => flow3_ok z ws vs bs fs (fst s)))).
Notation bufsz n0 n1 n2 g := [[g; n1 + 2 * g; n2 + 2 * g]; [n0 + 2 * g; g; n2 + 2 * g]; [n0 + 2 * g; n1 + 2 * g; g]].
Notation shows pz py px n0 n1 n2 g actors := (tracks z [pz; py; px] [n0; n1; n2] g Fs0 fs nb actors (bufsz n0 n1 n2 g)).
Notation program pz py px n0 n1 n2 g full xg actors := (coupled_segs add sub mul z scale sum dx shift [pz; py; px] [n0; n1; n2] g vs fs actors
  (exch_3d pz py px n0 n1 n2 g full vs) (spread_3 add mul times0 dx shift pz py px n0 n1 n2 g fs)
  (fun sr => time_step_3d add z damp conv lap fsub filt pz py px n0 n1 n2 g full width xg w0 w1 w2 p0 p1 p2 vx vy vz fx fy fz b0 b1 b2 buf D S Kcx Kcy Kcz (snd sr) (fst sr))).
Notation race := (Z -> nat -> list Z -> T).
Notation flow_step N := (fun frc u s => serial_ns_3d add z damp coord width conv Kcx Kcy Kcz lap fsub filt N w0 w1 w2 p0 p1 p2 vx vy vz b0 b1 b2 fx fy fz u (with_forcing3 fs frc (fst s))).
Notation reference N actors := (serial_coupled add sub mul z scale sum dx shift vs (flow_step N) (fun b => a_body (actors b))).
Notation collected_in N actors st es := (collects add sub mul z scale sum dx shift vs (flow_step N) (fun b => a_body (actors b)) (fun _ _ j => j) st (fun _ => None) es).

(** C57 (3D).  The same if the penalised zone is at least 3 cells wide, the filter is off or leaves at least 3 cells at the boundary alone,
    and the ghost exchange serves corners where two axes are split. *)
Theorem C57_restart_3d pz py px n0 n1 n2 full xg actors pz' py' px' n0' n1' n2' full' xg' actors' g (params params' : P) (fields fields' : list efield) FF files ord ss ss1 st (es es1 es2 : list (event T (@ns3_step T * race))) (m0 m mB0 m1 mB e e' : mem T) ssB :
  setting pz py px n0 n1 n2 g xg -> setting pz' py' px' n0' n1' n2' g xg' -> global_size [pz; py; px] [n0; n1; n2] = global_size [pz'; py'; px'] [n0'; n1'; n2'] ->
  3 <= width -> Forall (fun n => 2 * width <= n) (global_size [pz; py; px] [n0; n1; n2]) -> match filt with Some (_, _, bw) => 3 <= bw | None => True end -> full = true \/ at_most_one_split [pz; py; px] -> full' = true \/ at_most_one_split [pz'; py'; px'] ->
  all_ok pz py px g actors -> all_ok pz' py' px' g actors' -> (forall b, a_body (actors b) = a_body (actors' b)) -> (forall b, (b < nb)%nat -> a_local (actors b) = false /\ a_local (actors' b) = false) ->
  (* the first run, to the save and on *)
  shows pz py px n0 n1 n2 g actors ss m0 st -> off_edge z [pz; py; px] [n0; n1; n2] st -> legal pz py px n0 n1 n2 actors (es ++ es1) -> ghosts_ok actors false (es ++ es1) -> moves_ok (zprod [pz; py; px]) (cs_map st) (es ++ es1) ->
  restartable val 3 nb (fun b => a_body (actors b)) es es1 ->
  segs_end (zprod [pz; py; px]) (program pz py px n0 n1 n2 g full xg actors ss es) m0 m ->
  segs_end (zprod [pz; py; px]) (program pz py px n0 n1 n2 g full xg actors (final_maps [pz; py; px] ss es) es1) m e ->
  (* the files *)
  add_eulerian_all [n0; n1; n2] g [] (flow_fields_3d [n0; n1; n2] g w0 w1 w2 vx vy vz) = Some fields -> saved_as [pz; py; px] [n0; n1; n2] g fields params m FF ->
  (forall b, (b < nb)%nat -> lag_saved_as 3 [mismatch_fields 3 (actors b)] m (files b)) ->
  (* the restart *)
  add_eulerian_all [n0'; n1'; n2'] g [] (flow_fields_3d [n0'; n1'; n2'] g w0 w1 w2 vx vy vz) = Some fields' -> just_built z [pz'; py'; px'] [n0'; n1'; n2'] g fs nb actors' (bufsz n0' n1' n2' g) mB0 ->
  loaded_as fill close [pz'; py'; px'] [n0'; n1'; n2'] g fields' params' FF mB0 m1 -> orders_ok nb (fun b => a_master (actors' b)) ord ->
  resumed z fill val dx shift [pz'; py'; px'] [n0'; n1'; n2'] 3 actors' ord files nb m1 ss1 mB ssB ->
  legal pz' py' px' n0' n1' n2' actors' es2 -> ghosts_ok actors' false es2 -> moves_ok (zprod [pz'; py'; px']) (fun b => address (ssB b)) es2 -> Forall2 (same_event (fun s s' => fst s = fst s')) (calls es1) (calls es2) ->
  segs_end (zprod [pz'; py'; px']) (program pz' py' px' n0' n1' n2' g full' xg' actors' ssB es2) mB e' ->
  agree [pz; py; px] [n0; n1; n2] [pz'; py'; px'] [n0'; n1'; n2'] g [w0; w1; w2; vx; vy; vz; fx; fy; fz] e e' /\ (flows es1 = true -> agree [pz; py; px] [n0; n1; n2] [pz'; py'; px'] [n0'; n1'; n2'] g [w0; w1; w2; p0; p1; p2; vx; vy; vz; fx; fy; fz] e e') /\
  forall b c j, (b < nb)%nat -> meets b es1 = true -> 0 <= c < 3 -> 0 <= j < v_count (a_body (actors b)) ->
    e (a_master (actors b), (gfo (a_arrays (actors b)), c * v_count (a_body (actors b)) + j)) = e' (a_master (actors' b), (gfo (a_arrays (actors' b)), c * v_count (a_body (actors b)) + j)).
Proof.
  intros HS HS' EN H4 HN Hbw Hcor Hcor' HA HA' Hb Hloc Ht Ho He Hgh Hmv Hrs R0 Ra Ef Hsav Hfile Ef' [B1 B2] Hload Hord Hres He' Hgh' Hmv' Hsame Rb.
  rewrite RestartProofs.fields3 in Ef by reflexivity. rewrite RestartProofs.fields3 in Ef' by reflexivity. injection Ef as <-. injection Ef' as <-.
  pose proof He as He0. apply Forall_app in He0 as [He1 _].
  apply (ResumeThms.resume3 add sub mul z fill val times0 scale sum dx shift damp coord width conv Kcx Kcy Kcz lap fsub filt w0 w1 w2 p0 p1 p2 vx vy vz fx fy fz b0 b1 b2 buf D S nb close add_monoid zeroing spacing pz py px n0 n1 n2 full xg actors pz' py' px' n0' n1' n2' full' xg' actors' g params params' FF files ord ss ss1 st es es1 es2 m0 m mB0 m1 HS HS' EN H4 HN Hbw Hcor Hcor' HA HA' Hb Hloc Hord (rs_save _ _ _ _ _ _ Hrs) He1
    (LoopProofs.ghosts_app _ _ _ _ Hgh) (LoopProofs.moves_app _ _ _ _ Hmv) Ht Ho R0 Hsav Hfile B1 B2 Hload mB e e' ssB He Hgh Hmv Hrs Hres He' Hgh' Hmv' Hsame Ra Rb).
Qed.

(** C57 (3D).  All of this is possible: the fields are accepted, the files can be written; if the parameters match, the simulator just
    built loads the flow and then each body's file, maps its nodes and scatters its mismatches, and runs. *)
Theorem C57_restart_possible_3d pz py px n0 n1 n2 full xg actors pz' py' px' n0' n1' n2' full' xg' actors' g (params params' : P) (time : T) ord ss ss1 st (es : list (event T (@ns3_step T * race))) (m0 m mB0 : mem T) :
  setting pz py px n0 n1 n2 g xg -> setting pz' py' px' n0' n1' n2' g xg' -> global_size [pz; py; px] [n0; n1; n2] = global_size [pz'; py'; px'] [n0'; n1'; n2'] -> full = true \/ at_most_one_split [pz; py; px] -> full' = true \/ at_most_one_split [pz'; py'; px'] ->
  all_ok pz py px g actors -> all_ok pz' py' px' g actors' -> (forall b, a_body (actors b) = a_body (actors' b)) -> (forall b, (b < nb)%nat -> a_local (actors b) = false /\ a_local (actors' b) = false) ->
  shows pz py px n0 n1 n2 g actors ss m0 st -> off_edge z [pz; py; px] [n0; n1; n2] st -> legal pz py px n0 n1 n2 actors es -> ghosts_ok actors false es -> moves_ok (zprod [pz; py; px]) (cs_map st) es ->
  saveable val 3 nb (fun b => a_body (actors b)) es -> segs_end (zprod [pz; py; px]) (program pz py px n0 n1 n2 g full xg actors ss es) m0 m ->
  just_built z [pz'; py'; px'] [n0'; n1'; n2'] g fs nb actors' (bufsz n0' n1' n2' g) mB0 -> orders_ok nb (fun b => a_master (actors' b)) ord -> close params' params = true ->
  exists fields fields', add_eulerian_all [n0; n1; n2] g [] (flow_fields_3d [n0; n1; n2] g w0 w1 w2 vx vy vz) = Some fields /\ add_eulerian_all [n0'; n1'; n2'] g [] (flow_fields_3d [n0'; n1'; n2'] g w0 w1 w2 vx vy vz) = Some fields' /\
    (exists FF, saved_as [pz; py; px] [n0; n1; n2] g fields params m FF) /\ (forall b, (b < nb)%nat -> exists F, lag_saved_as 3 [mismatch_fields 3 (actors b)] m F) /\
    forall FF files, saved_as [pz; py; px] [n0; n1; n2] g fields params m FF -> (forall b, (b < nb)%nat -> lag_saved_as 3 [mismatch_fields 3 (actors b)] m (files b)) ->
    exists m1 mB ssB, loaded_as fill close [pz'; py'; px'] [n0'; n1'; n2'] g fields' params' FF mB0 m1 /\ resumed z fill val dx shift [pz'; py'; px'] [n0'; n1'; n2'] 3 actors' ord files nb m1 ss1 mB ssB /\
      forall es2, legal pz' py' px' n0' n1' n2' actors' es2 -> ghosts_ok actors' false es2 -> moves_ok (zprod [pz'; py'; px']) (fun b => address (ssB b)) es2 ->
      exists e', segs_end (zprod [pz'; py'; px']) (program pz' py' px' n0' n1' n2' g full' xg' actors' ssB es2) mB e'.
Proof.
  intros HS HS' EN Hcor Hcor' HA HA' Hb Hloc Ht Ho He Hgh Hmv Hsv R0 [B1 B2] Hord Hc.
  destruct (RestartProofs.set_ok3 _ _ _ _ _ _ _ _ _ _ _ _ _ _ _ _ _ _ _ _ _ _ _ _ _ _ _ _ _ _ _ _ HS) as (Hok & Hg & _). destruct (RestartProofs.set_ok3 _ _ _ _ _ _ _ _ _ _ _ _ _ _ _ _ _ _ _ _ _ _ _ _ _ _ _ _ _ _ _ _ HS') as (Hok' & _ & _).
  eexists. eexists. split; [now apply RestartProofs.fields3|]. split; [now apply RestartProofs.fields3|]. split; [eexists; eexists; split; [apply Permutation_refl|reflexivity]|]. split.
  { intros b Hbn. exact (ResumeProofs.file_exists 3 (actors b) m time (sv_count _ _ _ _ _ Hsv b Hbn)). }
  intros FF files HF Hfile.
  destruct (RestartProofs.reload_ok fill close [pz; py; px] [n0; n1; n2] g _ m params FF [pz'; py'; px'] [n0'; n1'; n2'] g [EVector "vorticity" ws; EVector "velocity" vs] params' mB0 Hok Hok' EN ltac:(clear -Hg; lia)
    (RestartProofs.fresh3 w0 w1 w2 vx vy vz)) as (m1 & HL); auto.
  { eapply ResumeThms.arrays_kept3. exact HS. }
  { intros f' Hf'. exists f'. split; auto. destruct f'; cbn; auto. }
  exists m1. destruct (ResumeThms.back3 add sub mul z fill val times0 scale sum dx shift damp coord width conv Kcx Kcy Kcz lap fsub filt w0 w1 w2 p0 p1 p2 vx vy vz fx fy fz b0 b1 b2 buf D S nb close add_monoid zeroing spacing pz py px n0 n1 n2 full xg actors pz' py' px' n0' n1' n2' full' xg' actors' g params params' FF files ord ss ss1 st es m0 m mB0 m1) as (mB & ssB & R1 & R2); auto.
  exists mB, ssB. auto.
Qed.

(** C57 (3D).  What is in the files, after any calls: of each body the mismatches from before it last met the flow, and the positions
    at which it met it. *)
Theorem C57_what_is_saved_3d pz py px n0 n1 n2 g full xg actors ss st (es es' : list (event T (@ns3_step T * race))) ev b p (m0 m : mem T) :
  setting pz py px n0 n1 n2 g xg -> all_ok pz py px g actors -> full = true \/ at_most_one_split [pz; py; px] ->
  shows pz py px n0 n1 n2 g actors ss m0 st -> off_edge z [pz; py; px] [n0; n1; n2] st -> legal pz py px n0 n1 n2 actors (es ++ ev :: es') -> ghosts_ok actors false (es ++ ev :: es') ->
  segs_end (zprod [pz; py; px]) (program pz py px n0 n1 n2 g full xg actors ss (es ++ ev :: es')) m0 m ->
  (b < nb)%nat -> a_local (actors b) = false -> ev = EFull b p \/ ev = ELag b p -> meets b es' = false ->
  let before := cs_st (reference (global_size [pz; py; px] [n0; n1; n2]) actors (continues (zprod [pz; py; px])) st es) b in
  let at_master A c j := m (a_master (actors b), (A (a_arrays (actors b)), c * v_count (a_body (actors b)) + j)) in
  forall c j, 0 <= c < 3 -> 0 <= j < v_count (a_body (actors b)) -> at_master gpm c j = pm before c j /\ at_master gvm c j = vm before c j /\ at_master gpos c j = p_pos p c j.
Proof.
  intros HS HA Hcor Ht Ho He Hgh R Hbn Hl Hev Hm before at_master c j Hcc Hj.
  destruct (CoupledThms.coupled_more_3d add sub mul z times0 scale sum dx shift damp coord width conv Kcx Kcy Kcz lap fsub filt pz py px n0 n1 n2 g full xg w0 w1 w2 p0 p1 p2 vx vy vz fx fy fz b0 b1 b2 buf D S nb actors HS add_monoid zeroing spacing HA Hcor
    (continues (zprod [pz; py; px])) _ ss m0 st (fun _ => None) Ht Ho Hgh He (CoupledThms.all_fit_continues _ _ _ _ _ _ _ _ ss (CoupledThms.tracks_nums _ _ _ _ _ _ _ _ _ _ _ _ Ht) He) ltac:(intros b' k' _ _ X; discriminate)) as (m' & _ & U & _ & Bk).
  rewrite <- (U m R) in Bk. specialize (Bk b _ Hbn Hl (ResumeSerial.coll_last _ _ _ _ _ _ _ _ _ _ _ _ _ _ b es ev p es' Hev Hm)). exact (Bk c j Hcc Hj).
Qed.

(** C57 (3D).  What exactly a restart continues, whenever it was saved: the simulation whose flow and mismatches are those given back by
    the files ([given_back]); the mismatches are those collected when the bodies last met the flow. *)
Theorem C57_what_continues_3d pz py px n0 n1 n2 full xg actors pz' py' px' n0' n1' n2' full' xg' actors' g (params params' : P) (fields fields' : list efield) FF files ord ss ss1 st (es es2 : list (event T (@ns3_step T * race))) (m0 m mB0 m1 mB e' : mem T) ssB :
  setting pz py px n0 n1 n2 g xg -> setting pz' py' px' n0' n1' n2' g xg' -> global_size [pz; py; px] [n0; n1; n2] = global_size [pz'; py'; px'] [n0'; n1'; n2'] ->
  3 <= width -> Forall (fun n => 2 * width <= n) (global_size [pz; py; px] [n0; n1; n2]) -> match filt with Some (_, _, bw) => 3 <= bw | None => True end -> full = true \/ at_most_one_split [pz; py; px] -> full' = true \/ at_most_one_split [pz'; py'; px'] ->
  all_ok pz py px g actors -> all_ok pz' py' px' g actors' -> (forall b, a_body (actors b) = a_body (actors' b)) -> (forall b, (b < nb)%nat -> a_local (actors b) = false /\ a_local (actors' b) = false) ->
  shows pz py px n0 n1 n2 g actors ss m0 st -> off_edge z [pz; py; px] [n0; n1; n2] st -> legal pz py px n0 n1 n2 actors es -> ghosts_ok actors false es -> moves_ok (zprod [pz; py; px]) (cs_map st) es ->
  saveable val 3 nb (fun b => a_body (actors b)) es ->
  segs_end (zprod [pz; py; px]) (program pz py px n0 n1 n2 g full xg actors ss es) m0 m ->
  add_eulerian_all [n0; n1; n2] g [] (flow_fields_3d [n0; n1; n2] g w0 w1 w2 vx vy vz) = Some fields -> saved_as [pz; py; px] [n0; n1; n2] g fields params m FF ->
  (forall b, (b < nb)%nat -> lag_saved_as 3 [mismatch_fields 3 (actors b)] m (files b)) ->
  add_eulerian_all [n0'; n1'; n2'] g [] (flow_fields_3d [n0'; n1'; n2'] g w0 w1 w2 vx vy vz) = Some fields' -> just_built z [pz'; py'; px'] [n0'; n1'; n2'] g fs nb actors' (bufsz n0' n1' n2' g) mB0 ->
  loaded_as fill close [pz'; py'; px'] [n0'; n1'; n2'] g fields' params' FF mB0 m1 -> orders_ok nb (fun b => a_master (actors' b)) ord ->
  resumed z fill val dx shift [pz'; py'; px'] [n0'; n1'; n2'] 3 actors' ord files nb m1 ss1 mB ssB ->
  legal pz' py' px' n0' n1' n2' actors' es2 -> ghosts_ok actors' false es2 -> moves_ok (zprod [pz'; py'; px']) (fun b => address (ssB b)) es2 ->
  segs_end (zprod [pz'; py'; px']) (program pz' py' px' n0' n1' n2' g full' xg' actors' ssB es2) mB e' ->
  let N := global_size [pz; py; px] [n0; n1; n2] in
  exists f0, let s := reference N actors (fun _ _ j => j) (given_back z (collected_in N actors st es) f0 (reference N actors (fun _ _ j => j) st es)) es2 in
  represents [pz'; py'; px'] [n0'; n1'; n2'] g (if flows es2 then Fs0 else kept) e' (cs_u s) /\
  (forall c f, nth_error fs c = Some f -> represents [pz'; py'; px'] [n0'; n1'; n2'] g [f] e' (fun _ => cs_f s (Z.of_nat c))) /\
  forall b c j, (b < nb)%nat -> 0 <= c < 3 -> 0 <= j < v_count (a_body (actors b)) ->
    e' (a_master (actors' b), (gfo (a_arrays (actors' b)), c * v_count (a_body (actors b)) + j)) = fo (cs_st s b) c j.
Proof.
  intros HS HS' EN H4 HN Hbw Hcor Hcor' HA HA' Hb Hloc Ht Ho He Hgh Hmv Hsv R0 Ef Hsav Hfile Ef' [B1 B2] Hload Hord Hres He' Hgh' Hmv' Rb.
  rewrite RestartProofs.fields3 in Ef by reflexivity. rewrite RestartProofs.fields3 in Ef' by reflexivity. injection Ef as <-. injection Ef' as <-.
  exact (ResumeThms.exact3 add sub mul z fill val times0 scale sum dx shift damp coord width conv Kcx Kcy Kcz lap fsub filt w0 w1 w2 p0 p1 p2 vx vy vz fx fy fz b0 b1 b2 buf D S nb close add_monoid zeroing spacing pz py px n0 n1 n2 full xg actors pz' py' px' n0' n1' n2' full' xg' actors' g params params' FF files ord ss ss1 st es es2 m0 m mB0 m1 HS HS' EN H4 HN Hbw Hcor Hcor' HA HA' Hb Hloc Hord Hsv He Hgh Hmv Ht Ho R0 Hsav Hfile B1 B2 Hload mB e' ssB Hres He' Hgh' Hmv' Rb).
Qed.
End Three.

Print Assumptions C57_restart_2d.
Print Assumptions C57_restart_possible_2d.
Print Assumptions C57_what_is_saved_2d.
Print Assumptions C57_what_continues_2d.
Print Assumptions C57_restart_3d.
Print Assumptions C57_restart_possible_3d.
Print Assumptions C57_what_is_saved_3d.
Print Assumptions C57_what_continues_3d.
