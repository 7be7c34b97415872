(** Property C57, a case in 3D: a restart that meets the hypotheses of C57_restart_3d.

    2 x 1 x 1 ranks with blocks of 4 x 8 x 8 cells until the save, one rank after it; a penalised zone of 3 cells, filtered vorticity; one body of one node
    (springs 3, dampers 2) held at (9/2, 9/2, 9/2) with velocity 7.  The calls are those of the case in 2D (PropsResumeCases.v). *)
From Coq Require Import QArith String Permutation.
From Verif Require Import Base SpecGrid SpecGhost SpecGhostSum SpecStencil SpecStep SpecPenalise SpecFilter SpecDouble SpecLag SpecIB SpecVbf SpecNS SpecBodies SpecCoupled
  Comm Blocking Spmd Stencil Lagrangian Vbf NavierStokes Coupled SpecTracks IoLag IoEul Restart SpecRestart SpecResume Resume PropsResume.
From Verif Require PyNum Doubling PropsNS PropsCoupled CoupledProofs CoupledThms LoopProofs LagProofs.
From Verif Require Import ResumeRefute.
Open Scope Z_scope.
Open Scope list_scope.

Definition q_actor (_ : nat) : actor Z := {| a_arrays := PropsCoupled.ex_arr 20; a_master := 0; a_bufs := [40%nat; 41%nat; 42%nat]; a_body := c_body; a_local := false; a_auto := true |}.
Definition q_pose : pose Z := {| p_nodes := [[9 # 2; 9 # 2; 9 # 2]]%Q; p_pos := fun _ _ => 9; p_vel := fun _ _ => 7; p_address := [1]; p_order := [1] |}.
Definition q_pose1 : pose Z := {| p_nodes := [[9 # 2; 9 # 2; 9 # 2]]%Q; p_pos := fun _ _ => 9; p_vel := fun _ _ => 7; p_address := [0]; p_order := [] |}.
Notation q_race := (Z -> nat -> list Z -> Z).
Notation q_all := [0; 1; 2; 3; 4; 5; 6; 7; 8; 9; 10; 11; 12; 13; 14; 15; 16; 17]%nat.
Notation q_filt := (Some (Multiplicative, 1%nat, 3)).
Notation q_lap := (fun a b c => a + b + c).
Notation q_setting pz py px n0 n1 n2 := (ns3_setting pz py px n0 n1 n2 2 3 q_filt (c_xg [pz; py; px] [n0; n1; n2]) (fun _ i => i) 0 1 2 3 4 5 6 7 8 9 10 11 12 13 14 15 16 17 (PropsNS.e3_c 3) (PropsNS.e3_c 4) (PropsNS.e3_c 5)).
Notation q_legal dims loc := (Forall (event_ok dims loc 1 q_actor 1 0 (fun s : @ns3_step Z * q_race => flow3_ok 0 [0; 1; 2]%nat [6; 7; 8]%nat [12; 13; 14]%nat [9; 10; 11]%nat (fst s)))).
Definition q_program pz py px n0 n1 n2 := coupled_segs Z.add Z.sub Z.mul 0 (fun x => x) (fold_right Z.add 0) 1 0 [pz; py; px] [n0; n1; n2] 2 [6; 7; 8]%nat [9; 10; 11]%nat q_actor
  (exch_3d pz py px n0 n1 n2 2 false [6; 7; 8]%nat) (spread_3 Z.add Z.mul (fun _ => 0) 1 0 pz py px n0 n1 n2 2 [9; 10; 11]%nat)
  (fun sr : @ns3_step Z * q_race => time_step_3d Z.add 0 (fun _ _ v => v) (fun v => v) q_lap Z.sub q_filt pz py px n0 n1 n2 2 false 3 (c_xg [pz; py; px] [n0; n1; n2]) 0 1 2 3 4 5 6 7 8 9 10 11 12 13 14 15 16 17 (PropsNS.e3_c 3) (PropsNS.e3_c 4) (PropsNS.e3_c 5) (snd sr) (fst sr)).
Definition q_flow := fun frc u (s : @ns3_step Z * q_race) => serial_ns_3d Z.add 0 (fun _ _ v => v) (fun _ i => i) 3 (fun v => v) (PropsNS.e3_c 3) (PropsNS.e3_c 4) (PropsNS.e3_c 5) q_lap Z.sub q_filt (global_size [2; 1; 1] [4; 8; 8])
  0 1 2 3 4 5 6 7 8 12 13 14 9 10 11 u (with_forcing3 [9; 10; 11]%nat frc (fst s)).
Definition q_ref := serial_coupled Z.add Z.sub Z.mul 0 (fun x => x) (fold_right Z.add 0) 1 0 [6; 7; 8]%nat q_flow (fun b => a_body (q_actor b)) (fun _ _ j => j).

Lemma q_set pz py px n0 n1 n2 : KernelList.grid3 pz py px n0 n1 n2 2 -> 3 <= n0 -> 3 <= n1 -> 3 <= n2 -> evenly [pz; py; px] -> q_setting pz py px n0 n1 n2.
Proof.
  intros H1 H2 H3 H4 H5. destruct PropsNS.setting3_instance as [_ _ _ _ _ Q1 Q2 _]. split; auto; try lia. intros r a i _ _ _. reflexivity.
Qed.
Lemma q_set_a : q_setting 2 1 1 4 8 8. Proof. apply q_set; try lia; [unfold KernelList.grid3; lia|repeat constructor; lia]. Qed.
Lemma q_set_b : q_setting 1 1 1 8 8 8. Proof. apply q_set; try lia; [unfold KernelList.grid3; lia|repeat constructor; lia]. Qed.
Lemma q_actors dims : positive dims -> actors_ok dims 2 1 q_actor q_all.
Proof. intros H. split; [cbn; repeat constructor; cbn; intuition discriminate|]. intros b Hb. cbn. assert (1 <= zprod dims) by (clear -H; induction H; cbn; [lia|nia]). lia. Qed.
Lemma q_all_a : actors_ok [2; 1; 1] 2 1 q_actor q_all. Proof. apply q_actors. unfold positive. repeat constructor; lia. Qed.
Lemma q_all_b : actors_ok [1; 1; 1] 2 1 q_actor q_all. Proof. apply q_actors. unfold positive. repeat constructor; lia. Qed.
Lemma q_one_split_a : false = true \/ at_most_one_split [2; 1; 1]. Proof. right. unfold at_most_one_split; vm_compute; repeat constructor. Qed.
Lemma q_one_split_b : false = true \/ at_most_one_split [1; 1; 1]. Proof. right. unfold at_most_one_split; vm_compute; repeat constructor. Qed.
Lemma q_flow_ok : flow3_ok 0 [0; 1; 2]%nat [6; 7; 8]%nat [12; 13; 14]%nat [9; 10; 11]%nat PropsNS.e3_step.
Proof. destruct PropsCoupled.C49_nonvacuous_3d as (_ & _ & H & _). unfold PropsCoupled.e3_events in H. apply Forall_cons_iff in H as [_ H]. apply Forall_cons_iff in H as [_ H]. apply Forall_cons_iff in H as [P3 _]. exact P3. Qed.
Lemma q_pose_ok : pose_ok [2; 1; 1] [4; 8; 8] 1 0 0 c_body q_pose.
Proof.
  split; [repeat constructor; qle|reflexivity|repeat constructor; vm_compute; intuition discriminate|vm_compute; reflexivity|].
  split; [repeat constructor; cbn; lia|split; [split; [repeat constructor; cbn; tauto|intros s; cbn; lia]|reflexivity]].
Qed.
Lemma q_pose1_ok : pose_ok [1; 1; 1] [8; 8; 8] 1 0 0 c_body q_pose1.
Proof.
  split; [repeat constructor; qle|reflexivity|repeat constructor; vm_compute; intuition discriminate|vm_compute; reflexivity|].
  split; [repeat constructor; cbn; lia|split; [split; [constructor|intros s; cbn; lia]|reflexivity]].
Qed.
Lemma q_tracks : tracks 0 [2; 1; 1] [4; 8; 8] 2 [0; 1; 2; 3; 4; 5; 6; 7; 8]%nat [9; 10; 11]%nat 1 q_actor [[2; 12; 12]; [8; 2; 12]; [8; 12; 2]] c_maps (fun _ => 0) c_state.
Proof.
  split; try reflexivity; try (split; reflexivity).
  - intros b Hb. (split; [|reflexivity]); (split; [|split; [intros; apply LagProofs.count_eq|split; intros ? ? ? ? _ _ _; reflexivity]]);
      (split; [repeat constructor; cbn; lia|split; [split; [repeat constructor; cbn; tauto|intros s; cbn; lia]|reflexivity]]).
  - intros b Hb. repeat constructor; intros r K _ _; reflexivity.
  - intros b Hb Hl. discriminate Hl.
Qed.
Lemma q_built : just_built 0 [1; 1; 1] [8; 8; 8] 2 [9; 10; 11]%nat 1 q_actor [[2; 12; 12]; [12; 2; 12]; [12; 12; 2]] (fun _ => 0).
Proof. split; [split; reflexivity|]. intros b Hb. repeat constructor; intros r K _ _; reflexivity. Qed.
Lemma q_orders : orders_ok 1 (fun b => a_master (q_actor b)) c_ord.
Proof. exact c_orders. Qed.
Definition q_events (p : pose Z) (l : list call) : list (event Z (@ns3_step Z * q_race)) :=
  map (fun k => match k with Meet => ELag 0 p | Acts => EFull 0 p | Go => EAdvance 0 1 | Flow => EFlow (PropsNS.e3_step, fun _ _ _ => 0) end) l.
Lemma q_legal_a l : q_legal [2; 1; 1] [4; 8; 8] (q_events q_pose l).
Proof.
  apply Forall_forall. intros e He. apply in_map_iff in He as (k & <- & _). destruct k; cbn [event_ok].
  1, 2: split; [lia|]; split; [exact q_pose_ok|discriminate]. 1: lia. exact q_flow_ok.
Qed.
Lemma q_legal_b l : q_legal [1; 1; 1] [8; 8; 8] (q_events q_pose1 l).
Proof.
  apply Forall_forall. intros e He. apply in_map_iff in He as (k & <- & _). destruct k; cbn [event_ok].
  1, 2: split; [lia|]; split; [exact q_pose1_ok|discriminate]. 1: lia. exact q_flow_ok.
Qed.
Lemma q_ghosts p l : forall fr, ghosts_ok q_actor fr (q_events p l).
Proof. induction l as [|k l IH]; intros fr; [exact I|]. destruct k; cbn; auto. Qed.
Lemma q_moves n p l : forall f, f 0%nat = p_address p -> moves_ok n f (q_events p l).
Proof.
  induction l as [|k l IH]; intros f Hf; [exact I|]. destruct k; cbn [q_events map moves_ok]; try (apply IH; exact Hf).
  - split; [split; [intros _; now rewrite Hf|exact I]|]. apply IH. reflexivity.
  - split; [split; [intros _; now rewrite Hf|exact I]|]. apply IH. reflexivity.
Qed.
Lemma q_one_rank x y w addr : map_nodes false [1; 1; 1] [8; 8; 8] 1 0 3 [[x; y; w]] = Mapped addr -> addr = [0].
Proof.
  unfold map_nodes, compute_rank_address. cbn [length negb Z.eqb Z.of_nat existsb map]. change (negb (3 =? Z.of_nat 3)) with false. cbn iota.
  destruct (any_ge _ _ || false); [discriminate|]. unfold node_block. cbn [rev app subblock_coords]. set (i := trunc _). set (j := trunc _). set (k := trunc _). clearbody i j k. unfold rank_map_lookup. cbn [np_indices].
  assert (X : forall c, np_index 1 c = Some 0 \/ np_index 1 c = None).
  { intros c. unfold np_index. destruct (Z.leb_spec 0 c); destruct (Z.ltb_spec c 1); cbn [andb]; [left; f_equal; lia| | |]; (destruct (Z.leb_spec (-(1)) c); destruct (Z.ltb_spec c 0); cbn [andb]; auto; left; f_equal; lia). }
  pose proof (X i) as Xi. pose proof (X j) as Xj. pose proof (X k) as Xk. clear X. destruct (np_index 1 i) as [i'|]; destruct (np_index 1 j) as [j'|]; destruct (np_index 1 k) as [k'|]; try discriminate.
  destruct Xi as [[= ->]|]; [|discriminate]. destruct Xj as [[= ->]|]; [|discriminate]. destruct Xk as [[= ->]|]; [|discriminate]. vm_compute. intros [= <-]. reflexivity.
Qed.
(** The run that is not interrupted ends in e, the one that is restarted in e'. *)
Definition q_runs (l l1 : list call) (e e' : mem Z) : Prop :=
  exists m FF files fields fields' m1 mB ssB,
    segs_end 2 (q_program 2 1 1 4 8 8 c_maps (q_events q_pose l)) (fun _ => 0) m /\
    segs_end 2 (q_program 2 1 1 4 8 8 (final_maps [2; 1; 1] c_maps (q_events q_pose l)) (q_events q_pose l1)) m e /\
    add_eulerian_all [4; 8; 8] 2 [] (flow_fields_3d [4; 8; 8] 2 0 1 2 6 7 8) = Some fields /\ saved_as [2; 1; 1] [4; 8; 8] 2 fields tt m FF /\ lag_saved_as 3 [mismatch_fields 3 (q_actor 0)] m (files 0%nat) /\
    add_eulerian_all [8; 8; 8] 2 [] (flow_fields_3d [8; 8; 8] 2 0 1 2 6 7 8) = Some fields' /\ loaded_as 0 (fun _ _ => true) [1; 1; 1] [8; 8; 8] 2 fields' tt FF (fun _ => 0) m1 /\
    resumed 0 0 c_val 1 0 [1; 1; 1] [8; 8; 8] 3 q_actor c_ord files 1 m1 c_maps mB ssB /\
    segs_end 1 (q_program 1 1 1 8 8 8 ssB (q_events q_pose1 l1)) mB e'.
Definition q_save l := saveable c_val 3 1 (fun b => a_body (q_actor b)) (q_events q_pose l).
Definition q_can l l1 := restartable c_val 3 1 (fun b => a_body (q_actor b)) (q_events q_pose l) (q_events q_pose l1).
Definition q_force (e : mem Z) : Z := e (0, (gfo (PropsCoupled.ex_arr 20), 0)).
Lemma q_saving l : meets 0 (q_events q_pose l) = true -> q_save l.
Proof.
  intros H. split.
  - intros b Hb. replace b with 0%nat by lia. exact H.
  - intros b p Hb Hp. assert (E : p = q_pose); [|rewrite E; reflexivity].
    assert (G : forall l a, (forall q, a = Some q -> q = q_pose) -> fold_left (fun a (e : event Z (@ns3_step Z * q_race)) => match e with EFull b' p | ELag b' p => if Nat.eqb b' b then Some p else a | _ => a end) (q_events q_pose l) a = Some p -> p = q_pose).
    { clear. induction l as [|k l IH]; intros a Ha; cbn [q_events map fold_left]; [auto|]. apply IH. intros q. destruct k; auto; destruct (Nat.eqb 0 b); auto; now intros [= <-]. }
    apply (G l None); [discriminate|exact Hp].
  - intros b Hb. cbn. lia.
Qed.
Lemma q_app p l l1 : q_events p (l ++ l1) = q_events p l ++ q_events p l1. Proof. apply map_app. Qed.
Lemma q_off : off_edge 0 [2; 1; 1] [4; 8; 8] c_state. Proof. intros c P _ _. reflexivity. Qed.
Lemma q_moves_a l : moves_ok 2 (cs_map c_state) (q_events q_pose l). Proof. apply q_moves. reflexivity. Qed.
Lemma q_first l : exists m, segs_end 2 (q_program 2 1 1 4 8 8 c_maps (q_events q_pose l)) (fun _ => 0) m /\ (forall m', segs_end 2 (q_program 2 1 1 4 8 8 c_maps (q_events q_pose l)) (fun _ => 0) m' -> m' = m) /\
  tracks 0 [2; 1; 1] [4; 8; 8] 2 [0; 1; 2; 3; 4; 5; 6; 7; 8]%nat [9; 10; 11]%nat 1 q_actor [[2; 12; 12]; [8; 2; 12]; [8; 12; 2]] (final_maps [2; 1; 1] c_maps (q_events q_pose l)) m (q_ref c_state (q_events q_pose l)).
Proof.
  exact (CoupledThms.coupled_3d Z.add Z.sub Z.mul 0 (fun _ => 0) (fun x => x) (fold_right Z.add 0) 1 0 (fun _ _ v => v) (fun _ i => i) 3 (fun v => v) (PropsNS.e3_c 3) (PropsNS.e3_c 4) (PropsNS.e3_c 5) q_lap Z.sub q_filt
    2 1 1 4 8 8 2 false (c_xg [2; 1; 1] [4; 8; 8]) 0 1 2 3 4 5 6 7 8 9 10 11 12 13 14 15 16 17 1 q_actor
    q_set_a c_monoid (fun _ => eq_refl) eq_refl q_all_a q_one_split_a (fun _ _ j => j) (q_events q_pose l) c_maps (fun _ => 0) c_state q_tracks q_off (q_ghosts q_pose l false) (q_legal_a l)
    (CoupledThms.all_fit_own _ _ _ _ _ _ _ _ c_maps (cs_map c_state) (CoupledThms.tracks_nums _ _ _ _ _ _ _ _ _ _ _ _ q_tracks) (fun b Hb => tr_map _ _ _ _ _ _ _ _ _ _ _ _ q_tracks b Hb) (q_moves_a l) (q_legal_a l))).
Qed.
Lemma q_address files m1 mB ssB : resumed 0 0 c_val 1 0 [1; 1; 1] [8; 8; 8] 3 q_actor c_ord files 1 m1 c_maps mB ssB -> address (ssB 0%nat) = [0].
Proof.
  intros H. inversion H as [|k ma sa mb sb mc addr md H1 H2 H3 H4 E1 E2 E3 E4]; subst. unfold stored_positions in H3. cbn [q_actor a_body v_count c_body] in H3.
  change (zrange 0 1) with [0] in H3. change (zrange 0 3) with [0; 1; 2] in H3. cbn [map length Z.of_nat] in H3. apply q_one_rank in H3 as ->. reflexivity.
Qed.
Lemma q_half : Forall (fun n => 2 * 3 <= n) (global_size [2; 1; 1] [4; 8; 8]). Proof. repeat constructor; cbn; lia. Qed.
Lemma q_remote : forall b, (b < 1)%nat -> a_local (q_actor b) = false /\ a_local (q_actor b) = false. Proof. intros; split; reflexivity. Qed.

Theorem q_possible l l1 : meets 0 (q_events q_pose l) = true -> exists e e', q_runs l l1 e e'.
Proof.
  intros Hm. pose proof (q_saving l Hm) as Hs. destruct (q_first l) as (m & R & U & Ht). destruct (q_first (l ++ l1)) as (e & Re & _ & _). rewrite q_app in Re. unfold q_program in Re. rewrite LoopProofs.segs_events in Re.
  apply LoopProofs.segs_split in Re as (m' & Rm & Re). rewrite (U _ Rm) in Re. exists e.
  destruct (C57_restart_possible_3d Z.add Z.sub Z.mul 0 0 c_val (fun _ => 0) (fun x => x) (fold_right Z.add 0) 1 0 (fun _ _ v => v) (fun _ i => i) 3 (fun v => v) (PropsNS.e3_c 3) (PropsNS.e3_c 4) (PropsNS.e3_c 5) q_lap Z.sub q_filt
    0 1 2 3 4 5 6 7 8 9 10 11 12 13 14 15 16 17 1 (fun _ _ : unit => true) c_monoid (fun _ => eq_refl) eq_refl
    2 1 1 4 8 8 false (c_xg [2; 1; 1] [4; 8; 8]) q_actor 1 1 1 8 8 8 false (c_xg [1; 1; 1] [8; 8; 8]) q_actor 2 tt tt 0 c_ord c_maps c_maps c_state (q_events q_pose l) (fun _ => 0) m (fun _ => 0)
    q_set_a q_set_b eq_refl q_one_split_a q_one_split_b q_all_a q_all_b (fun _ => eq_refl) q_remote q_tracks q_off (q_legal_a l) (q_ghosts q_pose l false) (q_moves_a l) Hs R q_built q_orders eq_refl) as (fields & fields' & F1 & F2 & (FF & HF) & HL & K).
  destruct (HL 0%nat ltac:(lia)) as (F & HLF). destruct (K FF (fun _ => F) HF) as (m1 & mB & ssB & K1 & K2 & K3).
  { intros b Hb. replace b with 0%nat by lia. exact HLF. }
  destruct (K3 (q_events q_pose1 l1) (q_legal_b l1) (q_ghosts q_pose1 l1 false)) as (e' & Re').
  { apply q_moves. exact (q_address _ _ _ _ K2). }
  exists e', m, FF, (fun _ => F), fields, fields', m1, mB, ssB. repeat split; assumption.
Qed.
(** Where it ends, by C57_restart_3d; and the force of the serial simulation. *)
Theorem q_same l l1 e e' : meets 0 (q_events q_pose l1) = true -> calls (q_events q_pose l1) = q_events q_pose l1 -> calls (q_events q_pose1 l1) = q_events q_pose1 l1 -> q_can l l1 -> q_runs l l1 e e' ->
  q_force e = fo (cs_st (q_ref c_state (q_events q_pose l ++ q_events q_pose l1)) 0%nat) 0 0 /\
  agree [2; 1; 1] [4; 8; 8] [1; 1; 1] [8; 8; 8] 2 [0; 1; 2; 6; 7; 8; 9; 10; 11]%nat e e' /\ q_force e = q_force e'.
Proof.
  intros Hm1 C1 C2 Hcan (m & FF & files & fields & fields' & m1 & mB & ssB & R & Re & F1 & F2 & F3 & F4 & F5 & F6 & F7). split.
  - destruct (q_first (l ++ l1)) as (e1 & R1 & U1 & Ht). rewrite q_app in *. rewrite (U1 e).
    + destruct (tr_node _ _ _ _ _ _ _ _ _ _ _ _ Ht 0%nat ltac:(lia)) as [_ X]. exact (X 0 0 ltac:(cbn; lia) ltac:(cbn; lia)).
    + unfold q_program. rewrite LoopProofs.segs_events. exact (CoupledProofs.segs_app _ _ _ _ _ _ R Re).
  - assert (Hfile : forall b, (b < 1)%nat -> lag_saved_as 3 [mismatch_fields 3 (q_actor b)] m (files b)) by (intros b Hb; replace b with 0%nat by lia; exact F3).
    assert (Hmv : moves_ok (zprod [1; 1; 1]) (fun b => address (ssB b)) (q_events q_pose1 l1)) by (apply q_moves; exact (q_address _ _ _ _ F6)).
    assert (Hsame : Forall2 (same_event (fun s s' : @ns3_step Z * q_race => fst s = fst s')) (calls (q_events q_pose l1)) (calls (q_events q_pose1 l1))).
    { rewrite C1, C2. clear. induction l1 as [|k l1 IH]; constructor; [destruct k; constructor; reflexivity|exact IH]. }
    pose proof (q_legal_a (l ++ l1)) as L. pose proof (q_ghosts q_pose (l ++ l1) false) as G. pose proof (q_moves_a (l ++ l1)) as M. rewrite q_app in L, G, M.
    destruct (C57_restart_3d Z.add Z.sub Z.mul 0 0 c_val (fun _ => 0) (fun x => x) (fold_right Z.add 0) 1 0 (fun _ _ v => v) (fun _ i => i) 3 (fun v => v) (PropsNS.e3_c 3) (PropsNS.e3_c 4) (PropsNS.e3_c 5) q_lap Z.sub q_filt
      0 1 2 3 4 5 6 7 8 9 10 11 12 13 14 15 16 17 1 (fun _ _ : unit => true) c_monoid (fun _ => eq_refl) eq_refl
      2 1 1 4 8 8 false (c_xg [2; 1; 1] [4; 8; 8]) q_actor 1 1 1 8 8 8 false (c_xg [1; 1; 1] [8; 8; 8]) q_actor 2 tt tt fields fields' FF files c_ord c_maps c_maps c_state (q_events q_pose l) (q_events q_pose l1) (q_events q_pose1 l1) (fun _ => 0) m (fun _ => 0) m1 mB e e' ssB
      q_set_a q_set_b eq_refl ltac:(lia) q_half ltac:(cbn; lia) q_one_split_a q_one_split_b q_all_a q_all_b (fun _ => eq_refl) q_remote q_tracks q_off L G M Hcan R Re F1 F2 Hfile F4 q_built F5 q_orders F6 (q_legal_b l1) (q_ghosts q_pose1 l1 false) Hmv Hsame F7) as (A1 & _ & A2).
    split; [exact A1|]. exact (A2 0%nat 0 0 ltac:(lia) Hm1 ltac:(lia) ltac:(cbn; lia)).
Qed.
Example C57_nonvacuous_3d : (q_setting 2 1 1 4 8 8 /\ q_setting 1 1 1 8 8 8 /\ q_can [Acts; Flow] [Meet; Go; Acts; Flow]) /\
  (exists e e', q_runs [Acts; Flow] [Meet; Go; Acts; Flow] e e') /\
  forall e e', q_runs [Acts; Flow] [Meet; Go; Acts; Flow] e e' ->
    agree [2; 1; 1] [4; 8; 8] [1; 1; 1] [8; 8; 8] 2 [0; 1; 2; 6; 7; 8; 9; 10; 11]%nat e e' /\ q_force e = q_force e' /\ q_force e <> 0.
Proof.
  assert (Hc : q_can [Acts; Flow] [Meet; Go; Acts; Flow]).
  { split; [apply q_saving; reflexivity| | |reflexivity]; intros b Hb; replace b with 0%nat by lia; reflexivity. }
  split; [exact (conj q_set_a (conj q_set_b Hc))|]. split; [now apply q_possible|]. intros e e' R.
  destruct (q_same [Acts; Flow] [Meet; Go; Acts; Flow] e e' eq_refl eq_refl eq_refl Hc R) as (E1 & A & E2). split; [exact A|]. split; [exact E2|].
  rewrite E1. vm_compute. discriminate.
Qed.
Print Assumptions C57_nonvacuous_3d.
