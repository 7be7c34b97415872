(** A case of the restart of a coupled simulation (C57), and what goes wrong when it is saved, or continued, at another moment. *)
From Coq Require Import QArith String Permutation.
From Verif Require Import Base SpecGrid SpecGhost SpecGhostSum SpecStencil SpecStep SpecPenalise SpecFilter SpecDouble SpecLag SpecIB SpecVbf SpecNS SpecBodies SpecCoupled
  Comm Blocking Spmd Stencil Lagrangian Vbf NavierStokes Coupled SpecTracks IoLag IoEul Restart SpecRestart SpecResume Resume PropsResume.
From Verif Require PyNum Doubling PropsNS PropsCoupled CoupledProofs CoupledThms LoopProofs LagProofs ResumeThms.
Open Scope Z_scope.
Open Scope list_scope.

(** Saved on 2 x 1 ranks (blocks of 4 x 8 cells), continued on one rank; a penalised zone of 4 cells; one body of one node. *)
Definition c_body : vbody Z := {| v_stiff := 3; v_damp := 2; v_width := 1; v_weight := fun _ => 1; v_reset := true; v_count := 1 |}.
Definition c_actor (_ : nat) : actor Z := {| a_arrays := PropsCoupled.ex_arr 10; a_master := 0; a_bufs := [21%nat; 22%nat]; a_body := c_body; a_local := false; a_auto := true |}.
Definition c_pose : pose Z := {| p_nodes := [[9 # 2; 9 # 2]]%Q; p_pos := fun _ _ => 9; p_vel := fun _ _ => 7; p_address := [1]; p_order := [1] |}.
Definition c_pose1 : pose Z := {| p_nodes := [[9 # 2; 9 # 2]]%Q; p_pos := fun _ _ => 9; p_vel := fun _ _ => 7; p_address := [0]; p_order := [] |}.
Definition c_val (x : Z) : Q := x # 2.
Definition c_maps (_ : nat) : vb := vb_init [1] [1].
Definition c_xg (dims loc : list Z) : Z -> nat -> Z -> Z := fun r a i => nth a (block_start dims loc r) 0 + (i - 2).
Definition c_state : cstate Z := {| cs_u := fun _ _ => 0; cs_f := fun _ _ => 0; cs_map := fun _ => [1]; cs_st := fun _ => at_rest 0 |}.
Notation c_legal dims loc := (Forall (event_ok dims loc 1 c_actor 1 0 (flow2_ok 0 0 2 3 4 5))).
Notation c_setting py px ny nx := (ns2_setting py px ny nx 2 4 0%nat (c_xg [py; px] [ny; nx]) (fun _ i => i) 0 1 2 3 4 5 6 7 8 PropsNS.e_cx PropsNS.e_cy).
Definition c_program py px ny nx := coupled_segs Z.add Z.sub Z.mul 0 (fun x => x) (fold_right Z.add 0) 1 0 [py; px] [ny; nx] 2 [2; 3]%nat [4; 5]%nat c_actor
  (exch_2d py px ny nx 2 false [2; 3]%nat) (spread_2 Z.add Z.mul (fun _ => 0) 1 0 py px ny nx 2 [4; 5]%nat)
  (time_step_2d Z.add 0 (fun _ _ v => v) (fun v => v) py px ny nx 2 false 0 4 (c_xg [py; px] [ny; nx]) 0 1 2 3 4 5 6 7 8 PropsNS.e_cx PropsNS.e_cy).
Definition c_flow := fun frc u (s : @ns2_step Z) => serial_ns_2d Z.add 0 (fun _ _ v => v) (fun _ i => i) 4 (fun v => v) PropsNS.e_cx PropsNS.e_cy (global_size [2; 1] [4; 8]) 0 1 2 3 4 5 u (with_forcing2 [4; 5]%nat frc s).
Definition c_ref := serial_coupled Z.add Z.sub Z.mul 0 (fun x => x) (fold_right Z.add 0) 1 0 [2; 3]%nat c_flow (fun b => a_body (c_actor b)) (fun _ _ j => j).
Definition c_coll := collects Z.add Z.sub Z.mul 0 (fun x => x) (fold_right Z.add 0) 1 0 [2; 3]%nat c_flow (fun b => a_body (c_actor b)) (fun _ _ j => j) c_state (fun _ => None).

Lemma c_set py px ny nx : KernelList.grid2 py px ny nx 2 -> 4 <= ny -> 4 <= nx -> Doubling.distributed_dim2 py px = PyNum.Ok 0%nat -> c_setting py px ny nx.
Proof.
  intros H1 H2 H3 H5. destruct PropsNS.setting_instance as [_ _ _ _ _ _ Q1 Q2 Q3]. split; auto; try lia. intros r a i _ _ _. reflexivity.
Qed.
Lemma c_set_a : c_setting 2 1 4 8. Proof. apply c_set; [unfold KernelList.grid2; lia|lia|lia|reflexivity]. Qed.
Lemma c_set_b : c_setting 1 1 8 8. Proof. apply c_set; [unfold KernelList.grid2; lia|lia|lia|reflexivity]. Qed.
Lemma c_all dims : positive dims -> actors_ok dims 2 1 c_actor [0; 1; 2; 3; 4; 5; 6; 7; 8]%nat.
Proof. intros H. split; [cbn; repeat constructor; cbn; intuition discriminate|]. intros b Hb. cbn. assert (1 <= zprod dims) by (clear -H; induction H; cbn; [lia|nia]). lia. Qed.

Lemma c_flow_ok : flow2_ok 0 0 2 3 4 5 PropsNS.e_step.
Proof. destruct PropsNS.step_instance as (X & X' & _). split; [exact X'|]. destruct X as (_ & _ & _ & X). cbn [n2_frc PropsNS.e_step] in *. tauto. Qed.
Ltac qle := unfold Qle, Qlt; cbn; lia.
Lemma c_pose_ok : pose_ok [2; 1] [4; 8] 1 0 0 c_body c_pose.
Proof.
  split; [repeat constructor; qle|reflexivity|repeat constructor; vm_compute; intuition discriminate|vm_compute; reflexivity|].
  split; [repeat constructor; cbn; lia|split; [split; [repeat constructor; cbn; tauto|intros s; cbn; lia]|reflexivity]].
Qed.
Lemma c_pose1_ok : pose_ok [1; 1] [8; 8] 1 0 0 c_body c_pose1.
Proof.
  split; [repeat constructor; qle|reflexivity|repeat constructor; vm_compute; intuition discriminate|vm_compute; reflexivity|].
  split; [repeat constructor; cbn; lia|split; [split; [constructor|intros s; cbn; lia]|reflexivity]].
Qed.
Lemma c_tracks : tracks 0 [2; 1] [4; 8] 2 [0; 1; 2; 3]%nat [4; 5]%nat 1 c_actor [[2; 12]; [8; 2]] c_maps (fun _ => 0) c_state.
Proof.
  split; try reflexivity; try (split; reflexivity).
  - intros b Hb. (split; [|reflexivity]); (split; [|split; [intros; apply LagProofs.count_eq|split; intros ? ? ? ? _ _ _; reflexivity]]);
      (split; [repeat constructor; cbn; lia|split; [split; [repeat constructor; cbn; tauto|intros s; cbn; lia]|reflexivity]]).
  - intros b Hb. repeat constructor; intros r K _ _; reflexivity.
  - intros b Hb Hl. discriminate Hl.
Qed.
Lemma c_built : just_built 0 [1; 1] [8; 8] 2 [4; 5]%nat 1 c_actor [[2; 12]; [12; 2]] (fun _ => 0).
Proof. split; [split; reflexivity|]. intros b Hb. repeat constructor; intros r K _ _; reflexivity. Qed.
Definition c_ord (_ : nat) (addr : list Z) : list Z := filter (fun s => negb (s =? 0)) (nodup Z.eq_dec addr).
Lemma c_orders : orders_ok 1 (fun b => a_master (c_actor b)) c_ord.
Proof.
  intros b addr Hb. split; [apply NoDup_filter, NoDup_nodup|]. intros s. unfold c_ord. rewrite filter_In, nodup_In. cbn. destruct (Z.eqb_spec s 0); cbn; intuition congruence.
Qed.

(** The calls, on two ranks and on one. *)
Inductive call := Meet | Acts | Go | Flow.
Definition c_events (p : pose Z) (l : list call) : list (event Z (@ns2_step Z)) := map (fun k => match k with Meet => ELag 0 p | Acts => EFull 0 p | Go => EAdvance 0 1 | Flow => EFlow PropsNS.e_step end) l.
Lemma c_legal_a l : c_legal [2; 1] [4; 8] (c_events c_pose l).
Proof.
  apply Forall_forall. intros e He. apply in_map_iff in He as (k & <- & _). destruct k; cbn [event_ok].
  1, 2: split; [lia|]; split; [exact c_pose_ok|discriminate]. 1: lia. exact c_flow_ok.
Qed.
Lemma c_legal_b l : c_legal [1; 1] [8; 8] (c_events c_pose1 l).
Proof.
  apply Forall_forall. intros e He. apply in_map_iff in He as (k & <- & _). destruct k; cbn [event_ok].
  1, 2: split; [lia|]; split; [exact c_pose1_ok|discriminate]. 1: lia. exact c_flow_ok.
Qed.
Lemma c_ghosts p l : forall fr, ghosts_ok c_actor fr (c_events p l).
Proof. induction l as [|k l IH]; intros fr; [exact I|]. destruct k; cbn; auto. Qed.
Lemma c_moves n p l : forall f, f 0%nat = p_address p -> moves_ok n f (c_events p l).
Proof.
  induction l as [|k l IH]; intros f Hf; [exact I|]. destruct k; cbn [c_events map moves_ok]; try (apply IH; exact Hf).
  - split; [split; [intros _; now rewrite Hf|exact I]|]. apply IH. reflexivity.
  - split; [split; [intros _; now rewrite Hf|exact I]|]. apply IH. reflexivity.
Qed.
Lemma one_rank x y addr : map_nodes false [1; 1] [8; 8] 1 0 2 [[x; y]] = Mapped addr -> addr = [0].
Proof.
  unfold map_nodes, compute_rank_address. cbn [length negb Z.eqb Z.of_nat existsb map]. change (negb (2 =? Z.of_nat 2)) with false. cbn iota.
  destruct (any_ge _ _ || false); [discriminate|]. unfold node_block. cbn [rev app subblock_coords]. set (i := trunc _). set (j := trunc _). clearbody i j. unfold rank_map_lookup. cbn [np_indices].
  assert (X : forall c, np_index 1 c = Some 0 \/ np_index 1 c = None).
  { intros c. unfold np_index. destruct (Z.leb_spec 0 c); destruct (Z.ltb_spec c 1); cbn [andb]; [left; f_equal; lia| | |]; (destruct (Z.leb_spec (-(1)) c); destruct (Z.ltb_spec c 0); cbn [andb]; auto; left; f_equal; lia). }
  pose proof (X i) as Xi. pose proof (X j) as Xj. clear X. destruct (np_index 1 i) as [i'|]; destruct (np_index 1 j) as [j'|]; try discriminate.
  destruct Xi as [[= ->]|]; [|discriminate]. destruct Xj as [[= ->]|]; [|discriminate]. vm_compute. intros [= <-]. reflexivity.
Qed.
(** The run that is not interrupted ends in e, the one that is restarted in e'. *)
Definition c_runs (l l1 : list call) (e e' : mem Z) : Prop :=
  exists m FF files fields fields' m1 mB ssB,
    segs_end 2 (c_program 2 1 4 8 c_maps (c_events c_pose l)) (fun _ => 0) m /\
    segs_end 2 (c_program 2 1 4 8 (final_maps [2; 1] c_maps (c_events c_pose l)) (c_events c_pose l1)) m e /\
    add_eulerian_all [4; 8] 2 [] (flow_fields_2d [4; 8] 2 0 2 3) = Some fields /\ saved_as [2; 1] [4; 8] 2 fields tt m FF /\ lag_saved_as 2 [mismatch_fields 2 (c_actor 0)] m (files 0%nat) /\
    add_eulerian_all [8; 8] 2 [] (flow_fields_2d [8; 8] 2 0 2 3) = Some fields' /\ loaded_as 0 (fun _ _ => true) [1; 1] [8; 8] 2 fields' tt FF (fun _ => 0) m1 /\
    resumed 0 0 c_val 1 0 [1; 1] [8; 8] 2 c_actor c_ord files 1 m1 c_maps mB ssB /\
    segs_end 1 (c_program 1 1 8 8 ssB (c_events c_pose1 l1)) mB e'.
Definition c_save l := saveable c_val 2 1 (fun b => a_body (c_actor b)) (c_events c_pose l).
Definition c_can l l1 := restartable c_val 2 1 (fun b => a_body (c_actor b)) (c_events c_pose l) (c_events c_pose l1).
Definition c_force (e : mem Z) : Z := e (0, (gfo (PropsCoupled.ex_arr 10), 0)).

Lemma c_monoid : comm_monoid Z.add 0. Proof. repeat split; intros; lia. Qed.
Lemma c_saving l : meets 0 (c_events c_pose l) = true -> c_save l.
Proof.
  intros H. split.
  - intros b Hb. replace b with 0%nat by lia. exact H.
  - intros b p Hb Hp. assert (E : p = c_pose); [|rewrite E; reflexivity].
    assert (G : forall l a, (forall q, a = Some q -> q = c_pose) -> fold_left (fun a (e : event Z (@ns2_step Z)) => match e with EFull b' p | ELag b' p => if Nat.eqb b' b then Some p else a | _ => a end) (c_events c_pose l) a = Some p -> p = c_pose).
    { clear. induction l as [|k l IH]; intros a Ha; cbn [c_events map fold_left]; [auto|]. apply IH. intros q. destruct k; auto; destruct (Nat.eqb 0 b); auto; now intros [= <-]. }
    apply (G l None); [discriminate|exact Hp].
  - intros b Hb. cbn. lia.
Qed.
Lemma c_app p l l1 : c_events p (l ++ l1) = c_events p l ++ c_events p l1. Proof. apply map_app. Qed.
Lemma c_off : off_edge 0 [2; 1] [4; 8] c_state. Proof. intros c P _ _. reflexivity. Qed.
Lemma c_moves_a l : moves_ok 2 (cs_map c_state) (c_events c_pose l). Proof. apply c_moves. reflexivity. Qed.
Lemma c_first l : exists m, segs_end 2 (c_program 2 1 4 8 c_maps (c_events c_pose l)) (fun _ => 0) m /\ (forall m', segs_end 2 (c_program 2 1 4 8 c_maps (c_events c_pose l)) (fun _ => 0) m' -> m' = m) /\
  tracks 0 [2; 1] [4; 8] 2 [0; 1; 2; 3]%nat [4; 5]%nat 1 c_actor [[2; 12]; [8; 2]] (final_maps [2; 1] c_maps (c_events c_pose l)) m (c_ref c_state (c_events c_pose l)).
Proof.
  exact (CoupledThms.coupled_2d Z.add Z.sub Z.mul 0 (fun _ => 0) (fun x => x) (fold_right Z.add 0) 1 0 (fun _ _ v => v) (fun _ i => i) 4 (fun v => v) PropsNS.e_cx PropsNS.e_cy 2 1 4 8 2 false 0 (c_xg [2; 1] [4; 8]) 0 1 2 3 4 5 6 7 8 1 c_actor
    c_set_a c_monoid (fun _ => eq_refl) eq_refl (c_all [2; 1] ltac:(unfold positive; repeat constructor; lia)) (fun _ _ j => j) (c_events c_pose l) c_maps (fun _ => 0) c_state c_tracks c_off (c_ghosts c_pose l false) (c_legal_a l)
    (CoupledThms.all_fit_own _ _ _ _ _ _ _ _ c_maps (cs_map c_state) (CoupledThms.tracks_nums _ _ _ _ _ _ _ _ _ _ _ _ c_tracks) (fun b Hb => tr_map _ _ _ _ _ _ _ _ _ _ _ _ c_tracks b Hb) (c_moves_a l) (c_legal_a l))).
Qed.
Lemma c_address files m1 mB ssB : resumed 0 0 c_val 1 0 [1; 1] [8; 8] 2 c_actor c_ord files 1 m1 c_maps mB ssB -> address (ssB 0%nat) = [0].
Proof.
  intros H. inversion H as [|k ma sa mb sb mc addr md H1 H2 H3 H4 E1 E2 E3 E4]; subst. unfold stored_positions in H3. cbn [c_actor a_body v_count c_body] in H3.
  change (zrange 0 1) with [0] in H3. change (zrange 0 2) with [0; 1] in H3. cbn [map length Z.of_nat] in H3. apply one_rank in H3 as ->. reflexivity.
Qed.
Lemma c_pos dims : Forall (fun n => 1 <= n) dims -> positive dims. Proof. unfold positive. apply Forall_impl. lia. Qed.
Lemma c_half : Forall (fun n => 2 * 4 <= n) (global_size [2; 1] [4; 8]). Proof. repeat constructor; cbn; lia. Qed.
Lemma c_remote : forall b, (b < 1)%nat -> a_local (c_actor b) = false /\ a_local (c_actor b) = false. Proof. intros; split; reflexivity. Qed.
Lemma c_all_a : actors_ok [2; 1] 2 1 c_actor [0; 1; 2; 3; 4; 5; 6; 7; 8]%nat. Proof. apply c_all. unfold positive. repeat constructor; lia. Qed.
Lemma c_all_b : actors_ok [1; 1] 2 1 c_actor [0; 1; 2; 3; 4; 5; 6; 7; 8]%nat. Proof. apply c_all. unfold positive. repeat constructor; lia. Qed.

Theorem c_possible l l1 : meets 0 (c_events c_pose l) = true -> exists e e', c_runs l l1 e e'.
Proof.
  intros Hm. pose proof (c_saving l Hm) as Hs. destruct (c_first l) as (m & R & U & Ht). destruct (c_first (l ++ l1)) as (e & Re & _ & _). rewrite c_app in Re. unfold c_program in Re. rewrite LoopProofs.segs_events in Re.
  apply LoopProofs.segs_split in Re as (m' & Rm & Re). rewrite (U _ Rm) in Re. exists e.
  destruct (C57_restart_possible_2d Z.add Z.sub Z.mul 0 0 c_val (fun _ => 0) (fun x => x) (fold_right Z.add 0) 1 0 (fun _ _ v => v) (fun _ i => i) 4 (fun v => v) PropsNS.e_cx PropsNS.e_cy 0 1 2 3 4 5 6 7 8 1 (fun _ _ : unit => true) c_monoid (fun _ => eq_refl) eq_refl
    2 1 4 8 false 0 (c_xg [2; 1] [4; 8]) c_actor 1 1 8 8 false 0 (c_xg [1; 1] [8; 8]) c_actor 2 tt tt 0 c_ord c_maps c_maps c_state (c_events c_pose l) (fun _ => 0) m (fun _ => 0)
    c_set_a c_set_b eq_refl c_all_a c_all_b (fun _ => eq_refl) c_remote c_tracks c_off (c_legal_a l) (c_ghosts c_pose l false) (c_moves_a l) Hs R c_built c_orders eq_refl) as (fields & fields' & F1 & F2 & (FF & HF) & HL & K).
  destruct (HL 0%nat ltac:(lia)) as (F & HLF). destruct (K FF (fun _ => F) HF) as (m1 & mB & ssB & K1 & K2 & K3).
  { intros b Hb. replace b with 0%nat by lia. exact HLF. }
  destruct (K3 (c_events c_pose1 l1) (c_legal_b l1) (c_ghosts c_pose1 l1 false)) as (e' & Re').
  { apply c_moves. exact (c_address _ _ _ _ K2). }
  exists e', m, FF, (fun _ => F), fields, fields', m1, mB, ssB. repeat split; assumption.
Qed.

(** The vorticity in cell (4, 4), on the two ranks and on the one. *)
Definition c_vort (e : mem Z) : Z := field e (ghosted 2 [4; 8]) 1 0%nat [2; 6].
Definition c_vort1 (e' : mem Z) : Z := field e' (ghosted 2 [8; 8]) 0 0%nat [6; 6].
Theorem c_forces l l1 e e' : meets 0 (c_events c_pose l) = true -> c_runs l l1 e e' ->
  let s := c_ref c_state (c_events c_pose l ++ c_events c_pose l1) in
  (c_force e = fo (cs_st s 0%nat) 0 0 /\ c_vort e = cs_u s 0%nat [4; 4]) /\
  exists f0, let s' := c_ref (given_back 0 (c_coll (c_events c_pose l)) f0 (c_ref c_state (c_events c_pose l))) (c_events c_pose1 l1) in
  c_force e' = fo (cs_st s' 0%nat) 0 0 /\ c_vort1 e' = cs_u s' 0%nat [4; 4].
Proof.
  intros Hm (m & FF & files & fields & fields' & m1 & mB & ssB & R & Re & F1 & F2 & F3 & F4 & F5 & F6 & F7). pose proof (c_saving l Hm) as Hs. split.
  - destruct (c_first (l ++ l1)) as (e1 & R1 & U1 & Ht). rewrite c_app in *. rewrite (U1 e).
    + split.
      * destruct (tr_node _ _ _ _ _ _ _ _ _ _ _ _ Ht 0%nat ltac:(lia)) as [_ X]. exact (X 0 0 ltac:(cbn; lia) ltac:(cbn; lia)).
      * unfold c_vort. refine (tr_flow _ _ _ _ _ _ _ _ _ _ _ _ Ht 1 0%nat [2; 6] _ _ _ _); [cbn; lia|now left|repeat constructor; cbn; lia|left; cbn; repeat constructor; cbn; lia].
    + unfold c_program. rewrite LoopProofs.segs_events. exact (CoupledProofs.segs_app _ _ _ _ _ _ R Re).
  - assert (Hfile : forall b, (b < 1)%nat -> lag_saved_as 2 [mismatch_fields 2 (c_actor b)] m (files b)) by (intros b Hb; replace b with 0%nat by lia; exact F3).
    assert (Hmv : moves_ok (zprod [1; 1]) (fun b => address (ssB b)) (c_events c_pose1 l1)) by (apply c_moves; exact (c_address _ _ _ _ F6)).
    destruct (C57_what_continues_2d Z.add Z.sub Z.mul 0 0 c_val (fun _ => 0) (fun x => x) (fold_right Z.add 0) 1 0 (fun _ _ v => v) (fun _ i => i) 4 (fun v => v) PropsNS.e_cx PropsNS.e_cy 0 1 2 3 4 5 6 7 8 1 (fun _ _ : unit => true) c_monoid (fun _ => eq_refl) eq_refl
      2 1 4 8 false 0 (c_xg [2; 1] [4; 8]) c_actor 1 1 8 8 false 0 (c_xg [1; 1] [8; 8]) c_actor 2 tt tt fields fields' FF files c_ord c_maps c_maps c_state (c_events c_pose l) (c_events c_pose1 l1) (fun _ => 0) m (fun _ => 0) m1 mB e' ssB
      c_set_a c_set_b eq_refl ltac:(lia) c_half c_all_a c_all_b (fun _ => eq_refl) c_remote c_tracks c_off (c_legal_a l) (c_ghosts c_pose l false) (c_moves_a l) Hs R F1 F2 Hfile F4 c_built F5 c_orders F6 (c_legal_b l1) (c_ghosts c_pose1 l1 false) Hmv F7) as (f0 & X' & _ & X).
    exists f0. split; [exact (X 0%nat 0 0 ltac:(lia) ltac:(lia) ltac:(cbn; lia))|]. refine (X' 0 0%nat [4; 4] _ _ _); [cbn; lia|destruct (flows _); now left|repeat constructor; cbn; lia].
Qed.

Lemma advance_first : meets 0 (c_events c_pose [Acts; Flow]) = true /\ forall f0,
  fo (cs_st (c_ref c_state (c_events c_pose [Acts; Flow] ++ c_events c_pose [Go; Meet])) 0%nat) 0 0 <>
  fo (cs_st (c_ref (given_back 0 (c_coll (c_events c_pose [Acts; Flow])) f0 (c_ref c_state (c_events c_pose [Acts; Flow]))) (c_events c_pose1 [Go; Meet])) 0%nat) 0 0.
Proof. split; [reflexivity|]. intros f0. vm_compute. discriminate. Qed.
Lemma after_advance : meets 0 (c_events c_pose [Acts; Flow; Go]) = true /\ forall f0,
  fo (cs_st (c_ref c_state (c_events c_pose [Acts; Flow; Go] ++ c_events c_pose [Meet])) 0%nat) 0 0 <>
  fo (cs_st (c_ref (given_back 0 (c_coll (c_events c_pose [Acts; Flow; Go])) f0 (c_ref c_state (c_events c_pose [Acts; Flow; Go]))) (c_events c_pose1 [Meet])) 0%nat) 0 0.
Proof. split; [reflexivity|]. intros f0. vm_compute. discriminate. Qed.
Lemma before_flow : meets 0 (c_events c_pose [Acts]) = true /\ forall f0,
  cs_u (c_ref c_state (c_events c_pose [Acts] ++ c_events c_pose [Flow])) 0%nat [4; 4] <>
  cs_u (c_ref (given_back 0 (c_coll (c_events c_pose [Acts])) f0 (c_ref c_state (c_events c_pose [Acts]))) (c_events c_pose1 [Flow])) 0%nat [4; 4].
Proof. split; [reflexivity|]. intros f0. vm_compute. discriminate. Qed.
