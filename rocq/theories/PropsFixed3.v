(** Property C69, a case in 3D: the body of PropsCoupled, alone and fixed, on 2 x 1 x 2 ranks, from its constructor on; flow at rest. *)
From Coq Require Import QArith.
From Verif Require Import Base SpecGrid SpecGhostSum SpecStencil SpecStep SpecPenalise SpecFilter SpecDouble SpecLag SpecIB SpecVbf SpecNS SpecBodies SpecCoupled SpecReduce SpecDiag SpecLoop SpecInteractor SpecAdaptive SpecDriver SpecDrag SpecFixed
  Comm Blocking Spmd Stencil Lagrangian Vbf NavierStokes Coupled SpecTracks Loop Interactor Diagnostics Adaptive Driver Drag.
From Verif Require PropsNS PropsCoupled PropsLoop PropsInteractor PropsDrag AdaptiveThms.
From Verif Require Import PropsDriver PropsFixed.
Open Scope Z_scope.

Definition f3_q : request Z :=
  {| g_stiff := 3; g_damp := 2; g_dim := 3; g_width := Some 1; g_weight := fun _ => 1; g_reset := true; g_local := false; g_auto := true; g_master := 3; g_nodes := p_nodes PropsCoupled.e3_pose; g_spacing := 2 |}.
Definition f3_made (b' : nat) (r : Z) : @made Z := match interactor_init Z.mul Z.pow Z.ltb 2 0 [2; 1; 2] [4; 5; 4] 1 0 2 f3_q r with Ready x => x | _ => PropsInteractor.none_made end.
Definition f3_actor (b' : nat) : actor Z := actor_made (fun _ => f3_q) 18 b' (f3_made b' (g_master f3_q)).
Definition f3_order (b' : nat) (a : list Z) : list Z := PropsInteractor.set_order (fun _ => f3_q) b' a.
Definition f3_adv : nat -> Z -> Z -> cstate Z * (nat -> Z) -> cstate Z * (nat -> Z) :=
  driven 3 (global_size [2; 1; 2] [4; 5; 4]) [0; 1; 2; 3; 4; 5; 6; 7; 8]%nat (fun b => a_body (f3_actor b)) PropsLoop.l3_rules PropsLoop.lx_look three (fixed_calls 0 (fun d => d) (fun _ _ _ => PropsNS.e3_step))
    Z.add Z.sub Z.mul 0 (fun x => x) (fold_right Z.add 0) 1 0 [6; 7; 8]%nat d3_flow.
Notation f3_start := (cold_3d (T := Z) 0 (fun _ _ => 0) (fun _ : nat => 0) 0 [0; 0]).
Notation f3_step := (serial_iteration Z.ltb Z.add 0 dr_due [5; 11] 8 Z.le dr_mag dr_lim (fun d => d) (global_size [2; 1; 2] [4; 5; 4]) [6; 7; 8]%nat (fun x => cs_u (fst x)) f3_adv).
Notation f3_run := (serial_iterations Z.ltb Z.add 0 dr_due [5; 11] 8 Z.le dr_mag dr_lim (fun d => d) (global_size [2; 1; 2] [4; 5; 4]) [6; 7; 8]%nat (fun x => cs_u (fst x)) f3_adv).
Definition f3_end : sconfig Z (cstate Z * (nat -> Z)) := {| s_count := 1; s_time := 10; s_timers := [10; 10]; s_state := f3_adv 0 0 10 (s_state f3_start) |}.
Definition f3_h : happening Z (cstate Z * (nat -> Z)) := {| h_due := [true; true]; h_state := s_state f3_start; h_dt := 10 |}.
Lemma f3_step1 : f3_step f3_start f3_h f3_end.
Proof. apply (si Z.ltb Z.add 0 dr_due [5; 11] 8 Z.le dr_mag dr_lim (fun d => d) (global_size [2; 1; 2] [4; 5; 4]) [6; 7; 8]%nat (fun x => cs_u (fst x)) f3_adv f3_start 0); [reflexivity|]. apply AdaptiveThms.is_max_check. vm_compute. reflexivity. Qed.
Lemma f3_in : stays_inside 1 0 (global_size [2; 1; 2] [4; 5; 4]) 1 (g_nodes f3_q).
Proof. split; vm_compute; repeat constructor; try discriminate; lia. Qed.
Lemma f3_nodes : Forall (in_domain 1 0 [2; 1; 2] [4; 5; 4]) (g_nodes f3_q).
Proof. repeat constructor; PropsInteractor.qle. Qed.
Lemma f3_ready b' r : interactor_init Z.mul Z.pow Z.ltb 2 0 [2; 1; 2] [4; 5; 4] 1 0 2 f3_q r = Ready (f3_made b' r).
Proof.
  assert (G : grid_ok [2; 1; 2] [4; 5; 4]) by (split; [reflexivity|unfold positive; repeat (apply Forall_cons; [lia|]); apply Forall_nil|unfold positive; repeat (apply Forall_cons; [lia|]); apply Forall_nil]).
  unfold f3_made. destruct (PropsInteractor.C55_construction_succeeds Z.mul Z.pow Z.ltb 2 0 [2; 1; 2] [4; 5; 4] 1 0 2 f3_q r ltac:(PropsInteractor.qle) G (or_intror eq_refl) ltac:(repeat split; cbn; lia) (or_intror f3_nodes)) as [x ->]. reflexivity.
Qed.
Example C69_nonvacuous_3d :
  ns3_setting 2 1 2 4 5 4 2 2 (Some (Multiplicative, 1%nat, 2)) (fun r a i => nth a (block_start [2; 1; 2] [4; 5; 4] r) 0 + (i - 2)) (fun _ i => i) 0 1 2 3 4 5 6 7 8 9 10 11 12 13 14 15 16 17 (PropsNS.e3_c 3) (PropsNS.e3_c 4) (PropsNS.e3_c 5) /\
  actors_ok [2; 1; 2] 2 1 f3_actor [0; 1; 2; 3; 4; 5; 6; 7; 8; 9; 10; 11; 12; 13; 14; 15; 16; 17]%nat /\
  fits [2; 1; 2] [4; 5; 4] 1 0 1 f3_actor PropsLoop.l3_rules f3_order 0 (snd (s_state f3_start) 0%nat) (fun b' => address (state_made (fun _ => f3_q) f3_order b' (f3_made b'))) /\
  flow3_ok 0 [0; 1; 2]%nat [6; 7; 8]%nat [12; 13; 14]%nat [9; 10; 11]%nat PropsNS.e3_step /\
  (exists c0, all_at [2; 1; 2] (shows_at 0 [2; 1; 2] [4; 5; 4] 2 [0; 1; 2; 3; 4; 5; 6; 7; 8]%nat [9; 10; 11]%nat 1 f3_actor [[2; 9; 8]; [8; 2; 8]; [8; 9; 2]]) (eq (fun b' => address (state_made (fun _ => f3_q) f3_order b' (f3_made b')))) c0 f3_start) /\
  off_edge 0 [2; 1; 2] [4; 5; 4] (fst (s_state f3_start)) /\
  f3_run f3_start ([] ++ [f3_h]) f3_end /\ serial_over Z.ltb 8 f3_end /\
  address (state_made (fun _ => f3_q) f3_order 0 (f3_made 0)) = [0; 3] /\ force_law 0%nat (fun b => a_body (f3_actor b)) PropsLoop.l3_rules Z.add Z.sub Z.mul (fun x => x) (fold_right Z.add 0) 1 0 [6; 7; 8]%nat
    (pm (cs_st (fst (s_state f3_start)) 0%nat)) (cs_u (fst (s_state f3_start))) (snd (s_state f3_start) 0%nat) 0 0 <> 0.
Proof.
  pose proof PropsCoupled.C49_nonvacuous_3d as (S & _ & Fl & _).
  split; [exact S|].
  destruct (C69_from_scratch_3d Z.ltb Z.add 0 dr_due (fun d : Z => d) Z.sub Z.mul 0 (fun x => x) 1 0 (fun _ i => i) 2 (fun v => v) (PropsNS.e3_c 3) (PropsNS.e3_c 4) (PropsNS.e3_c 5) (fun a b c => a + b + c) Z.sub (Some (Multiplicative, 1%nat, 2)) 0 1 2 3 4 5 6 7 8 9 10 11 12 13 14 15 16 17 1 eq_refl PropsLoop.l3_rules 0 (fun d => d)
    (fun _ _ _ => PropsNS.e3_step) (fun t => t) (fun d => - d) Z.pow Z.ltb 2 0 18 f3_q (fun _ _ => 0) (fun _ => 0) 0 [0; 0] eq_refl eq_refl ltac:(cbn [In]; intuition lia) eq_refl eq_refl eq_refl
    2 1 2 4 5 4 2 _ f3_order f3_made (fun _ => 7) S ltac:(auto) ltac:(repeat split; cbn; lia) f3_in (PropsInteractor.set_order_ok (fun _ => f3_q)) ltac:(intros; apply f3_ready)) as (A1 & A2 & A3 & A4 & _).
  split; [exact A1|]. split; [exact A2|]. split.
  { unfold PropsCoupled.e3_events in Fl. apply Forall_cons_iff in Fl as [_ Fl]. apply Forall_cons_iff in Fl as [_ Fl]. apply Forall_cons_iff in Fl as [P3 _]. exact P3. }
  split; [eexists; exact A3|]. split; [exact A4|].
  split; [eapply sis_snoc; [apply sis_nil|exact f3_step1]|]. split; [reflexivity|]. split; vm_compute; [reflexivity|discriminate].
Qed.
Print Assumptions C69_nonvacuous_3d.
