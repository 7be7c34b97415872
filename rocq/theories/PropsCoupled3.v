(** Property C52, a case in 3D: the calls of C49_nonvacuous_3d (2 x 1 x 2 ranks, both nodes on different ranks, the interactor exchanging ghosts) on one rank
    (8 x 5 x 8 cells), the user exchanging ghosts, the body with assume_data_locality, another master, and other values in the cells that race. *)
From Coq Require Import QArith.
From Verif Require Import Base SpecGrid SpecGhostSum SpecStencil SpecStep SpecPenalise SpecFilter SpecDouble SpecLag SpecIB SpecVbf SpecNS SpecBodies SpecCoupled
  Comm Blocking Spmd Stencil Lagrangian Vbf NavierStokes Coupled SpecTracks.
From Verif Require PropsNS LagProofs CoupledThms.
From Verif Require Import PropsCoupled.
Open Scope Z_scope.
Open Scope list_scope.

Notation o_all := [0; 1; 2; 3; 4; 5; 6; 7; 8; 9; 10; 11; 12; 13; 14; 15; 16; 17]%nat.
Notation o_filt := (Some (Multiplicative, 1%nat, 2)).
Notation o_xg dims loc := (fun r a i => nth a (block_start dims loc r) 0 + (i - 2)).
Notation o_setting pz py px n0 n1 n2 := (ns3_setting pz py px n0 n1 n2 2 2 o_filt (o_xg [pz; py; px] [n0; n1; n2]) (fun _ i => i) 0 1 2 3 4 5 6 7 8 9 10 11 12 13 14 15 16 17 (PropsNS.e3_c 3) (PropsNS.e3_c 4) (PropsNS.e3_c 5)).
Notation o_legal dims loc actors := (Forall (event_ok dims loc 1 actors 1 0 (fun s : @ns3_step Z * (Z -> nat -> list Z -> Z) => flow3_ok 0 [0; 1; 2]%nat [6; 7; 8]%nat [12; 13; 14]%nat [9; 10; 11]%nat (fst s)))).
Definition o_actor (b : nat) : actor Z := {| a_arrays := a_arrays (e3_actor b); a_master := 0; a_bufs := a_bufs (e3_actor b); a_body := a_body (e3_actor b); a_local := true; a_auto := false |}.
Definition o_pose : pose Z := on_one e3_pose.
Definition o_events : list (event Z (@ns3_step Z * (Z -> nat -> list Z -> Z))) := [EGhost; EFull 0 o_pose; EAdvance 0 2; EFlow (PropsNS.e3_step, fun _ _ _ => 77); EGhost; ELag 0 o_pose].
Definition o_maps (b : nat) : vb := vb_init [0; 0] [].
Definition o_state : cstate Z := {| cs_u := fun _ _ => 0; cs_f := fun _ _ => 0; cs_map := fun b => [0; 0]; cs_st := fun _ => at_rest 0 |}.
Notation o_program pz py px n0 n1 n2 full actors := (coupled_segs Z.add Z.sub Z.mul 0 (fun x => x) (fold_right Z.add 0) 1 0 [pz; py; px] [n0; n1; n2] 2 [6; 7; 8]%nat [9; 10; 11]%nat actors
  (exch_3d pz py px n0 n1 n2 2 full [6; 7; 8]%nat) (spread_3 Z.add Z.mul (fun _ => 0) 1 0 pz py px n0 n1 n2 2 [9; 10; 11]%nat)
  (fun sr : @ns3_step Z * (Z -> nat -> list Z -> Z) => time_step_3d Z.add 0 (fun _ _ v => v) (fun v => v) (fun a b c => a + b + c) Z.sub o_filt pz py px n0 n1 n2 2 full 2 (o_xg [pz; py; px] [n0; n1; n2])
    0 1 2 3 4 5 6 7 8 9 10 11 12 13 14 15 16 17 (PropsNS.e3_c 3) (PropsNS.e3_c 4) (PropsNS.e3_c 5) (snd sr) (fst sr))).
Lemma o_monoid : comm_monoid Z.add 0. Proof. repeat split; intros; lia. Qed.
Lemma o_flow : flow3_ok 0 [0; 1; 2]%nat [6; 7; 8]%nat [12; 13; 14]%nat [9; 10; 11]%nat PropsNS.e3_step.
Proof. pose proof C49_nonvacuous_3d as (_ & _ & Fl & _). unfold e3_events in Fl. apply Forall_cons_iff in Fl as [_ Fl]. apply Forall_cons_iff in Fl as [_ Fl]. apply Forall_cons_iff in Fl as [P3 _]. exact P3. Qed.
Lemma o_set : o_setting 1 1 1 8 5 8.
Proof. destruct PropsNS.setting3_instance as [_ _ _ _ _ Q1 Q2 _]. split; auto; try lia; [unfold KernelList.grid3; lia|repeat constructor; lia|intros r a i _ _ _; reflexivity]. Qed.
Lemma o_actors : actors_ok [1; 1; 1] 2 1 o_actor o_all.
Proof. split; [cbn; repeat constructor; cbn; intuition discriminate|]. intros b Hb. cbn. lia. Qed.
Lemma o_one : false = true \/ at_most_one_split [1; 1; 1]. Proof. right. unfold at_most_one_split; vm_compute; repeat constructor. Qed.
Lemma o_is_legal : o_legal [1; 1; 1] [8; 5; 8] o_actor o_events.
Proof.
  pose proof o_flow as F.
  assert (P : pose_ok [1; 1; 1] [8; 5; 8] 1 0 0 (a_body (o_actor 0)) o_pose).
  { split; [repeat constructor; qle|reflexivity|repeat constructor; vm_compute; intuition discriminate|vm_compute; reflexivity|].
    split; [repeat constructor; cbn; lia|split; [split; [constructor|intros s; cbn; lia]|reflexivity]]. }
  unfold o_events. repeat (constructor; [cbn [event_ok fst]; auto; try (split; [lia|split; [auto|intros H; (discriminate H || reflexivity)]]); lia|]). constructor.
Qed.
Lemma o_tracks : tracks 0 [1; 1; 1] [8; 5; 8] 2 [0; 1; 2; 3; 4; 5; 6; 7; 8]%nat [9; 10; 11]%nat 1 o_actor [[2; 9; 12]; [12; 2; 12]; [12; 9; 2]] o_maps (fun _ => 0) o_state.
Proof.
  split; try reflexivity; try (split; reflexivity).
  - intros b Hb. (split; [|reflexivity]); (split; [|split; [intros; apply LagProofs.count_eq|split; intros ? ? ? ? _ _ _; reflexivity]]);
      (split; [repeat constructor; cbn; lia|split; [split; [repeat constructor; cbn; tauto|intros s; cbn; lia]|reflexivity]]).
  - intros b Hb. repeat constructor; intros r K _ _; reflexivity.
Qed.
(** All hypotheses hold, both programs end, and then the fields and the forces agree; the options differ. *)
Example C52_nonvacuous_3d :
  (o_setting 2 1 2 4 5 4 /\ o_setting 1 1 1 8 5 8 /\ global_size [2; 1; 2] [4; 5; 4] = global_size [1; 1; 1] [8; 5; 8]) /\
  (a_local (e3_actor 0) = false /\ a_local (o_actor 0) = true /\ a_auto (e3_actor 0) = true /\ a_auto (o_actor 0) = false /\ a_master (e3_actor 0) <> a_master (o_actor 0)) /\
  exists e e', segs_end 4 (o_program 2 1 2 4 5 4 true e3_actor (fun _ => vb_init [0; 3] [0]) e3_events) (fun _ => 0) e /\ segs_end 1 (o_program 1 1 1 8 5 8 false o_actor o_maps o_events) (fun _ => 0) e' /\
    agree [2; 1; 2] [4; 5; 4] [1; 1; 1] [8; 5; 8] 2 [0; 1; 2; 3; 4; 5; 6; 7; 8; 9; 10; 11]%nat e e' /\
    forall c j, 0 <= c < 3 -> 0 <= j < 2 -> e (3, (gfo (ex_arr 20), c * 2 + j)) = e' (0, (gfo (ex_arr 20), c * 2 + j)).
Proof.
  pose proof C49_nonvacuous_3d as (S & A & L & G & M & Tr & Of). change (seq 0 18) with o_all in A.
  split; [split; [exact S|split; [exact o_set|reflexivity]]|]. split; [repeat split; discriminate|].
  destruct (C49_coupled_3d Z.add Z.sub Z.mul 0 (fun _ => 0) (fun x => x) (fold_right Z.add 0) 1 0 (fun _ _ v => v) (fun _ i => i) 2 (fun v => v) (PropsNS.e3_c 3) (PropsNS.e3_c 4) (PropsNS.e3_c 5) (fun a b c => a + b + c) Z.sub o_filt
    0 1 2 3 4 5 6 7 8 9 10 11 12 13 14 15 16 17 1 o_monoid (fun _ => eq_refl) eq_refl 2 1 2 4 5 4 2 true (o_xg [2; 1; 2] [4; 5; 4]) e3_actor e3_events (fun _ => vb_init [0; 3] [0]) (fun _ => 0) e3_state
    S A (or_introl eq_refl) L G M Tr Of) as (e & R & _).
  destruct (C49_coupled_3d Z.add Z.sub Z.mul 0 (fun _ => 0) (fun x => x) (fold_right Z.add 0) 1 0 (fun _ _ v => v) (fun _ i => i) 2 (fun v => v) (PropsNS.e3_c 3) (PropsNS.e3_c 4) (PropsNS.e3_c 5) (fun a b c => a + b + c) Z.sub o_filt
    0 1 2 3 4 5 6 7 8 9 10 11 12 13 14 15 16 17 1 o_monoid (fun _ => eq_refl) eq_refl 1 1 1 8 5 8 2 false (o_xg [1; 1; 1] [8; 5; 8]) o_actor o_events o_maps (fun _ => 0) o_state
    o_set o_actors o_one o_is_legal ltac:(cbn; tauto) ltac:(cbn; tauto) o_tracks ltac:(intros c P _ _; reflexivity)) as (e' & R' & _).
  exists e, e'. split; [exact R|]. split; [exact R'|].
  destruct (C52_options_independent_3d Z.add Z.sub Z.mul 0 (fun _ => 0) (fun x => x) (fold_right Z.add 0) 1 0 (fun _ _ v => v) (fun _ i => i) 2 (fun v => v) (PropsNS.e3_c 3) (PropsNS.e3_c 4) (PropsNS.e3_c 5) (fun a b c => a + b + c) Z.sub o_filt
    0 1 2 3 4 5 6 7 8 9 10 11 12 13 14 15 16 17 1 o_monoid (fun _ => eq_refl) eq_refl
    2 1 2 4 5 4 true (o_xg [2; 1; 2] [4; 5; 4]) e3_actor e3_events (fun _ => vb_init [0; 3] [0]) 1 1 1 8 5 8 false (o_xg [1; 1; 1] [8; 5; 8]) o_actor o_events o_maps 2 (fun _ => 0) (fun _ => 0) e e' e3_state o_state
    S o_set eq_refl (or_introl eq_refl) o_one A o_actors (fun _ => eq_refl) L o_is_legal G ltac:(cbn; tauto) ltac:(repeat constructor) M ltac:(cbn; tauto) Tr o_tracks ltac:(repeat split) Of R R') as [X Y].
  split; [exact X|]. intros c j Hc Hj. exact (Y 0%nat c j ltac:(lia) Hc Hj).
Qed.
Print Assumptions C52_nonvacuous_3d.
