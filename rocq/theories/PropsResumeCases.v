(** Property C57, cases: a restart that meets the hypotheses of C57_restart_2d, and what goes wrong without each of them.

    The case ([c_runs], ResumeRefute.v): 2 x 1 ranks with blocks of 4 x 8 cells until the save, one rank after it; one body of one node
    (springs 3, dampers 2) held at (9/2, 9/2) with velocity 7.  The calls: [Meet] compute_interaction_forces, [Acts] the interaction
    that also acts on the flow, [Go] the interactor's time_step, [Flow] the simulator's time_step. *)
From Coq Require Import QArith.
From Verif Require Import Base SpecGrid SpecGhost SpecStencil SpecVbf SpecNS SpecCoupled Comm Vbf Coupled SpecTracks SpecResume PropsResume.
From Verif Require PropsNS PropsCoupled.
From Verif Require Import ResumeRefute.
Open Scope Z_scope.
Open Scope list_scope.
Notation settled_at l := (settled 0 (c_events c_pose l) = true).
Notation meets_next l1 := (meets_first 0 (c_events c_pose l1) = true).
Notation cleared_at l := (cleared (c_events c_pose l) = true).

(** C57.  If the interactor is advanced before the body next meets the flow (the loop order of the repository's rigid-body examples:
    interactor.time_step, then the interaction), it is advanced with the velocity mismatch from before the body last met the flow:
    the restarted run differs. *)
Theorem C57_advance_first_refuted : ~ forall l l1 e e', c_save l -> settled_at l -> cleared_at l -> c_runs l l1 e e' -> c_force e = c_force e'.
Proof.
  intros H. destruct advance_first as [Hm Hne]. destruct (c_possible [Acts; Flow] [Go; Meet] Hm) as (e & e' & R).
  destruct (c_forces _ _ _ _ Hm R) as [[E _] (f0 & E' & _)]. apply (Hne f0). rewrite <- E, <- E'. exact (H _ _ _ _ (c_saving _ Hm) eq_refl eq_refl R).
Qed.
(** C57.  If the interactor has been advanced since the body last met the flow, that advance is not in the file. *)
Theorem C57_saved_after_advance_refuted : ~ forall l l1 e e', c_save l -> meets_next l1 -> cleared_at l -> c_runs l l1 e e' -> c_force e = c_force e'.
Proof.
  intros H. destruct after_advance as [Hm Hne]. destruct (c_possible [Acts; Flow; Go] [Meet] Hm) as (e & e' & R).
  destruct (c_forces _ _ _ _ Hm R) as [[E _] (f0 & E' & _)]. apply (Hne f0). rewrite <- E, <- E'. exact (H _ [Meet] _ _ (c_saving _ Hm) eq_refl eq_refl R).
Qed.
(** C57.  If the flow has not been advanced since the body acted on it, the force it put on the flow is not in the files. *)
Theorem C57_saved_before_flow_refuted : ~ forall l l1 e e', c_save l -> settled_at l -> meets_next l1 -> c_runs l l1 e e' -> c_vort e = c_vort1 e'.
Proof.
  intros H. destruct before_flow as [Hm Hne]. destruct (c_possible [Acts] [Flow] Hm) as (e & e' & R).
  destruct (c_forces _ _ _ _ Hm R) as [[_ E] (f0 & _ & E')]. apply (Hne f0). rewrite <- E, <- E'. exact (H _ [Flow] _ _ (c_saving _ Hm) eq_refl eq_refl R).
Qed.

(** The hypotheses of C57 are met by such a run, and it ends with the force and vorticity of the run that was not interrupted, which are
    not zero. *)
Example C57_nonvacuous_2d : (c_setting 2 1 4 8 /\ c_setting 1 1 8 8 /\ c_can [Acts; Flow] [Meet; Go; Acts; Flow]) /\
  (exists e e', c_runs [Acts; Flow] [Meet; Go; Acts; Flow] e e') /\
  forall e e', c_runs [Acts; Flow] [Meet; Go; Acts; Flow] e e' -> c_force e = c_force e' /\ c_force e <> 0 /\ c_vort e = c_vort1 e' /\ c_vort e <> 0.
Proof.
  split; [split; [exact c_set_a|split; [exact c_set_b|]]|].
  - split; [apply c_saving; reflexivity| | |reflexivity]; intros b Hb; replace b with 0%nat by lia; reflexivity.
  - split; [now apply c_possible|]. intros e e' R. destruct (c_forces [Acts; Flow] [Meet; Go; Acts; Flow] e e' eq_refl R) as [[E1 E2] (f0 & E3 & E4)].
    rewrite E1, E2, E3, E4. vm_compute. repeat split; discriminate.
Qed.

Print Assumptions C57_advance_first_refuted.
Print Assumptions C57_saved_after_advance_refuted.
Print Assumptions C57_saved_before_flow_refuted.
