(** Properties C08-C11: gather/scatter of Eulerian fields (2D and 3D: [dims],
    [loc] have any number of axes; scalar fields: one component; vector
    fields: one component per axis). *)
From Verif Require Import Base SpecGrid Comm Blocking SpecBlocking FieldComm SpecFields FieldProofs.

(** ** C08 *)
Theorem C08_gather_assembles_global_field :
  forall (T : Type) dims loc g master order comps (m : Z -> @lmem T),
    grid_ok dims loc -> 0 <= g -> 0 <= master < zprod dims ->
    slave_order dims master order -> distinct_arrays comps ->
    exists m', runs_to (zprod dims) (gather_fields dims loc g master order comps) m m' /\
               gathered dims loc g master comps m m'.
Proof. intros; now apply gather_runs. Qed.
Print Assumptions C08_gather_assembles_global_field.

(** ** C09 *)
Theorem C09_scatter_writes_inner_cells :
  forall (T : Type) dims loc g master order comps (m : Z -> @lmem T),
    grid_ok dims loc -> 0 <= g -> 0 <= master < zprod dims ->
    slave_order dims master order -> distinct_arrays comps ->
    exists m', runs_to (zprod dims) (scatter_fields dims loc g master order comps) m m' /\
               scattered dims loc g master comps m m'.
Proof. intros; now apply scatter_runs. Qed.
Print Assumptions C09_scatter_writes_inner_cells.

Example C08_C09_nonvacuous :
  grid_ok [2; 2] [3; 2] /\ slave_order [2; 2] 1 [3; 0; 2] /\ distinct_arrays [(0, 1); (2, 3)]%nat /\
  length (@gather_fields Z [2; 2] [3; 2] 1 1 [3; 0; 2] [(0, 1); (2, 3)]%nat 1) = 8%nat.
Proof.
  split; [|split; [|split]].
  - constructor; simpl; auto; repeat constructor; lia.
  - unfold slave_order. simpl. apply Permutation_sym.
    apply (Permutation_trans (l' := [0; 3; 2])); [apply perm_skip, perm_swap|apply perm_swap].
  - constructor; [repeat constructor; simpl; intuition lia..|]. intros a H. simpl in *. intuition lia.
  - reflexivity.
Qed.

(** ** C10 *)
(** scatter then gather restores the master's global arrays *)
Theorem C10_gather_after_scatter :
  forall (T : Type) dims loc g master comps (m m1 m2 : Z -> @lmem T),
    grid_ok dims loc -> 0 <= g -> 0 <= master < zprod dims -> distinct_arrays comps ->
    scattered dims loc g master comps m m1 -> gathered dims loc g master comps m1 m2 ->
    forall gid lid p, In (gid, lid) comps -> inb (global_size dims loc) p ->
      m2 master (gid, ravel (global_size dims loc) p) = m master (gid, ravel (global_size dims loc) p).
Proof. intros; eapply gather_scatter_id; eauto. Qed.
Print Assumptions C10_gather_after_scatter.

(** gather then scatter leaves every rank's memory, ghost cells included, as
    it was (except the master's global arrays) *)
Theorem C10_scatter_after_gather :
  forall (T : Type) dims loc g master comps (m m1 m2 : Z -> @lmem T),
    grid_ok dims loc -> 0 <= g -> 0 <= master < zprod dims -> distinct_arrays comps ->
    gathered dims loc g master comps m m1 -> scattered dims loc g master comps m1 m2 ->
    forall r f i, ~ (r = master /\ In f (map fst comps)) -> m2 r (f, i) = m r (f, i).
Proof. intros; eapply scatter_gather_id; eauto. Qed.
Print Assumptions C10_scatter_after_gather.

(** ** C11: any sequence of gather and scatter calls, on any fields, in any
    enumeration order of the slave set, with sends buffered or not and no
    barrier between the calls, terminates with the sequential effect. *)
Theorem C11_call_sequences_terminate :
  forall (T : Type) dims loc g master order calls (m : Z -> @lmem T),
    grid_ok dims loc -> 0 <= g -> 0 <= master < zprod dims -> slave_order dims master order ->
    Forall (fun c => distinct_arrays (snd c)) calls ->
    exists m', runs_to (zprod dims) (calls_prog dims loc g master order calls) m m' /\
               calls_effect dims loc g master calls m m'.
Proof. intros; now apply calls_run. Qed.
Print Assumptions C11_call_sequences_terminate.

(** The scheduling semantics does block: two ranks that both send first. *)
Example C11_semantics_can_deadlock :
  let prog r := [@BSend Z (Some (1 - r)) [(0%nat, 0)]; BRecv (Some (1 - r)) [(1%nat, 0)]] in
  (forall c, ~ bstep false (start 2 prog (fun _ _ => 0)) c) /\ ~ finished (start 2 prog (fun _ _ => 0)).
Proof.
  split.
  - intros c H. inversion H; subst; simpl in *;
    repeat match goal with E : context [if ?b then _ else _] |- _ => destruct b; simpl in E; try discriminate end.
  - intros H. specialize (H 0). discriminate.
Qed.
