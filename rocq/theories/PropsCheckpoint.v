(** C63: what a restart finds after a crash at any point of any history. *)
From Verif Require Import Base Checkpoint SpecCheckpoint CheckpointProofs.
Open Scope Z_scope.

(** A restart that goes on has loaded one complete save, all parts of it of the same moment, and it is the last save that was completed. *)
Theorem C63_restart_loads_last_save : forall (Time F R G E : Type) (teq : Time -> Time -> bool) (lt : Time -> Time -> Prop) (num : Time -> Z) (master : Z),
  clock teq lt num -> forall (d : disk Time F R G E) cur done s, history teq lt num master d cur done -> restores teq master d s ->
  exists earlier, done = s :: earlier.
Proof.
  intros ? ? ? ? ? teq lt num master HC d cur dn s H Hr. destruct (history_inv teq lt num master HC d cur dn H) as [[_ X]|[(_ & X & _)|(s0 & rest & Hd & C & _)]].
  - destruct (refuses_not _ _ _ _ X Hr).
  - unfold restores, restart in Hr. rewrite X in Hr. discriminate.
  - exists rest. rewrite Hd. f_equal. exact (restores_det teq master d _ _ (clean_restores teq lt num master HC d s0 C) Hr).
Qed.
(** A program that dies outside a save can be restarted from its last save. *)
Theorem C63_death_outside_saves_restores : forall (Time F R G E : Type) (teq : Time -> Time -> bool) (lt : Time -> Time -> Prop) (num : Time -> Z) (master : Z),
  clock teq lt num -> forall (d : disk Time F R G E) s s0 earlier, history teq lt num master d (Some s) (s0 :: earlier) -> restores teq master d s0.
Proof.
  intros ? ? ? ? ? teq lt num master HC d s s0 ear H. destruct (history_inv teq lt num master HC _ _ _ H) as [[X _]|[(X & _ & _)|(s1 & rest & Hd & C & _)]]; try discriminate.
  injection Hd as <- <-. exact (clean_restores teq lt num master HC d s0 C).
Qed.
(** A completed save can be loaded, whatever was on the disk. *)
Theorem C63_save_restores : forall (Time F R G E : Type) (teq : Time -> Time -> bool) (lt : Time -> Time -> Prop) (num : Time -> Z) (master : Z),
  clock teq lt num -> forall (d : disk Time F R G E) s done, history teq lt num master d (Some s) done -> restores teq master (save num s d) s.
Proof.
  intros ? ? ? ? ? teq lt num master HC d s dn H. exact (C63_death_outside_saves_restores _ _ _ _ _ teq lt num master HC _ s s dn (hist_save _ _ _ _ _ _ _ H)).
Qed.
(** Finding: a program that dies while it saves a new state cannot be restarted any more, whatever complete checkpoints the disk held before. *)
Theorem C63_crash_while_saving_refuted : forall (Time F R G E : Type) (teq : Time -> Time -> bool) (lt : Time -> Time -> Prop) (num : Time -> Z) (master : Z),
  clock teq lt num -> forall (d : disk Time F R G E) s s0 earlier j, history teq lt num master d (Some s) (s0 :: earlier) -> lt (now s0) (now s) -> (1 <= j < 8)%nat ->
  restores teq master d s0 /\ refuses teq master (run_steps (firstn j (save_steps num s)) d).
Proof.
  intros ? ? ? ? ? teq lt num master HC d s s0 ear j H L Hj. split; [exact (C63_death_outside_saves_restores _ _ _ _ _ teq lt num master HC _ _ _ _ H)|].
  destruct (history_inv teq lt num master HC _ _ _ H) as [[X _]|Gd]; [discriminate|]. apply (die_refuses teq); [exact (good_below teq lt num HC _ _ _ Gd)|exact Hj|].
  apply (good_ela teq lt num HC _ _ _ Gd). intros s1 rest [= <- <-]. exact L.
Qed.
(** The first thing a restarted program does is to save the state it has loaded, over the files it has loaded: whether a death during that save loses the checkpoint. *)
Theorem C63_crash_in_first_save_after_restart : forall (Time F R G E : Type) (teq : Time -> Time -> bool) (lt : Time -> Time -> Prop) (num : Time -> Z) (master : Z),
  clock teq lt num -> forall (d : disk Time F R G E) s done j, history teq lt num master d None done -> restores teq master d s -> (j < 8)%nat ->
  let d' := run_steps (firstn j (save_steps num s)) d in
  (Nat.even j = true -> restores teq master d' s) /\ (Nat.even j = false -> refuses teq master d').
Proof.
  intros ? ? ? ? ? teq lt num master HC d s dn j H Hr Hj. cbv zeta.
  assert (C : clean num d s).
  { destruct (history_inv teq lt num master HC d None dn H) as [[_ X]|[(_ & X & _)|(s0 & rest & Hd & C & _)]].
    - destruct (refuses_not _ _ _ _ X Hr).
    - unfold restores, restart in Hr. rewrite X in Hr. discriminate.
    - now rewrite (restores_det teq master d _ _ Hr (clean_restores teq lt num master HC d s0 C)). }
  assert (D : (j = 1 \/ j = 3 \/ j = 5 \/ j = 7)%nat \/ (j = 0 \/ j = 2 \/ j = 4 \/ j = 6)%nat) by (clear - Hj; lia).
  destruct D as [D|D].
  - split; [intros X; destruct D as [-> | [-> | [-> | -> ]]]; discriminate|]. intros _. now apply (die_again_odd teq num master).
  - split; [|intros X; destruct D as [-> | [-> | [-> | -> ]]]; discriminate]. intros _. exact (clean_restores teq lt num master HC _ s (again_even num d s j C D)).
Qed.
(** Finding: dying while PyElastica's state is written (the last file; the other three are complete), or before, makes only the master refuse; every other rank goes on,
    with the state of the unfinished checkpoint. *)
Theorem C63_refusal_on_every_rank_refuted : forall (Time F R G E : Type) (teq : Time -> Time -> bool) (lt : Time -> Time -> Prop) (num : Time -> Z) (master r : Z),
  clock teq lt num -> r <> master -> forall (d : disk Time F R G E) s done j, history teq lt num master d (Some s) done -> (forall s0 earlier, done = s0 :: earlier -> lt (now s0) (now s)) -> (6 <= j < 8)%nat ->
  let d' := run_steps (firstn j (save_steps num s)) d in
  restart teq master master d' = Raises /\ restart teq master r d' = Goes_on (now s) (flow s) (rod s) (grid s) None.
Proof.
  intros ? ? ? ? ? teq lt num master r HC Nr d s dn j H L Hj. cbv zeta. destruct (history_inv teq lt num master HC _ _ _ H) as [[X _]|Gd]; [discriminate|].
  pose proof (good_below teq lt num HC _ _ _ Gd) as B. split.
  - apply (die_refuses teq num master d s j B); [clear - Hj; lia|]. exact (good_ela teq lt num HC _ _ _ Gd L).
  - assert (N : latest (num (now s) :: names d) = Some (num (now s))) by (apply latest_is; [now left|]; intros i [<-|Hi]; [lia|auto]).
    assert (Er : (r =? master) = false) by now apply Z.eqb_neq.
    assert (D : (j = 6 \/ j = 7)%nat) by (clear - Hj; lia). destruct D as [-> | -> ]; unfold restart; cbn [run_steps firstn save_steps fold_left names d_flow d_rod d_grid d_ela open_flow close_flow open_rod close_rod open_grid close_grid open_ela close_ela]; rewrite N, !put_same, Er; reflexivity.
Qed.

(** A program that saves at times 0 and 250, advances to 255 (same file number), dies outside a save and is restarted at 250. *)
Definition ex_sim (t : Z) : sim Z Z Z Z Z := {| now := t; flow := t + 1; rod := t + 2; grid := t + 3; ela := t + 4 |}.
Lemma ex_clock : clock Z.eqb Z.lt (fun t => t / 10).
Proof. split; [intros t; apply Z.lt_irrefl|intros a b c; apply Z.lt_trans|intros a b; apply Z.eqb_eq|intros a b H; apply Z.div_le_mono; lia]. Qed.
Definition ex_disk := save (fun t => t / 10) (ex_sim 250) (save (fun t => t / 10) (ex_sim 0) empty_disk).
Example C63_nonvacuous : history Z.eqb Z.lt (fun t => t / 10) 0 ex_disk (Some (ex_sim 255)) [ex_sim 250; ex_sim 0] /\
  history Z.eqb Z.lt (fun t => t / 10) 0 ex_disk None [ex_sim 250; ex_sim 0] /\
  restores Z.eqb 0 ex_disk (ex_sim 250) /\ names ex_disk = [25; 0].
Proof.
  assert (H : history Z.eqb Z.lt (fun t => t / 10) 0 ex_disk (Some (ex_sim 255)) [ex_sim 250; ex_sim 0]).
  { apply (hist_advance _ _ _ _ _ (ex_sim 250)); [|now cbn]. apply hist_save. apply (hist_advance _ _ _ _ _ (ex_sim 0)); [|now cbn]. apply hist_save. apply hist_start. }
  split; [exact H|]. split; [exact (hist_die _ _ _ _ _ (ex_sim 255) _ 0 H ltac:(lia))|]. split; reflexivity.
Qed.
(** Dying after the flow file of the next save was completed: the disk holds the complete checkpoint 25 no more usable, only number 26 is looked at. *)
Example C63_nonvacuous_crash : refuses Z.eqb 0 (run_steps (firstn 2 (save_steps (fun t => t / 10) (ex_sim 265))) ex_disk) /\
  d_flow (run_steps (firstn 2 (save_steps (fun t => t / 10) (ex_sim 265))) ex_disk) 25 = Whole (250, 251).
Proof. split; reflexivity. Qed.

Print Assumptions C63_restart_loads_last_save.
Print Assumptions C63_death_outside_saves_restores.
Print Assumptions C63_save_restores.
Print Assumptions C63_crash_while_saving_refuted.
Print Assumptions C63_crash_in_first_save_after_restart.
Print Assumptions C63_refusal_on_every_rank_refuted.
