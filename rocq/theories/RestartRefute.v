(** What exactly a restart restores, and what goes wrong with narrow penalised zones (C56). *)
From Coq Require Import String Permutation.
From Verif Require Import Base SpecGrid SpecGhost SpecStencil SpecStep SpecPenalise SpecFilter SpecDouble SpecNS Comm Spmd PyNum Doubling KernelList Stencil NavierStokes IoEul Restart SpecRestart RestartSerial RestartProofs.
From Verif Require KernelProofs StepHistory StepProofs NSThms NSBase NSHalo HaloThms IoEulProofs IoLagProofs GhostGeo HaloKernels.
Open Scope Z_scope.
Open Scope list_scope.

Lemma inner_shift g loc I : inner g loc I -> exists x, inb loc x /\ I = map (fun i => i + g) x.
Proof.
  unfold inner. revert I. induction loc as [|n loc IH]; intros I H; cbn in H; inversion H as [|s ss l ls c cs Hc Hr]; subst; [exists []; split; [constructor|reflexivity]|].
  destruct (IH _ Hr) as (x & Hx & ->). exists (c - g :: x). split; [constructor; [lia|exact Hx]|]. cbn. f_equal. lia.
Qed.
Lemma inner_dec g loc I : inner g loc I \/ ~ inner g loc I.
Proof.
  unfold inner. revert I. induction loc as [|n loc IH]; intros [|i I]; cbn; [left; constructor|right; intros H; inversion H|right; intros H; inversion H|].
  destruct (Z_lt_dec i g); [right; intros H; inversion H; subst; lia|]. destruct (Z_lt_dec i (g + n)); [|right; intros H; inversion H; subst; lia].
  destruct (IH I) as [H|H]; [left; constructor; [lia|exact H]|right; intros X; inversion X; subst; tauto].
Qed.

Section R.
Context {T P : Type}.
Variables (fill : T) (close : P -> P -> bool).
(** A restart restores the saved arrays in the domain; everything else is what the loading simulator had. *)
Lemma reload_ext dims loc g fs (m : mem T) (params : P) F dims' loc' fs' (params' : P) m0 m' Fs u u0 :
  grid_ok dims loc -> grid_ok dims' loc' -> global_size dims loc = global_size dims' loc' -> 1 <= g ->
  creates_fresh fs -> NoDup (flat_map arrays_of fs') -> (forall f', In f' fs' -> exists f, In f fs /\ same_field f f' /\ arrays_of f = arrays_of f') ->
  (forall a, In a (flat_map arrays_of fs') -> In a Fs) ->
  saved_as dims loc g fs params m F -> loaded_as fill close dims' loc' g fs' params' F m0 m' ->
  represents_ext false dims loc g Fs m u -> represents_ext false dims' loc' g Fs m0 u0 ->
  represents_ext false dims' loc' g Fs m' (fun f Q => if inbb (global_size dims loc) Q && (if in_dec Nat.eq_dec f (flat_map arrays_of fs') then true else false) then u f Q else u0 f Q).
Proof.
  intros H1 H2 H3 H4 H5 H6 H7 HI HS HL Hu Hu0. pose proof HS as (ws & Hp & EF). subst F.
  assert (H7' : forall f', In f' fs' -> exists f, In f fs /\ same_field f f') by (intros f' Hf'; destruct (H7 f' Hf') as (f & A & B & _); eauto).
  destruct (IoEulProofs.restart fill close dims loc g fs m params ws dims' loc' g fs' params' m0 H1 H2 H3 ltac:(lia) H5 H6 H7' Hp) as (m1 & (R & R2 & _) & L).
  assert (E : forall r a, 0 <= r < zprod dims' -> m' (r, a) = m1 (r, a)).
  { intros r a Hr. specialize (L r Hr). rewrite (HL r Hr) in L. destruct (close params' params); [|discriminate]. injection L as L. exact (f_equal (fun k => k a) L). }
  intros r a I Hr Ha HIn Hc. assert (EE : field m' (ghosted g loc') r a I = field m1 (ghosted g loc') r a I) by (unfold field; now apply E). rewrite EE. clear EE.
  destruct (in_dec Nat.eq_dec a (flat_map arrays_of fs')) as [Hin|Hni].
  2:{ rewrite andb_false_r. rewrite (R2 r a I Hr HIn ltac:(tauto)). now apply Hu0. }
  destruct (inner_dec g loc' I) as [Hi|Hi].
  - apply in_flat_map in Hin as (f' & Hf' & Hin). apply In_nth_error in Hin as (c & Ec). destruct (H7 f' Hf') as (f & A & B & Ear).
    assert (Ra : represents dims loc g [a] m u) by (intros s b x Hs [<-|[]] Hx; exact (ext_inside _ _ _ _ _ _ H4 H1 Hu s a x Hs Ha Hx)).
    assert (Ec' : nth_error (arrays_of f) c = Some a) by (rewrite Ear; exact Ec).
    pose proof (R f f' c a a u A Hf' B Ec' Ec Ra) as X.
    destruct (inner_shift g loc' I Hi) as (x & Hx & ->).
    rewrite (X r a x Hr (or_introl eq_refl) Hx).
    assert (G : ghost_pos dims' loc' g r (map (fun i => i + g) x) = vadd (block_start dims' loc' r) x).
    { unfold ghost_pos. rewrite map_map. rewrite (map_ext _ (fun x => x)) by (intros; lia). now rewrite map_id. }
    rewrite G. rewrite (proj2 (StepProofs.inbb_spec _ _)); [reflexivity|]. rewrite H3. now apply IoEulProofs.at_inb.
  - rewrite (R2 r a I Hr HIn ltac:(tauto)). destruct Hc as [Hc|[Hg Hc]]; [tauto|]. rewrite (Hu0 r a I Hr Ha HIn ltac:(auto)).
    destruct (inbb (global_size dims loc) (ghost_pos dims' loc' g r I)) eqn:Eb; [|reflexivity]. exfalso. apply StepProofs.inbb_spec in Eb. rewrite H3 in Eb.
    destruct (IoEulProofs.tile_at dims' loc' _ H2 Eb) as (s & y & Hs & Hy & Ey). rewrite Ey in Hc. now rewrite (IoEulProofs.owner_at dims' loc' s y H2 Hs Hy) in Hc.
Qed.
End R.

(** *** 2D: two ranks, blocks of 4 x 8 cells, all fields in memory of integers *)
Section I2.
Variable width : Z.
Definition r_xg : Z -> nat -> Z -> Z := fun r a i => nth a (block_start [2; 1] [4; 8] r) 0 + (i - 2).
Definition r_cx (rd : nat -> list Z -> Z) (_ : Z) : Z := rd 1%nat [1; 0] - rd 1%nat [-1; 0].
Definition r_cy (rd : nat -> list Z -> Z) (_ : Z) : Z := rd 1%nat [0; -1] - rd 1%nat [0; 1].
Definition r_adv (rd : nat -> list Z -> Z) (old : Z) : Z := old + rd 2%nat [0; 0] * (rd 0%nat [0; 2] - rd 0%nat [0; -2]).
Definition r_dif (rd : nat -> list Z -> Z) (_ : Z) : Z := rd 0%nat [0; -1] - rd 0%nat [0; 1].
Definition r_step : @ns2_step Z := {| n2_adv := r_adv; n2_dif := r_dif; n2_frc := None; n2_free := Some (1, 0) |}.
Ltac is_star := match goal with
  | |- star _ _ [?a; 0] => exists 0%nat, a | |- star _ _ [0; ?a] => exists 1%nat, a end;
  split; [simpl; lia|split; [simpl; lia|reflexivity]].
Ltac local := intros rd rd' o E; unfold r_step; cbn [n2_adv n2_dif]; unfold r_cx, r_cy, r_adv, r_dif; rewrite !E; auto; try (simpl; auto; fail); is_star.
Definition r_serial := serial_ns_2d Z.add 0 (fun _ _ v => v) (fun _ i => i) width (fun v => v) r_cx r_cy [8; 8] 0 1 2 3 4 5.
Definition r_run := history [2; 1] (time_step_2d Z.add 0 (fun _ _ v => v) (fun v => v) 2 1 4 8 2 false 0 width r_xg 0 1 2 3 4 5 6 7 8 r_cx r_cy)
  (fun s => between 0 [2; 1] [4; 8] 2 [0; 1; 2; 3]%nat [4; 5]%nat (forcing_of (n2_frc s))).
Lemma r_setting : 1 <= width <= 4 -> ns2_setting 2 1 4 8 2 width 0%nat r_xg (fun _ i => i) 0 1 2 3 4 5 6 7 8 r_cx r_cy.
Proof.
  intros Hw. split; try (split; [local|intros rd o o'; reflexivity]).
  - unfold grid2; lia.
  - lia.
  - lia.
  - lia.
  - reflexivity.
  - intros r a i Hr Ha Hi. reflexivity.
  - repeat constructor; simpl; intuition congruence.
Qed.
Lemma r_step_ok : ns2_step_ok 0 (global_size [2; 1] [4; 8]) 0 2 3 4 5 r_step.
Proof. split; [local|]. split; [local|]. split; [intros rd o o'; reflexivity|exact I]. Qed.
(** The start: vorticity 1 in every cell, everything else 0. *)
Definition r_start : mem Z := fun ra => if (fst (snd ra) =? 0)%nat then 1 else 0.
Definition r_u (f : nat) (Q : list Z) : Z := if (f =? 0)%nat then 1 else 0.
Definition r_fields := [EScalar "vorticity" 0; EVector "velocity" [2%nat; 3%nat]].
Definition r_saved := fold_left r_serial [r_step] r_u.
Definition r_loaded (f : nat) (Q : list Z) : Z := if inbb [8; 8] Q && (if in_dec Nat.eq_dec f [0; 2; 3]%nat then true else false) then r_saved f Q else 0.

Lemma narrow2 : 1 <= width <= 4 -> (exists Q, inb [8; 8] Q /\ fold_left r_serial [r_step] r_saved 0%nat Q <> fold_left r_serial [r_step] r_loaded 0%nat Q) ->
  exists m F m' e e', r_run [r_step] r_start m /\ saved_as [2; 1] [4; 8] 2 r_fields tt m F /\
    loaded_as 0 (fun _ _ => true) [2; 1] [4; 8] 2 r_fields tt F (fun _ => 0) m' /\
    r_run [r_step] m e /\ r_run [r_step] m' e' /\ ~ agree [2; 1] [4; 8] [2; 1] [4; 8] 2 [0%nat] e e'.
Proof.
  intros Hw (Q & HQ & Hne). pose proof (r_setting Hw) as HS. destruct (set_ok _ _ _ _ _ _ _ _ _ _ _ _ _ _ _ _ _ _ _ _ HS) as (Hok & Hg & _).
  assert (Hh : Forall (ns2_step_ok 0 (global_size [2; 1] [4; 8]) 0 2 3 4 5) [r_step]) by (constructor; [exact r_step_ok|constructor]).
  assert (R0 : represents_ext false [2; 1] [4; 8] 2 [0; 1; 2; 3]%nat r_start r_u) by (intros r f I _ _ _ _; reflexivity).
  assert (RUN : forall mm, exists m1, r_run [r_step] mm m1).
  { intros mm. apply NSThms.history_exists.
    - intros s m1 _. apply NSThms.between_exists; [exact Hok|lia|]. intros f [<-|[<-|[]]]; cbn; lia.
    - intros s m1 [<-|[]]. eapply (NSThms.step2_ends Z.add 0 (fun _ _ v => v) (fun _ i => i) width (fun v => v) r_cx r_cy); [exact HS|]. eapply NSThms.shapes2. exact r_step_ok. }
  destruct (RUN r_start) as (m & Hm). pose proof (NSThms.hist2 Z.add 0 _ _ width _ r_cx r_cy _ _ _ _ _ _ _ _ _ _ _ _ _ _ _ _ _ HS [r_step] _ _ _ Hh R0 Hm) as R1.
  change (global_size [2; 1] [4; 8]) with [8; 8] in R1. fold r_serial in R1. fold r_saved in R1.
  set (F := saved r_fields tt (all_writes [2; 1] [4; 8] 2 r_fields m)).
  assert (HF : saved_as [2; 1] [4; 8] 2 r_fields tt m F) by (exists (all_writes [2; 1] [4; 8] 2 r_fields m); split; [apply Permutation_refl|reflexivity]).
  assert (ND : NoDup (flat_map arrays_of r_fields)) by (repeat constructor; simpl; intuition congruence).
  destruct (reload_ok 0 (fun _ _ : unit => true) [2; 1] [4; 8] 2 r_fields m tt F [2; 1] [4; 8] 2 r_fields tt (fun _ => 0) Hok Hok eq_refl ltac:(lia) (fresh2 _ _ _) ND) as (m' & HL); auto.
  { intros f' Hf'. exists f'. split; auto. destruct f'; cbn; auto. }
  pose proof (reload_ext 0 (fun _ _ : unit => true) [2; 1] [4; 8] 2 r_fields m tt F [2; 1] [4; 8] r_fields tt (fun _ => 0) m' [0; 1; 2; 3]%nat r_saved (fun _ _ => 0) Hok Hok eq_refl ltac:(lia) (fresh2 _ _ _) ND) as R2.
  specialize (R2 ltac:(intros f' Hf'; exists f'; repeat split; auto; destruct f'; cbn; auto) ltac:(intros a Ha; cbn in *; tauto) HF HL R1 ltac:(intros r f I _ _ _ _; reflexivity)).
  change (global_size [2; 1] [4; 8]) with [8; 8] in R2. change (flat_map arrays_of r_fields) with [0; 2; 3]%nat in R2. fold r_loaded in R2.
  destruct (RUN m) as (e & He). destruct (RUN m') as (e' & He').
  pose proof (NSThms.hist2 Z.add 0 _ _ width _ r_cx r_cy _ _ _ _ _ _ _ _ _ _ _ _ _ _ _ _ _ HS [r_step] _ _ _ Hh R1 He) as R3.
  pose proof (NSThms.hist2 Z.add 0 _ _ width _ r_cx r_cy _ _ _ _ _ _ _ _ _ _ _ _ _ _ _ _ _ HS [r_step] _ _ _ Hh R2 He') as R4.
  change (global_size [2; 1] [4; 8]) with [8; 8] in R3, R4. fold r_serial in R3, R4.
  exists m, F, m', e, e'. repeat (split; [assumption|]). intros A. apply Hne.
  destruct (IoEulProofs.tile_at [2; 1] [4; 8] Q Hok HQ) as (r & x & Hr & Hx & ->).
  specialize (A r x r x 0%nat Hr Hx Hr Hx (or_introl eq_refl) eq_refl).
  pose proof (ext_inside _ _ _ _ _ _ Hg Hok R3 r 0%nat x Hr (or_introl eq_refl) Hx) as E3.
  pose proof (ext_inside _ _ _ _ _ _ Hg Hok R4 r 0%nat x Hr (or_introl eq_refl) Hx) as E4.
  exact (eq_trans (eq_sym E3) (eq_trans A E4)).
Qed.
End I2.
Lemma narrow2_2 : fold_left (r_serial 2) [r_step] (r_saved 2) 0%nat [3; 1] <> fold_left (r_serial 2) [r_step] (r_loaded 2) 0%nat [3; 1].
Proof. vm_compute. discriminate. Qed.
Lemma narrow2_3 : fold_left (r_serial 3) [r_step] (r_saved 3) 0%nat [3; 2] <> fold_left (r_serial 3) [r_step] (r_loaded 3) 0%nat [3; 2].
Proof. vm_compute. discriminate. Qed.

(** *** 3D: two ranks, blocks of 4 x 8 x 8 cells *)
Section I3.
Variables (width : Z) (filt : option (filter_type * nat * Z)).
Definition q_xg : Z -> nat -> Z -> Z := fun r a i => nth a (block_start [1; 2; 1] [8; 4; 8] r) 0 + (i - 2).
Definition q_c (f : nat) (rd : nat -> list Z -> Z) (_ : Z) : Z := rd f [1; 0; 0] - rd f [-1; 0; 0].
Definition q_x (f f' : nat) (rd : nat -> list Z -> Z) (_ : Z) : Z := rd f [0; 0; 0] * rd f' [0; 0; 0].
Definition q_u (f : nat) (rd : nat -> list Z -> Z) (old : Z) : Z := old + rd f [1; 0; 0] - rd f [-1; 0; 0].
Definition q_step : @ns3_step Z := {| n3_crs := (q_x 0 6, q_x 1 7, q_x 2 8); n3_upd := (q_u 12, q_u 13, q_u 14); n3_dif := q_c; n3_frc := None; n3_free := Some (1, 0, 0) |}.
Definition q_lap (a b c : Z) : Z := a - 2 * b + c.
Ltac is_star3 := match goal with
  | |- star _ _ [0; ?a; 0] => exists 1%nat, a | |- star _ _ [?a; 0; 0] => exists 0%nat, a end;
  split; [simpl; lia|split; [simpl; lia|reflexivity]].
Ltac local3 := intros rd rd' o E; unfold q_c, q_x, q_u; rewrite !E; auto; try (simpl; auto; fail); try (simpl; tauto); is_star3.
Definition q_serial := serial_ns_3d Z.add 0 (fun _ _ v => v) (fun _ i => i) width (fun v => v) (q_c 3) (q_c 4) (q_c 5) q_lap Z.sub filt [8; 8; 8]
  0 1 2 3 4 5 6 7 8 12 13 14 9 10 11.
Definition q_run := history [1; 2; 1] (fun sr => time_step_3d Z.add 0 (fun _ _ v => v) (fun v => v) q_lap Z.sub filt 1 2 1 8 4 8 2 false width q_xg
    0 1 2 3 4 5 6 7 8 9 10 11 12 13 14 15 16 17 (q_c 3) (q_c 4) (q_c 5) (snd sr) (fst sr))
  (fun sr : ns3_step * (Z -> nat -> list Z -> Z) => between 0 [1; 2; 1] [8; 4; 8] 2 [0; 1; 2; 3; 4; 5; 6; 7; 8]%nat [9; 10; 11]%nat (forcing_of (n3_frc (fst sr)))).
Lemma q_setting : 1 <= width <= 4 -> match filt with Some (_, order, bw) => (1 <= order)%nat /\ 1 <= bw <= 4 | None => True end ->
  ns3_setting 1 2 1 8 4 8 2 width filt q_xg (fun _ i => i) 0 1 2 3 4 5 6 7 8 9 10 11 12 13 14 15 16 17 (q_c 3) (q_c 4) (q_c 5).
Proof.
  intros Hw Hf. split.
  - unfold grid3; lia.
  - lia.
  - lia.
  - repeat constructor; lia.
  - intros r a i Hr Ha Hi. reflexivity.
  - repeat constructor; simpl; intuition congruence.
  - intros K [<-|[<-|[<-|[]]]]; (split; [local3|intros rd o o'; reflexivity]).
  - destruct filt as [[[ft o] bw]|]; auto. lia.
Qed.
Lemma q_step_ok : ns3_step_ok 0 (global_size [1; 2; 1] [8; 4; 8]) [0; 1; 2]%nat [6; 7; 8]%nat [12; 13; 14]%nat [9; 10; 11]%nat q_step.
Proof.
  split; [|split; [|split]]; cbn [n3_crs n3_upd n3_dif n3_frc q_step]; [| | |exact I].
  - intros K [<-|[<-|[<-|[]]]]; (split; [local3|intros rd o o'; reflexivity]).
  - intros K [<-|[<-|[<-|[]]]]; local3.
  - intros c Hc; (split; [local3|intros rd o o'; reflexivity]).
Qed.
Definition q_start : mem Z := fun ra => if (fst (snd ra) <? 3)%nat then 1 else 0.
Definition q_u0 (f : nat) (Q : list Z) : Z := if (f <? 3)%nat then 1 else 0.
Definition q_fields := [EVector "vorticity" [0%nat; 1%nat; 2%nat]; EVector "velocity" [6%nat; 7%nat; 8%nat]].
Definition q_saved := fold_left q_serial [q_step] q_u0.
Definition q_loaded (f : nat) (Q : list Z) : Z := if inbb [8; 8; 8] Q && (if in_dec Nat.eq_dec f [0; 1; 2; 6; 7; 8]%nat then true else false) then q_saved f Q else 0.
Notation qs := ([(q_step, fun _ _ _ => 0)] : list (ns3_step * (Z -> nat -> list Z -> Z))).

Lemma narrow3 : 1 <= width <= 4 -> match filt with Some (_, order, bw) => (1 <= order)%nat /\ 1 <= bw <= 4 | None => True end ->
  (exists Q, inb [8; 8; 8] Q /\ fold_left q_serial [q_step] q_saved 0%nat Q <> fold_left q_serial [q_step] q_loaded 0%nat Q) ->
  exists m F m' e e', q_run qs q_start m /\ saved_as [1; 2; 1] [8; 4; 8] 2 q_fields tt m F /\
    loaded_as 0 (fun _ _ => true) [1; 2; 1] [8; 4; 8] 2 q_fields tt F (fun _ => 0) m' /\
    q_run qs m e /\ q_run qs m' e' /\ ~ agree [1; 2; 1] [8; 4; 8] [1; 2; 1] [8; 4; 8] 2 [0%nat] e e'.
Proof.
  intros Hw Hfl (Q & HQ & Hne). pose proof (q_setting Hw Hfl) as HS. destruct (set_ok3 _ _ _ _ _ _ _ _ _ _ _ _ _ _ _ _ _ _ _ _ _ _ _ _ _ _ _ _ _ _ _ _ HS) as (Hok & Hg & _).
  assert (Hh : Forall (fun sr : ns3_step * (Z -> nat -> list Z -> Z) => ns3_step_ok 0 (global_size [1; 2; 1] [8; 4; 8]) [0; 1; 2]%nat [6; 7; 8]%nat [12; 13; 14]%nat [9; 10; 11]%nat (fst sr)) qs) by (constructor; [exact q_step_ok|constructor]).
  assert (R0 : represents_ext false [1; 2; 1] [8; 4; 8] 2 [0; 1; 2; 3; 4; 5; 6; 7; 8]%nat q_start q_u0) by (intros r f I _ _ _ _; reflexivity).
  assert (RUN : forall mm, exists m1, q_run qs mm m1).
  { intros mm. apply NSThms.history_exists.
    - intros s m1 _. apply NSThms.between_exists; [exact Hok|lia|]. intros f [<-|[<-|[<-|[]]]]; cbn; lia.
    - intros s m1 [<-|[]]. eapply (NSThms.step3_ends Z.add 0 (fun _ _ v => v) (fun _ i => i) width (fun v => v) (q_c 3) (q_c 4) (q_c 5)); [exact HS|]. eapply NSThms.shapes3. exact q_step_ok. }
  destruct (RUN q_start) as (m & Hm).
  pose proof (NSThms.hist3 Z.add 0 _ _ width _ (q_c 3) (q_c 4) (q_c 5) q_lap Z.sub filt _ _ _ _ _ _ _ _ _ _ _ _ _ _ _ _ _ _ _ _ _ _ _ _ _ _ _ HS qs _ _ _ Hh R0 Hm) as R1.
  change (global_size [1; 2; 1] [8; 4; 8]) with [8; 8; 8] in R1. cbn [map fst] in R1. fold q_serial in R1. fold q_saved in R1.
  set (F := saved q_fields tt (all_writes [1; 2; 1] [8; 4; 8] 2 q_fields m)).
  assert (HF : saved_as [1; 2; 1] [8; 4; 8] 2 q_fields tt m F) by (exists (all_writes [1; 2; 1] [8; 4; 8] 2 q_fields m); split; [apply Permutation_refl|reflexivity]).
  assert (ND : NoDup (flat_map arrays_of q_fields)) by (repeat constructor; simpl; intuition congruence).
  destruct (reload_ok 0 (fun _ _ : unit => true) [1; 2; 1] [8; 4; 8] 2 q_fields m tt F [1; 2; 1] [8; 4; 8] 2 q_fields tt (fun _ => 0) Hok Hok eq_refl ltac:(lia) (fresh3 _ _ _ _ _ _) ND) as (m' & HL); auto.
  { intros f' Hf'. exists f'. split; auto. destruct f'; cbn; auto. }
  pose proof (reload_ext 0 (fun _ _ : unit => true) [1; 2; 1] [8; 4; 8] 2 q_fields m tt F [1; 2; 1] [8; 4; 8] q_fields tt (fun _ => 0) m' [0; 1; 2; 3; 4; 5; 6; 7; 8]%nat q_saved (fun _ _ => 0) Hok Hok eq_refl ltac:(lia) (fresh3 _ _ _ _ _ _) ND) as R2.
  specialize (R2 ltac:(intros f' Hf'; exists f'; repeat split; auto; destruct f'; cbn; auto) ltac:(intros a Ha; cbn in *; tauto) HF HL R1 ltac:(intros r f I _ _ _ _; reflexivity)).
  change (global_size [1; 2; 1] [8; 4; 8]) with [8; 8; 8] in R2. change (flat_map arrays_of q_fields) with [0; 1; 2; 6; 7; 8]%nat in R2. fold q_loaded in R2.
  destruct (RUN m) as (e & He). destruct (RUN m') as (e' & He').
  pose proof (NSThms.hist3 Z.add 0 _ _ width _ (q_c 3) (q_c 4) (q_c 5) q_lap Z.sub filt _ _ _ _ _ _ _ _ _ _ _ _ _ _ _ _ _ _ _ _ _ _ _ _ _ _ _ HS qs _ _ _ Hh R1 He) as R3.
  pose proof (NSThms.hist3 Z.add 0 _ _ width _ (q_c 3) (q_c 4) (q_c 5) q_lap Z.sub filt _ _ _ _ _ _ _ _ _ _ _ _ _ _ _ _ _ _ _ _ _ _ _ _ _ _ _ HS qs _ _ _ Hh R2 He') as R4.
  change (global_size [1; 2; 1] [8; 4; 8]) with [8; 8; 8] in R3, R4. cbn [map fst] in R3, R4. fold q_serial in R3, R4.
  exists m, F, m', e, e'. repeat (split; [assumption|]). intros A. apply Hne.
  destruct (IoEulProofs.tile_at [1; 2; 1] [8; 4; 8] Q Hok HQ) as (r & x & Hr & Hx & ->).
  specialize (A r x r x 0%nat Hr Hx Hr Hx (or_introl eq_refl) eq_refl).
  pose proof (ext_inside _ _ _ _ _ _ Hg Hok R3 r 0%nat x Hr (or_introl eq_refl) Hx) as E3.
  pose proof (ext_inside _ _ _ _ _ _ Hg Hok R4 r 0%nat x Hr (or_introl eq_refl) Hx) as E4.
  exact (eq_trans (eq_sym E3) (eq_trans A E4)).
Qed.
End I3.
Lemma narrow3_2 : fold_left (q_serial 2 None) [q_step] (q_saved 2 None) 0%nat [1; 3; 3] <> fold_left (q_serial 2 None) [q_step] (q_loaded 2 None) 0%nat [1; 3; 3].
Proof. vm_compute. discriminate. Qed.
Lemma narrow3_3 : fold_left (q_serial 3 (Some (Convolution, 1%nat, 1))) [q_step] (q_saved 3 (Some (Convolution, 1%nat, 1))) 0%nat [2; 3; 3] <> fold_left (q_serial 3 (Some (Convolution, 1%nat, 1))) [q_step] (q_loaded 3 (Some (Convolution, 1%nat, 1))) 0%nat [2; 3; 3].
Proof. vm_compute. discriminate. Qed.
