(** Histories of explicit time steps. *)
From Verif Require Import Base SpecGrid SpecGhost SpecStencil SpecStep Cart CartFacts Comm Spmd GhostGeo Ghost2D Ghost3D GhostProofs FieldProofs Stencil StencilProofs HaloProofs HaloKernels HaloThms KernelList KernelProofs TimeStep StepProofs.
Arguments run_lops : simpl never.
Arguments addr_eq : simpl never.
Arguments place_dec : simpl never.

(** *** A sequence of programs that each act as a function of the global arrays *)
Section Steps.
Context {T : Type}.
Definition good_step (per : bool) dims loc g Fs (ps : list (@phase T)) (S : (nat -> list Z -> T) -> nat -> list Z -> T) : Prop :=
  Forall (phase_ok (zprod dims)) ps /\
  forall m u, represents_ext per dims loc g Fs m u -> represents_ext per dims loc g Fs (den (zprod dims) ps m) (S u).

Lemma good_step_app per dims loc g Fs p1 p2 S1 S2 : good_step per dims loc g Fs p1 S1 -> good_step per dims loc g Fs p2 S2 ->
  good_step per dims loc g Fs (p1 ++ p2) (fun u => S2 (S1 u)).
Proof. intros [A1 B1] [A2 B2]. split; [now apply Forall_app|]. intros m u H. rewrite den_app. auto. Qed.
Lemma good_step_fold {A} per dims loc g Fs (P : A -> list (@phase T)) S l :
  Forall (fun a => good_step per dims loc g Fs (P a) (S a)) l ->
  good_step per dims loc g Fs (flat_map P l) (fun u => fold_left (fun u a => S a u) l u).
Proof.
  induction 1 as [|a l Ha Hl IH]; simpl; [split; [constructor|auto]|].
  exact (good_step_app per dims loc g Fs _ _ (S a) _ Ha IH).
Qed.
Lemma good_step_ends per dims loc g Fs ps S (m : mem T) u : good_step per dims loc g Fs ps S -> represents_ext per dims loc g Fs m u ->
  exists m', spmd_ends (zprod dims) ps m m' /\ represents_ext per dims loc g Fs m' (S u).
Proof. intros [A B] H. exists (den (zprod dims) ps m). split; [now apply spmd_safe|auto]. Qed.

Lemma ext_agree per dims loc dims' loc' g Fs (m m' : mem T) u : 1 <= g -> grid_ok dims loc -> grid_ok dims' loc' ->
  represents_ext per dims loc g Fs m u -> represents_ext per dims' loc' g Fs m' u -> agree dims loc dims' loc' g Fs m m'.
Proof.
  intros Hg Hok Hok' H H' r x r' x' f Hr Hx Hr' Hx' Hf E.
  assert (G : forall d l rr y, grid_ok d l -> inb l y -> ghost_pos d l g rr (map (fun i => i + g) y) = vadd (block_start d l rr) y).
  { intros d l rr y _ _. unfold ghost_pos. rewrite map_map. rewrite (map_ext _ (fun x => x)) by (intros; lia). now rewrite map_id. }
  rewrite H, H'; auto; try (left; now apply add_inner); try (apply inner_inb; [lia|now apply add_inner]).
  rewrite !G; auto. now rewrite E.
Qed.
End Steps.

(** *** Ghost cells outside the domain *)
Lemma owner_none per dims loc g r I : length I = length loc -> length loc = length dims ->
  owner per dims loc (ghost_pos dims loc g r I) = None ->
  per = false /\ Exists (fun ab => fst ab < 0 \/ snd ab <= fst ab) (combine (ghost_pos dims loc g r I) (global_size dims loc)).
Proof.
  intros Hl Hl' H. unfold owner in H. destruct (wrapv per _ _) eqn:E; [discriminate|].
  pose proof (wrapv_none_per _ _ _ E). subst. split; auto.
  assert (HL : length (ghost_pos dims loc g r I) = length (global_size dims loc)).
  { unfold ghost_pos, block_start, global_size. rewrite vadd_length; rewrite ?vmul_length; rewrite ?unravel_length, ?map_length; lia. }
  revert HL E. generalize (ghost_pos dims loc g r I) (global_size dims loc). intros P N. revert P.
  induction N as [|n N IH]; intros [|p P] HL E; simpl in *; try discriminate.
  unfold wrap in E. destruct ((0 <=? p) && (p <? n)) eqn:Eb.
  - right. apply IH; [lia|]. destruct (wrapv false N P); [discriminate|auto].
  - left. simpl. apply andb_false_iff in Eb. rewrite Z.leb_gt, Z.ltb_ge in Eb. auto.
Qed.

(** One axis of a ghost cell outside the domain. *)
Lemma axis_out d n g c i : 0 <= c < d -> 1 <= g <= n -> 0 <= i < n + 2 * g ->
  (c * n + (i - g) < 0 <-> c = 0 /\ i < g) /\ (d * n <= c * n + (i - g) <-> c = d - 1 /\ n + g <= i).
Proof.
  intros Hc Hg Hi. split; split; intros H.
  - assert (c = 0) by nia. subst. lia.
  - destruct H; subst. lia.
  - assert (c = d - 1) by nia. subst. split; lia.
  - destruct H; subst. lia.
Qed.
Lemma STo_out g n i : 1 <= g <= n -> 0 <= i < g -> slice_in 0 (n + 2 * g) (STo (g + 1)) i = true.
Proof.
  intros. unfold slice_in. simpl. unfold py_start. replace (g + 1 <? 0) with false by (symmetry; apply Z.ltb_ge; lia).
  rewrite andb_true_iff, Z.leb_le, Z.ltb_lt. lia.
Qed.
Lemma SFrom_out g n i : 1 <= g <= n -> n + g <= i < n + 2 * g -> slice_in 0 (n + 2 * g) (SFrom (- g - 1)) i = true.
Proof.
  intros. unfold slice_in. simpl. unfold py_start. replace (- g - 1 <? 0) with true by (symmetry; apply Z.ltb_lt; lia).
  rewrite andb_true_iff, Z.leb_le, Z.ltb_lt. lia.
Qed.
Lemma SAll_out n i : 0 <= i < n -> slice_in 0 n SAll i = true.
Proof. intros. unfold slice_in. simpl. rewrite andb_true_iff, Z.leb_le, Z.ltb_lt. lia. Qed.

Lemma zeroed2_out per py px ny nx g r I : grid2 py px ny nx g -> 0 <= r < zprod [py; px] -> inb (ghosted g [ny; nx]) I ->
  owner per [py; px] [ny; nx] (ghost_pos [py; px] [ny; nx] g r I) = None ->
  zeroed [ny; nx] g (zeroed2 per py px g) r I = true.
Proof.
  intros (A & B & C & D & E) Hr HI Ho. apply owner_none in Ho as [-> Ho]; [|apply inb_length in HI; exact HI|reflexivity].
  assert (Hpos : positive [py; px]) by (repeat constructor; lia).
  pose proof (unravel_inb [py; px] r Hpos Hr) as Hc.
  pose proof (axis_none false [py; px] r 0 Hpos ltac:(simpl; lia) Hr) as [N0 N1].
  pose proof (axis_none false [py; px] r 1 Hpos ltac:(simpl; lia) Hr) as [N2 N3].
  unfold zeroed, zeroed2, zero_views2. rewrite !existsb_app', !orb_true_iff, !ifnone, N0, N1, N2, N3. clear N0 N1 N2 N3.
  unfold ghost_pos, block_start, global_size in Ho. revert Hc Ho. generalize (unravel [py; px] r). intros cs Hc.
  inversion Hc as [|? ? c0 C0 Hc0 HC0]; subst. inversion HC0 as [|? ? c1 C1 Hc1 HC1]; subst. inversion HC1; subst.
  inversion HI as [|? ? i0 I0 H0 HI0]; subst. inversion HI0 as [|? ? i1 I1 H1 HI1]; subst. inversion HI1; subst.
  simpl. intros Ho. rewrite !Exists_cons, Exists_nil in Ho. simpl in Ho.
  destruct (axis_out py ny g c0 i0 Hc0 ltac:(lia) H0) as [P0 Q0]. destruct (axis_out px nx g c1 i1 Hc1 ltac:(lia) H1) as [P1 Q1].
  rewrite P0, Q0, P1, Q1 in Ho. rewrite !SAll_out by lia.
  destruct Ho as [[[-> Hi]|[-> Hi]]|[[[-> Hi]|[-> Hi]]|[]]].
  - right. right. left. split; auto. rewrite STo_out by lia. reflexivity.
  - right. right. right. split; auto. rewrite SFrom_out by lia. reflexivity.
  - left. split; auto. rewrite STo_out by lia. reflexivity.
  - right. left. split; auto. rewrite SFrom_out by lia. reflexivity.
Qed.

Lemma zeroed3_out per pz py px n0 n1 n2 g r I : grid3 pz py px n0 n1 n2 g -> 0 <= r < zprod [pz; py; px] -> inb (ghosted g [n0; n1; n2]) I ->
  owner per [pz; py; px] [n0; n1; n2] (ghost_pos [pz; py; px] [n0; n1; n2] g r I) = None ->
  zeroed [n0; n1; n2] g (zeroed3 per pz py px g) r I = true.
Proof.
  intros (A & B & C & D & E & F & G) Hr HI Ho. apply owner_none in Ho as [-> Ho]; [|apply inb_length in HI; exact HI|reflexivity].
  assert (Hpos : positive [pz; py; px]) by (repeat constructor; lia).
  pose proof (unravel_inb [pz; py; px] r Hpos Hr) as Hc.
  pose proof (axis_none false [pz; py; px] r 0 Hpos ltac:(simpl; lia) Hr) as [N0 N1].
  pose proof (axis_none false [pz; py; px] r 1 Hpos ltac:(simpl; lia) Hr) as [N2 N3].
  pose proof (axis_none false [pz; py; px] r 2 Hpos ltac:(simpl; lia) Hr) as [N4 N5].
  unfold zeroed, zeroed3, zero_views3. rewrite !existsb_app', !orb_true_iff, !ifnone, N0, N1, N2, N3, N4, N5. clear N0 N1 N2 N3 N4 N5.
  unfold ghost_pos, block_start, global_size in Ho. revert Hc Ho. generalize (unravel [pz; py; px] r). intros cs Hc.
  inversion Hc as [|? ? c0 C0 Hc0 HC0]; subst. inversion HC0 as [|? ? c1 C1 Hc1 HC1]; subst. inversion HC1 as [|? ? c2 C2 Hc2 HC2]; subst. inversion HC2; subst.
  inversion HI as [|? ? i0 I0 H0 HI0]; subst. inversion HI0 as [|? ? i1 I1 H1 HI1]; subst. inversion HI1 as [|? ? i2 I2 H2 HI2]; subst. inversion HI2; subst.
  simpl. intros Ho. rewrite !Exists_cons, Exists_nil in Ho. simpl in Ho.
  destruct (axis_out pz n0 g c0 i0 Hc0 ltac:(lia) H0) as [P0 Q0]. destruct (axis_out py n1 g c1 i1 Hc1 ltac:(lia) H1) as [P1 Q1].
  destruct (axis_out px n2 g c2 i2 Hc2 ltac:(lia) H2) as [P2 Q2].
  rewrite P0, Q0, P1, Q1, P2, Q2 in Ho. rewrite !SAll_out by lia.
  destruct Ho as [[[-> Hi]|[-> Hi]]|[[[-> Hi]|[-> Hi]]|[[[-> Hi]|[-> Hi]]|[]]]].
  - do 4 right. left. split; auto. rewrite STo_out by lia. reflexivity.
  - do 5 right. split; auto. rewrite SFrom_out by lia. reflexivity.
  - do 2 right. left. split; auto. rewrite STo_out by lia. reflexivity.
  - do 3 right. left. split; auto. rewrite SFrom_out by lia. reflexivity.
  - left. split; auto. rewrite STo_out by lia. reflexivity.
  - right. left. split; auto. rewrite SFrom_out by lia. reflexivity.
Qed.

(** With ghost size = radius the kernel passes never leave the inner cells. *)
Lemma none_not_inner per dims loc g r I : grid_ok dims loc -> 0 <= r < zprod dims -> owner per dims loc (ghost_pos dims loc g r I) = None -> ~ inner g loc I.
Proof.
  intros Hok Hr Ho HI. destruct (sub_ok g loc I HI) as (x & Hx & ->).
  unfold ghost_pos in Ho. rewrite map_map in Ho. rewrite (map_ext _ (fun x => x)) in Ho by (intros; lia). rewrite map_id in Ho.
  unfold owner in Ho. rewrite wrapv_in in Ho by (now apply pos_inb). discriminate.
Qed.
Lemma side_slices g n s i : 1 <= g -> g <= n -> In s [SAll; IN g; LO g g; HI g g (n + 2 * g)] -> slice_in g (n + 2 * g) s i = true -> g <= i < n + g.
Proof.
  intros Hg Hn Hs. simpl in Hs. destruct Hs as [<-|[<-|[<-|[<-|[]]]]]; rewrite ?IN_in, ?LO_in, ?HI_in by lia;
    try (rewrite andb_true_iff, Z.leb_le, Z.ltb_lt; lia). unfold slice_in. simpl. rewrite andb_true_iff, Z.leb_le, Z.ltb_lt. lia.
Qed.
Lemma view_inner g loc v I : view_in g (ghosted g loc) v I = true -> 1 <= g -> Forall (fun n => g <= n) loc ->
  Forall2 (fun n s => In s [SAll; IN g; LO g g; HI g g (n + 2 * g)]) loc v -> inner g loc I.
Proof.
  unfold inner. intros H Hg Hf H2. revert I H Hf. induction H2 as [|n s loc v Hs H2 IH]; intros [|i I] H Hf; simpl in *; try discriminate; [constructor|].
  apply andb_true_iff in H as [H1 H3]. inversion Hf; subst. constructor; [|now apply IH].
  pose proof (side_slices g n s i Hg ltac:(auto) Hs H1). lia.
Qed.
Lemma passes_out g loc strips I : 1 <= g -> Forall (fun n => g <= n) loc -> ~ inner g loc I ->
  Forall (Forall2 (fun n s => In s [SAll; IN g; LO g g; HI g g (n + 2 * g)]) loc) strips ->
  passes loc g g strips I = 0%nat.
Proof.
  intros Hg Hf Hn Hs. unfold passes.
  assert (Hv : forall v, Forall2 (fun n s => In s [SAll; IN g; LO g g; HI g g (n + 2 * g)]) loc v -> view_in g (ghosted g loc) v I = false).
  { intros v Hv. destruct (view_in _ _ _ _) eqn:E; auto. exfalso. apply Hn. eapply view_inner; eauto. }
  rewrite Hv; simpl.
  - induction Hs as [|v V H1 H2 IH]; simpl; auto. now rewrite Hv.
  - clear. induction loc; simpl; constructor; simpl; auto.
Qed.
Lemma passes2_out ny nx g I : 1 <= g -> g <= ny /\ g <= nx -> ~ inner g [ny; nx] I ->
  passes [ny; nx] g g (strips2 g g (shape0 ny g) (shape1 nx g)) I = 0%nat.
Proof.
  intros Hg [Hy Hx] Hn. apply passes_out; auto. unfold strips2, shape0, shape1.
  repeat first [apply Forall_nil | apply Forall_cons | apply Forall2_nil | apply Forall2_cons]; try lia; simpl; auto.
Qed.
Lemma passes3_out n0 n1 n2 g I : 1 <= g -> g <= n0 /\ g <= n1 /\ g <= n2 -> ~ inner g [n0; n1; n2] I ->
  passes [n0; n1; n2] g g (strips3 g g (s0 n0 g) (s1 n1 g) (s2 n2 g)) I = 0%nat.
Proof.
  intros Hg (Hz & Hy & Hx) Hn. apply passes_out; auto. unfold strips3, s0, s1, s2.
  repeat first [apply Forall_nil | apply Forall_cons | apply Forall2_nil | apply Forall2_cons]; try lia; simpl; auto.
Qed.

(** *** The time steps *)
Section TS.
Context {T : Type}.
Variables (add : T -> T -> T) (z : T) (per : bool).
Notation serial_tstep := (serial_tstep add z per).

Lemma tstep_2d_good py px ny nx g full buf vx vy Fs s : grid2 py px ny nx g -> ~ In buf Fs -> incl [vx; vy] Fs ->
  tstep_ok [ny; nx] g Fs [vx; vy] s ->
  good_step per [py; px] [ny; nx] g Fs (tstep_2d add z per py px ny nx g full buf vx vy s) (serial_tstep (global_size [py; px] [ny; nx]) s).
Proof.
  intros G Hbuf Hv Hs. pose proof G as (A & B & C & D & E). destruct s as [fld K|fld K]; simpl in Hs.
  - destruct Hs as (Hf & HK & -> & H4). inversion H4 as [|? ? H4y H4']; subst. inversion H4' as [|? ? H4x _]; subst.
    assert (Hinc : incl [fld; vx; vy] Fs) by (intros f [<-|Hf']; auto).
    assert (Hb : ~ In buf [fld; vx; vy]) by (intros H; apply Hbuf; now apply Hinc).
    set (prog := [PLoc (fun _ => set_lops (ghosted 2 [ny; nx]) [buf] z [SAll; SAll])] ++
      halo [ny; nx] 2 2 (all_copies (zprod [py; px]) (exchange2 per py px ny nx 2 full [fld; vx; vy])) [(buf, K)]
        (strips2 2 2 (shape0 ny 2) (shape1 nx 2)) (fun _ => []) z ++ [PLoc (fun _ => sum_lops add (ghosted 2 [ny; nx]) fld buf)]).
    change (tstep_2d add z per py px ny nx 2 full buf vx vy (Adv fld K)) with prog. unfold prog.
    assert (Hz : forall r : Z, Forall (fun v : list pslice => length v = length (ghosted 2 [ny; nx])) []) by constructor.
    eapply (whole_good per [py; px] [ny; nx] 2 2 [fld; vx; vy]) with (reset := false); eauto using g2_ok; try lia.
    + now apply exch2_facts.
    + repeat constructor.
    + intros r I Hr HI Ho. right. apply passes2_out; auto; try lia. eapply none_not_inner; eauto using g2_ok.
    + intros x Hx. left. apply passes2; auto; try lia. now apply add_inner.
    + simpl; auto.
  - destruct Hs as (Hf & HK & Ho).
    assert (Hinc : incl [fld] Fs) by (intros f [<-|[]]; auto).
    assert (Hb : ~ In buf [fld]) by (intros H; apply Hbuf; now apply Hinc).
    set (prog := [] ++ halo [ny; nx] g 1 (all_copies (zprod [py; px]) (exchange2 per py px ny nx g full [fld])) [(buf, K)]
        (strips2 g 1 (shape0 ny g) (shape1 nx g)) (zeroed2 per py px g) z ++ [PLoc (fun _ => sum_lops add (ghosted g [ny; nx]) fld buf)]).
    change (tstep_2d add z per py px ny nx g full buf vx vy (Dif fld K)) with prog. unfold prog.
    assert (Hz : forall r : Z, Forall (fun v : list pslice => length v = length (ghosted g [ny; nx])) (zeroed2 per py px g r)).
    { intros r. unfold zeroed2, zero_views2. rewrite !Forall_app. repeat split; apply ifF; reflexivity. }
    eapply (whole_good per [py; px] [ny; nx] g 1 [fld]) with (reset := true); eauto using g2_ok; try lia.
    + now apply exch2_facts.
    + repeat constructor.
    + intros r x Hr Hx. apply Bool.eq_true_iff_eq. cbn [andb]. rewrite edgeb_spec. apply boundary2; auto.
    + intros r I Hr HI Ho'. left. now apply zeroed2_out.
    + intros x Hx. right. split; auto. apply passes2; auto; try lia. now apply add_inner.
    + simpl; auto.
    + left. split; [reflexivity|]. split; [exact Ho|]. intros. now apply zeroed2_out.
Qed.

Lemma tstep_3d_good pz py px n0 n1 n2 g full buf vx vy vz Fs s : grid3 pz py px n0 n1 n2 g -> ~ In buf Fs -> incl [vx; vy; vz] Fs ->
  tstep_ok [n0; n1; n2] g Fs [vx; vy; vz] s ->
  good_step per [pz; py; px] [n0; n1; n2] g Fs (tstep_3d add z per pz py px n0 n1 n2 g full buf vx vy vz s) (serial_tstep (global_size [pz; py; px] [n0; n1; n2]) s).
Proof.
  intros G Hbuf Hv Hs. pose proof G as (A & B & C & D & E & E1 & E2). destruct s as [fld K|fld K]; simpl in Hs.
  - destruct Hs as (Hf & HK & -> & H4). inversion H4 as [|? ? H4z H4']; subst. inversion H4' as [|? ? H4y H4'']; subst. inversion H4'' as [|? ? H4x _]; subst.
    assert (Hinc : incl [fld; vx; vy; vz] Fs) by (intros f [<-|Hf']; auto).
    assert (Hb : ~ In buf [fld; vx; vy; vz]) by (intros H; apply Hbuf; now apply Hinc).
    set (prog := [PLoc (fun _ => set_lops (ghosted 2 [n0; n1; n2]) [buf] z [SAll; SAll; SAll])] ++
      halo [n0; n1; n2] 2 2 (all_copies (zprod [pz; py; px]) (exchange3 per pz py px n0 n1 n2 2 full [fld; vx; vy; vz])) [(buf, K)]
        (strips3 2 2 (s0 n0 2) (s1 n1 2) (s2 n2 2)) (fun _ => []) z ++ [PLoc (fun _ => sum_lops add (ghosted 2 [n0; n1; n2]) fld buf)]).
    change (tstep_3d add z per pz py px n0 n1 n2 2 full buf vx vy vz (Adv fld K)) with prog. unfold prog.
    assert (Hz : forall r : Z, Forall (fun v : list pslice => length v = length (ghosted 2 [n0; n1; n2])) []) by constructor.
    eapply (whole_good per [pz; py; px] [n0; n1; n2] 2 2 [fld; vx; vy; vz]) with (reset := false); eauto using g3_ok; try lia.
    + apply exch3_facts; auto.
    + repeat constructor.
    + intros r I Hr HI Ho. right. apply passes3_out; auto; try lia. eapply none_not_inner; eauto using g3_ok.
    + intros x Hx. left. apply passes3; auto; try lia. now apply add_inner.
    + simpl; auto.
  - destruct Hs as (Hf & HK & Ho).
    assert (Hinc : incl [fld] Fs) by (intros f [<-|[]]; auto).
    assert (Hb : ~ In buf [fld]) by (intros H; apply Hbuf; now apply Hinc).
    set (prog := [] ++ halo [n0; n1; n2] g 1 (all_copies (zprod [pz; py; px]) (exchange3 per pz py px n0 n1 n2 g full [fld])) [(buf, K)]
        (strips3 g 1 (s0 n0 g) (s1 n1 g) (s2 n2 g)) (zeroed3 per pz py px g) z ++ [PLoc (fun _ => sum_lops add (ghosted g [n0; n1; n2]) fld buf)]).
    change (tstep_3d add z per pz py px n0 n1 n2 g full buf vx vy vz (Dif fld K)) with prog. unfold prog.
    assert (Hz : forall r : Z, Forall (fun v : list pslice => length v = length (ghosted g [n0; n1; n2])) (zeroed3 per pz py px g r)).
    { intros r. unfold zeroed3, zero_views3. rewrite !Forall_app. repeat split; apply ifF; reflexivity. }
    eapply (whole_good per [pz; py; px] [n0; n1; n2] g 1 [fld]) with (reset := true); eauto using g3_ok; try lia.
    + apply exch3_facts; auto.
    + repeat constructor.
    + intros r x Hr Hx. apply Bool.eq_true_iff_eq. cbn [andb]. rewrite edgeb_spec. apply boundary3; auto.
    + intros r I Hr HI Ho'. left. now apply zeroed3_out.
    + intros x Hx. right. split; auto. apply passes3; auto; try lia. now apply add_inner.
    + simpl; auto.
    + left. split; [reflexivity|]. split; [exact Ho|]. intros. now apply zeroed3_out.
Qed.

(** Any history of calls. *)
Lemma history_2d py px ny nx g full buf vx vy Fs hist (m : mem T) u : grid2 py px ny nx g -> ~ In buf Fs -> incl [vx; vy] Fs ->
  Forall (tstep_ok [ny; nx] g Fs [vx; vy]) hist -> represents_ext per [py; px] [ny; nx] g Fs m u ->
  exists m', spmd_ends (zprod [py; px]) (flat_map (tstep_2d add z per py px ny nx g full buf vx vy) hist) m m' /\
    represents_ext per [py; px] [ny; nx] g Fs m' (fold_left (fun u s => serial_tstep (global_size [py; px] [ny; nx]) s u) hist u).
Proof.
  intros G Hb Hv H Hrep. apply (good_step_ends per [py; px] [ny; nx] g Fs _ (fun u => fold_left (fun u s => serial_tstep (global_size [py; px] [ny; nx]) s u) hist u)); auto.
  apply good_step_fold. eapply Forall_impl; [|exact H]. intros s Hs. now apply tstep_2d_good.
Qed.
Lemma history_3d pz py px n0 n1 n2 g full buf vx vy vz Fs hist (m : mem T) u : grid3 pz py px n0 n1 n2 g -> ~ In buf Fs -> incl [vx; vy; vz] Fs ->
  Forall (tstep_ok [n0; n1; n2] g Fs [vx; vy; vz]) hist -> represents_ext per [pz; py; px] [n0; n1; n2] g Fs m u ->
  exists m', spmd_ends (zprod [pz; py; px]) (flat_map (tstep_3d add z per pz py px n0 n1 n2 g full buf vx vy vz) hist) m m' /\
    represents_ext per [pz; py; px] [n0; n1; n2] g Fs m' (fold_left (fun u s => serial_tstep (global_size [pz; py; px] [n0; n1; n2]) s u) hist u).
Proof.
  intros G Hb Hv H Hrep. apply (good_step_ends per [pz; py; px] [n0; n1; n2] g Fs _ (fun u => fold_left (fun u s => serial_tstep (global_size [pz; py; px] [n0; n1; n2]) s u) hist u)); auto.
  apply good_step_fold. eapply Forall_impl; [|exact H]. intros s Hs. now apply tstep_3d_good.
Qed.

(** Two decompositions of the same domain. *)
Lemma independent_2d py px ny nx py' px' ny' nx' g full full' buf vx vy Fs hist (m m' : mem T) u :
  grid2 py px ny nx g -> grid2 py' px' ny' nx' g -> global_size [py; px] [ny; nx] = global_size [py'; px'] [ny'; nx'] ->
  ~ In buf Fs -> incl [vx; vy] Fs ->
  Forall (tstep_ok [ny; nx] g Fs [vx; vy]) hist -> Forall (tstep_ok [ny'; nx'] g Fs [vx; vy]) hist ->
  represents_ext per [py; px] [ny; nx] g Fs m u -> represents_ext per [py'; px'] [ny'; nx'] g Fs m' u ->
  exists e e', spmd_ends (zprod [py; px]) (flat_map (tstep_2d add z per py px ny nx g full buf vx vy) hist) m e /\
    spmd_ends (zprod [py'; px']) (flat_map (tstep_2d add z per py' px' ny' nx' g full' buf vx vy) hist) m' e' /\
    agree [py; px] [ny; nx] [py'; px'] [ny'; nx'] g Fs e e'.
Proof.
  intros G G' HN Hb Hv H H' Hrep Hrep'.
  destruct (history_2d py px ny nx g full buf vx vy Fs hist m u) as (e & E1 & E2); auto.
  destruct (history_2d py' px' ny' nx' g full' buf vx vy Fs hist m' u) as (e' & E1' & E2'); auto.
  exists e, e'. split; auto. split; auto. rewrite <- HN in E2'. eapply ext_agree; eauto using g2_ok. now destruct G as (_ & _ & ? & _).
Qed.
Lemma independent_3d pz py px n0 n1 n2 pz' py' px' n0' n1' n2' g full full' buf vx vy vz Fs hist (m m' : mem T) u :
  grid3 pz py px n0 n1 n2 g -> grid3 pz' py' px' n0' n1' n2' g -> global_size [pz; py; px] [n0; n1; n2] = global_size [pz'; py'; px'] [n0'; n1'; n2'] ->
  ~ In buf Fs -> incl [vx; vy; vz] Fs ->
  Forall (tstep_ok [n0; n1; n2] g Fs [vx; vy; vz]) hist -> Forall (tstep_ok [n0'; n1'; n2'] g Fs [vx; vy; vz]) hist ->
  represents_ext per [pz; py; px] [n0; n1; n2] g Fs m u -> represents_ext per [pz'; py'; px'] [n0'; n1'; n2'] g Fs m' u ->
  exists e e', spmd_ends (zprod [pz; py; px]) (flat_map (tstep_3d add z per pz py px n0 n1 n2 g full buf vx vy vz) hist) m e /\
    spmd_ends (zprod [pz'; py'; px']) (flat_map (tstep_3d add z per pz' py' px' n0' n1' n2' g full' buf vx vy vz) hist) m' e' /\
    agree [pz; py; px] [n0; n1; n2] [pz'; py'; px'] [n0'; n1'; n2'] g Fs e e'.
Proof.
  intros G G' HN Hb Hv H H' Hrep Hrep'.
  destruct (history_3d pz py px n0 n1 n2 g full buf vx vy vz Fs hist m u) as (e & E1 & E2); auto.
  destruct (history_3d pz' py' px' n0' n1' n2' g full' buf vx vy vz Fs hist m' u) as (e' & E1' & E2'); auto.
  exists e, e'. split; auto. split; auto. rewrite <- HN in E2'. eapply ext_agree; eauto using g3_ok. now destruct G as (_ & _ & _ & ? & _).
Qed.

(** The simulators' passive steps. *)
Lemma scalar_calls_ok loc g Fs vel fld steps : In fld Fs -> g = 2 -> Forall (fun n => 4 <= n) loc ->
  Forall (fun Ks => star_local (length loc) (fld :: vel) 2 (fst Ks) /\ star_local (length loc) [fld] 1 (snd Ks) /\ overwrites (snd Ks)) steps ->
  Forall (@tstep_ok T loc g Fs vel) (flat_map (fun Ks => passive_scalar_calls fld (fst Ks) (snd Ks)) steps).
Proof.
  intros Hf Hg Hl. induction 1 as [|[Ka Kd] l (A & B & C) H IH]; simpl; [constructor|].
  constructor; [simpl; auto|]. constructor; [simpl; auto|exact IH].
Qed.
Lemma vector_calls_ok loc g Fs vel f0 f1 f2 steps : incl [f0; f1; f2] Fs -> g = 2 -> Forall (fun n => 4 <= n) loc ->
  Forall (fun Ks => forall f, In f [f0; f1; f2] -> star_local (length loc) (f :: vel) 2 (fst Ks f) /\ star_local (length loc) [f] 1 (snd Ks f) /\ overwrites (snd Ks f)) steps ->
  Forall (@tstep_ok T loc g Fs vel) (flat_map (fun Ks => passive_vector_calls f0 f1 f2 (fst Ks) (snd Ks)) steps).
Proof.
  intros Hf Hg Hl. induction 1 as [|[Ka Kd] l A H IH]; simpl; [constructor|]. simpl in A.
  repeat (constructor; [simpl; repeat split; auto; try (apply Hf; simpl; auto); apply A; simpl; auto|]). exact IH.
Qed.
End TS.
