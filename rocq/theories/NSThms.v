(** The Navier-Stokes results in the form used in PropsNS. *)
From Verif Require Import Base SpecGrid SpecGhost SpecStencil SpecStep SpecPenalise SpecFilter SpecDouble SpecNS Cart CartFacts Comm Spmd GhostGeo KernelList HaloThms KernelProofs StepProofs StepHistory FieldProofs Doubling NavierStokes NSBase NSHalo NSSteps NS2D NS3D.
Arguments run_lops : simpl never.
Arguments addr_eq : simpl never.
Arguments place_dec : simpl never.

Lemma shapes2 {T} (z : T) N w vx vy fx fy s : ns2_step_ok z N w vx vy fx fy s -> ns2_shapes w vx vy fx fy s.
Proof. unfold ns2_step_ok, ns2_shapes. destruct (n2_frc s) as [[K fv]|]; tauto. Qed.
Lemma shapes3 {T} (z : T) N ws vs bs fs s : ns3_step_ok z N ws vs bs fs s -> ns3_shapes ws vs bs fs s.
Proof. unfold ns3_step_ok, ns3_shapes. destruct (n3_frc s) as [[K fv]|]; [|tauto]. intros (A & B & C & H & _). repeat split; auto; try (now apply A); try now apply C. intros. now apply H. Qed.

Section Two.
Context {T C : Type}.
Variables (add : T -> T -> T) (z : T) (damp : C -> C -> T -> T) (coord : nat -> Z -> C) (width : Z)
          (conv : (list Z -> T) -> list Z -> T) (Kcx Kcy : @Stencil.kfun T).
Variables (py px ny nx g : Z) (full : bool) (dd : nat) (xg : Z -> nat -> Z -> C).
Variables (w psi vx vy fx fy buf D S : nat).
Notation dims := [py; px].
Notation loc := [ny; nx].
Notation N := (global_size dims loc).
Notation n := (zprod dims).
Notation step := (time_step_2d add z damp conv py px ny nx g full dd width xg w psi vx vy fx fy buf D S Kcx Kcy).
Notation serial := (serial_ns_2d add z damp coord width conv Kcx Kcy N w psi vx vy fx fy).
Hypothesis HS : ns2_setting py px ny nx g width dd xg coord w psi vx vy fx fy buf D S Kcx Kcy.

Lemma step2_phases s : ns2_shapes w vx vy fx fy s -> Forall (phase_ok n) (step s).
Proof.
  intros (HA & HDf & HO & HF). destruct HS as [G Hg2 H4 Hw Hdd Hxg Hnd HKx HKy].
  pose (s' := {| n2_adv := n2_adv s; n2_dif := n2_dif s; n2_frc := None; n2_free := n2_free s |} : @ns2_step T).
  assert (Y : Forall (phase_ok n) (step s')) by (eapply (@step_ok T C) with (coord := coord); eauto; repeat split; auto).
  unfold time_step_2d in *. change (n2_frc s') with (@None (@Stencil.kfun T * (nat -> list Z -> T))) in Y. cbv beta iota in Y.
  change (navier_stokes_2d add z damp conv py px ny nx g full dd width xg w psi vx vy buf D S Kcx Kcy s') with
    (navier_stokes_2d add z damp conv py px ny nx g full dd width xg w psi vx vy buf D S Kcx Kcy s) in Y.
  destruct (n2_frc s) as [[K fv]|]; [|exact Y]. rewrite !Forall_app. split; [|split; [exact Y|repeat constructor]].
  eapply (@frc_ok T); eauto.
Qed.
Lemma step2_ends s m : ns2_shapes w vx vy fx fy s -> exists m', spmd_ends n (step s) m m'.
Proof. intros H. eexists. apply spmd_safe. now apply step2_phases. Qed.
Lemma step2_once s m m' m'' : ns2_shapes w vx vy fx fy s -> spmd_ends n (step s) m m' -> spmd_ends n (step s) m m'' -> m' = m''.
Proof. intros H A B. pose proof (spmd_safe _ _ m (step2_phases s H)) as E. rewrite (spmd_ends_det _ _ _ _ _ A E). now rewrite (spmd_ends_det _ _ _ _ _ B E). Qed.
Lemma step2_forcing s (m m' : mem T) : ns2_shapes w vx vy fx fy s -> n2_frc s <> None -> spmd_ends n (step s) m m' ->
  forall r f I, 0 <= r < n -> In f [fx; fy] -> inb (ghosted g loc) I -> field m' (ghosted g loc) r f I = z.
Proof.
  intros Hs Hn E r f I Hr Hf HI. rewrite (spmd_ends_det _ _ _ _ _ E (spmd_safe _ _ m (step2_phases s Hs))).
  destruct HS as [G Hg2 H4 Hw Hdd Hxg Hnd HKx HKy].
  unfold time_step_2d. destruct (n2_frc s) as [[K fv]|]; [|congruence]. rewrite !den_app.
  apply (sets_post (ghosted g loc) n); auto. apply (sz_pos dims loc g); [eapply KernelProofs.g2_ok; eauto|lia].
Qed.
Lemma hist2 hist (m m' : mem T) u : Forall (ns2_step_ok z N w vx vy fx fy) hist ->
  represents_ext false dims loc g [w; psi; vx; vy] m u ->
  history dims step (fun s => between z dims loc g [w; psi; vx; vy] [fx; fy] (forcing_of (n2_frc s))) hist m m' ->
  represents_ext false dims loc g [w; psi; vx; vy] m' (fold_left serial hist u).
Proof. intros Hh He H. destruct HS as [G Hg2 H4 Hw Hdd Hxg Hnd HKx HKy]. eapply (@history_ext T C); eauto. Qed.
End Two.

Section Three.
Context {T C : Type}.
Variables (add : T -> T -> T) (z : T) (damp : C -> C -> T -> T) (coord : nat -> Z -> C) (width : Z)
          (conv : (list Z -> T) -> list Z -> T) (Kcx Kcy Kcz : @Stencil.kfun T)
          (lap : T -> T -> T -> T) (sub : T -> T -> T) (filt : option (filter_type * nat * Z)).
Variables (pz py px n0 n1 n2 g : Z) (full : bool) (xg : Z -> nat -> Z -> C).
Variables (w0 w1 w2 p0 p1 p2 vx vy vz fx fy fz b0 b1 b2 buf D S : nat).
Notation dims := [pz; py; px].
Notation loc := [n0; n1; n2].
Notation N := (global_size dims loc).
Notation n := (zprod dims).
Notation ws := [w0; w1; w2].
Notation vs := [vx; vy; vz].
Notation fs := [fx; fy; fz].
Notation bs := [b0; b1; b2].
Notation Fs0 := [w0; w1; w2; p0; p1; p2; vx; vy; vz].
Notation step := (fun sr => time_step_3d add z damp conv lap sub filt pz py px n0 n1 n2 g full width xg w0 w1 w2 p0 p1 p2 vx vy vz fx fy fz b0 b1 b2 buf D S Kcx Kcy Kcz (snd sr) (fst sr)).
Notation serial := (serial_ns_3d add z damp coord width conv Kcx Kcy Kcz lap sub filt N w0 w1 w2 p0 p1 p2 vx vy vz b0 b1 b2 fx fy fz).
Hypothesis HS : ns3_setting pz py px n0 n1 n2 g width filt xg coord w0 w1 w2 p0 p1 p2 vx vy vz fx fy fz b0 b1 b2 buf D S Kcx Kcy Kcz.

Lemma step3_phases s race : ns3_shapes ws vs bs fs s -> Forall (phase_ok n) (step (s, race)).
Proof.
  intros (HC & HU & HDf & HF). destruct HS as [G H2 Hw Hev Hxg Hnd HKc Hfilt].
  pose (s' := {| n3_crs := n3_crs s; n3_upd := n3_upd s; n3_dif := n3_dif s; n3_frc := None; n3_free := n3_free s |} : @ns3_step T).
  assert (Y : Forall (phase_ok n) (step (s', race))).
  { eapply (@step3_ok T C) with (coord := coord); eauto. split; [exact HC|split; [exact HU|split; [exact HDf|exact I]]]. }
  cbn [fst snd] in *. unfold time_step_3d in *. change (n3_frc s') with (@None (@Stencil.kfun T * @Stencil.kfun T * @Stencil.kfun T * (nat -> list Z -> T))) in Y. cbv beta iota in Y.
  change (navier_stokes_3d add z damp conv lap sub filt pz py px n0 n1 n2 g full width xg w0 w1 w2 p0 p1 p2 vx vy vz b0 b1 b2 buf D S Kcx Kcy Kcz race s') with
    (navier_stokes_3d add z damp conv lap sub filt pz py px n0 n1 n2 g full width xg w0 w1 w2 p0 p1 p2 vx vy vz b0 b1 b2 buf D S Kcx Kcy Kcz race s) in Y.
  destruct (n3_frc s) as [[K fv]|]; [|exact Y]. rewrite !Forall_app. split; [|split; [exact Y|repeat constructor]].
  eapply (@upd_ok T); eauto. eapply f_not_w; eauto.
Qed.
Lemma step3_ends s race m : ns3_shapes ws vs bs fs s -> exists m', spmd_ends n (step (s, race)) m m'.
Proof. intros H. eexists. apply spmd_safe. now apply step3_phases. Qed.
Lemma step3_once s race m m' m'' : ns3_shapes ws vs bs fs s -> spmd_ends n (step (s, race)) m m' -> spmd_ends n (step (s, race)) m m'' -> m' = m''.
Proof. intros H A B. pose proof (spmd_safe _ _ m (step3_phases s race H)) as E. rewrite (spmd_ends_det _ _ _ _ _ A E). now rewrite (spmd_ends_det _ _ _ _ _ B E). Qed.
Lemma step3_forcing s race (m m' : mem T) : ns3_shapes ws vs bs fs s -> n3_frc s <> None -> spmd_ends n (step (s, race)) m m' ->
  forall r f I, 0 <= r < n -> In f fs -> inb (ghosted g loc) I -> field m' (ghosted g loc) r f I = z.
Proof.
  intros Hs Hn E r f I Hr Hf HI. rewrite (spmd_ends_det _ _ _ _ _ E (spmd_safe _ _ m (step3_phases s race Hs))).
  destruct HS as [G H2 Hw Hev Hxg Hnd HKc Hfilt]. cbn [fst snd].
  unfold time_step_3d. destruct (n3_frc s) as [[K fv]|]; [|congruence]. rewrite !den_app.
  apply (sets_post (ghosted g loc) n); auto. apply (sz_pos dims loc g); [eapply KernelProofs.g3_ok; eauto|unfold grid3 in G; lia].
Qed.
Lemma hist3 hist (m m' : mem T) u : Forall (fun sr => ns3_step_ok z N ws vs bs fs (fst sr)) hist ->
  represents_ext false dims loc g Fs0 m u ->
  history dims step (fun sr => between z dims loc g Fs0 fs (forcing_of (n3_frc (fst sr)))) hist m m' ->
  represents_ext false dims loc g Fs0 m' (fold_left serial (map fst hist) u).
Proof. intros Hh He H. destruct HS as [G H2 Hw Hev Hxg Hnd HKc Hfilt]. eapply (@history3_ext T C); eauto. Qed.
End Three.

(** Whatever the forcing, there is a memory in which it is deposited and the flow arrays are kept. *)
Section Exist.
Context {T : Type}.
Variables (z : T) (dims loc : list Z) (g : Z).
Hypothesis Hok : grid_ok dims loc.
Hypothesis Hg : 1 <= g.
Notation N := (global_size dims loc).
Definition deposit (F : list nat) (fv : nat -> list Z -> T) (m : mem T) : mem T := fun l =>
  if in_dec Nat.eq_dec (fst (snd l)) F then
    let P := ghost_pos dims loc g (fst l) (unravel (ghosted g loc) (snd (snd l))) in
    if inbb N P then fv (fst (snd l)) P else z
  else m l.
Lemma deposit_field F fv m r f I : inb (ghosted g loc) I -> field (deposit F fv m) (ghosted g loc) r f I =
  if in_dec Nat.eq_dec f F then (if inbb N (ghost_pos dims loc g r I) then fv f (ghost_pos dims loc g r I) else z) else field m (ghosted g loc) r f I.
Proof. intros HI. unfold field, deposit. cbn [fst snd]. now rewrite unravel_ravel. Qed.
Lemma deposit_between Fs F fv m : (forall f, In f F -> ~ In f Fs) -> between z dims loc g Fs F (Some fv) m (deposit F fv m).
Proof.
  intros Hd. split.
  - intros r f I Hr Hf HI _. rewrite deposit_field by auto. destruct (in_dec Nat.eq_dec f F) as [HF|HF]; auto. now apply Hd in HF.
  - split.
    + intros r f x Hr Hf Hx. rewrite deposit_field by (apply FieldProofs.lcell_inb; auto; lia). destruct (in_dec Nat.eq_dec f F) as [HF|HF]; [|contradiction].
      rewrite sub_pos. now rewrite (proj2 (inbb_spec N _) (block_inside dims loc r x Hok Hr Hx)).
    + intros r f I Hr Hf HI Ho. rewrite deposit_field by auto. destruct (in_dec Nat.eq_dec f F) as [HF|HF]; [|contradiction]. now rewrite owner_out.
Qed.
Lemma between_exists Fs F fv m : (forall f, In f F -> ~ In f Fs) -> exists m1, between z dims loc g Fs F fv m m1.
Proof.
  intros Hd. destruct fv as [fv|]; [exists (deposit F fv m); now apply deposit_between|].
  exists m. split; auto. intros r f I _ _ _ _. reflexivity.
Qed.
Lemma history_exists {A} (prog : A -> list (@phase T)) (before : A -> mem T -> mem T -> Prop) hist :
  (forall s m, In s hist -> exists m1, before s m m1) -> (forall s m, In s hist -> exists m1, spmd_ends (zprod dims) (prog s) m m1) ->
  forall m, exists m', history dims prog before hist m m'.
Proof.
  induction hist as [|s l IH]; intros HB HE m; [exists m; constructor|].
  destruct (HB s m ltac:(now left)) as (m1 & B). destruct (HE s m1 ltac:(now left)) as (m2 & E).
  destruct (IH (fun s' m' H => HB s' m' (or_intror H)) (fun s' m' H => HE s' m' (or_intror H)) m2) as (m3 & H). exists m3. econstructor; eauto.
Qed.
End Exist.
