(** The interaction reads the velocity and refreshes its ghosts only. *)
From Coq Require Import QArith FunctionalExtensionality.
From Verif Require Import Base SpecGrid SpecGhost SpecStencil SpecIB Comm Spmd Stencil StencilProofs HaloKernels HaloThms GhostGeo KernelList EulLag EulLagProofs EulLagThms SpreadProofs.
Open Scope Z_scope.
Arguments run_lops : simpl never.

Section V.
Context {C D T : Type}.
Variables (fdiv : C -> Z) (gdist : Z -> C -> D) (wt : list D -> T) (scale : T -> T) (sum : list T -> T) (mul : T -> T -> T).

Lemma interp_frame per dims loc g w (K : list (place * place)) comps lagf (lpos : Z -> list (list C)) (m : mem T) : 0 <= g ->
  exch_facts per dims loc g comps K -> ~ In lagf comps ->
  exists m', spmd_ends (zprod dims) [PExch K (fun _ => []); PLoc (fun r => e2l_lops fdiv gdist wt scale sum mul dims loc g w r comps lagf (lpos r))] m m' /\
    (forall r f I, In f comps -> inner g loc I -> m' (r, (f, ravel (ghosted g loc) I)) = m (r, (f, ravel (ghosted g loc) I))) /\
    (forall r a, fst a <> lagf -> ~ In (fst a) comps -> m' (r, a) = m (r, a)).
Proof.
  intros Hg HC Hlag. eexists. split; [apply spmd_safe|].
  { constructor; [|constructor; [exact Logic.I|constructor]]. split; [apply (ef_nrw _ _ _ _ _ _ HC)|]. split; [apply (ef_ss _ _ _ _ _ _ HC)|]. split; [apply (ef_rng _ _ _ _ _ _ HC)|]. intros; constructor. }
  unfold den. cbn [fold_left den1]. set (m1 := den_loc (zprod dims) (fun _ => []) (run_copies K m)).
  assert (E1 : forall r a, m1 (r, a) = run_copies K m (r, a)). { intros r a. unfold m1, den_loc. cbn [fst snd]. destruct (_ && _); reflexivity. }
  assert (E2 : forall r, (fun a => m1 (r, a)) = (fun a => run_copies K m (r, a))) by (intros; apply functional_extensionality; intros; apply E1).
  assert (E3 : forall r a, fst a <> lagf -> den_loc (zprod dims) (fun r => e2l_lops fdiv gdist wt scale sum mul dims loc g w r comps lagf (lpos r)) m1 (r, a) = run_copies K m (r, a)).
  { intros r a Ha. unfold den_loc at 1. cbn [fst snd]. rewrite E2. destruct (_ && _); [|apply E1]. etransitivity; [apply e2l_frame; exact Ha|reflexivity]. }
  split.
  - intros r f I Hf HI. rewrite E3 by (cbn; congruence). apply run_copies_frame. intros s Hs.
    destruct (ef_dst _ _ _ _ _ _ HC s _ Hs) as (f' & J & _ & HJ & Hni & E). cbn [snd] in E. injection E as _ E. apply Hni. apply ravel_inj in E; auto; [now rewrite <- E|]. now apply inner_inb.
  - intros r a Ha Hna. rewrite E3 by auto. apply run_copies_frame. intros s Hs. destruct (ef_dst _ _ _ _ _ _ HC s (r, a) Hs) as (f & J & Hf & _ & _ & E). cbn [snd] in E. rewrite E in Hna. cbn in Hna. contradiction.
Qed.
Lemma velocity_2d per py px ny nx g w full comps lagf lpos (m : mem T) : grid2 py px ny nx g -> ~ In lagf comps ->
  exists m', spmd_ends (py * px) (ghosted_interp2 fdiv gdist wt scale sum mul per py px ny nx g w full comps lagf lpos) m m' /\
    (forall r f I, In f comps -> inner g [ny; nx] I -> m' (r, (f, ravel (ghosted g [ny; nx]) I)) = m (r, (f, ravel (ghosted g [ny; nx]) I))) /\
    (forall r a, fst a <> lagf -> ~ In (fst a) comps -> m' (r, a) = m (r, a)).
Proof.
  intros (H1 & H2 & H3 & H4 & H5) Hl. replace (py * px) with (zprod [py; px]) by (cbn; lia). apply (interp_frame per); [lia| |exact Hl]. apply exch2_facts; lia.
Qed.
Lemma velocity_3d per pz py px n0 n1 n2 g w full comps lagf lpos (m : mem T) : grid3 pz py px n0 n1 n2 g -> ~ In lagf comps ->
  exists m', spmd_ends (pz * py * px) (ghosted_interp3 fdiv gdist wt scale sum mul per pz py px n0 n1 n2 g w full comps lagf lpos) m m' /\
    (forall r f I, In f comps -> inner g [n0; n1; n2] I -> m' (r, (f, ravel (ghosted g [n0; n1; n2]) I)) = m (r, (f, ravel (ghosted g [n0; n1; n2]) I))) /\
    (forall r a, fst a <> lagf -> ~ In (fst a) comps -> m' (r, a) = m (r, a)).
Proof.
  intros (H1 & H2 & H3 & H4 & H5 & H6 & H7) Hl. replace (pz * py * px) with (zprod [pz; py; px]) by (cbn; lia). apply (interp_frame per); [lia| |exact Hl]. apply exch3_facts; lia.
Qed.
End V.
