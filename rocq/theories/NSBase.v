(** Facts used for the Navier-Stokes steps. *)
From Verif Require Import Base SpecGrid SpecGhost SpecStencil SpecStep SpecPenalise SpecFilter SpecDouble SpecNS Cart CartFacts Comm Spmd GhostGeo Ghost2D Ghost3D GhostProofs Stencil StencilProofs HaloProofs HaloKernels HaloThms CurlProofs KernelList KernelProofs TimeStep StepProofs StepHistory PenaliseProofs.
Arguments run_lops : simpl never.
Arguments addr_eq : simpl never.
Arguments place_dec : simpl never.

Lemma nth_map_seq {A} (h : nat -> A) n i d : (i < n)%nat -> nth i (map h (seq 0 n)) d = h i.
Proof. intros H. rewrite (nth_indep _ d (h 0%nat)) by (rewrite map_length, seq_length; lia). rewrite map_nth. now rewrite seq_nth. Qed.

(** *** Ghost values around the domain form a global array *)
Section Ext.
Context {T : Type}.
Variables (dims loc : list Z) (g : Z).
Hypothesis Hok : grid_ok dims loc.
Hypothesis Hg : 1 <= g.
Hypothesis Hgn : Forall (fun n => g <= n) loc.
Notation N := (global_size dims loc).
Notation Q := (Qext false dims loc g).

Definition clampc (P : list Z) : list Z := map (fun a => Z.max 0 (Z.min (nth a dims 0 - 1) (nth a P 0 / nth a loc 0))) (seq 0 (length dims)).
Definition cell_at (P : list Z) : list Z := map (fun a => nth a P 0 - nth a (clampc P) 0 * nth a loc 0 + g) (seq 0 (length dims)).

Lemma clamp_ext r I : 0 <= r < zprod dims -> inb (ghosted g loc) I -> Q r I ->
  clampc (ghost_pos dims loc g r I) = unravel dims r /\ cell_at (ghost_pos dims loc g r I) = I.
Proof.
  intros Hr HI HQ. pose proof Hok as [H1 H2 H3]. pose proof (tracked_ext false dims loc g Hok) as [TA _].
  assert (Hl : length I = length loc) by (apply inb_length in HI; unfold ghosted in HI; now rewrite map_length in HI).
  assert (E : forall a, (a < length loc)%nat -> Z.max 0 (Z.min (nth a dims 0 - 1) (nth a (ghost_pos dims loc g r I) 0 / nth a loc 0)) = nth a (unravel dims r) 0).
  { intros a Ha. pose proof (TA r I a Hr HI HQ Ha) as Ht.
    pose proof (inb_nth _ _ a (unravel_inb dims r H2 Hr) ltac:(lia)) as Hc. cbn beta in Hc.
    pose proof (inb_nth _ _ a HI ltac:(unfold ghosted; rewrite map_length; lia)) as Hi. cbn beta in Hi. rewrite (sizes_nth loc g) in Hi by auto.
    assert (Hgn' : g <= nth a loc 0) by (rewrite Forall_forall in Hgn; apply Hgn; now apply nth_In).
    unfold axis_inner, axis_outside in Ht. rewrite (nth_gp dims loc g r I a H1 Hl Ha) in *. rewrite (nth_gs dims loc a H1 Ha) in Ht.
    remember (nth a (unravel dims r) 0) as c. remember (nth a dims 0) as d. remember (nth a loc 0) as n. remember (nth a I 0) as i. clear - Hc Hi Hgn' Ht Hg.
    destruct (axis_out d n g c i Hc ltac:(lia) Hi) as [A B].
    destruct Ht as [Ht|[_ [Ht|Ht]]].
    - replace (c * n + (i - g)) with ((i - g) + c * n) by lia. rewrite Z.div_add by lia. rewrite Z.div_small by lia. lia.
    - apply A in Ht as [-> Ht]. assert ((0 * n + (i - g)) / n < 0) by (apply Z.div_lt_upper_bound; lia). lia.
    - pose proof (proj1 B Ht) as [Ec Hi']. assert (d <= (c * n + (i - g)) / n) by (apply Z.div_le_lower_bound; nia). lia. }
  assert (E1 : clampc (ghost_pos dims loc g r I) = unravel dims r).
  { apply (nth_ext _ _ 0 0); [unfold clampc; now rewrite map_length, seq_length, unravel_length|].
    intros a Ha. unfold clampc in Ha. rewrite map_length, seq_length in Ha. unfold clampc. rewrite nth_map_seq by lia. apply E. lia. }
  split; auto. apply (nth_ext _ _ 0 0); [unfold cell_at; rewrite map_length, seq_length; lia|].
  intros a Ha. unfold cell_at in *. rewrite map_length, seq_length in Ha. rewrite nth_map_seq by lia. rewrite E1.
  rewrite (nth_gp dims loc g r I a H1 Hl ltac:(lia)). lia.
Qed.

Lemma ext_refine Fs (m : mem T) u : represents dims loc g Fs m u ->
  exists uu, represents_ext false dims loc g Fs m uu /\ forall f P, inbb N P = true -> uu f P = u f P.
Proof.
  intros Hu. exists (fun f P => if inbb N P then u f P else field m (ghosted g loc) (ravel dims (clampc P)) f (cell_at P)).
  split; [|intros f P ->; reflexivity].
  intros r f I Hr Hf HI HQ. pose proof Hok as [H1 H2 H3].
  assert (Hl : length I = length loc) by (apply inb_length in HI; unfold ghosted in HI; now rewrite map_length in HI).
  destruct (inbb N (ghost_pos dims loc g r I)) eqn:Eb.
  - destruct HQ as [Hi|[_ Ho]].
    + destruct (sub_ok g loc I Hi) as (x & Hx & ->). rewrite Hu by auto. f_equal. unfold ghost_pos. rewrite map_map. rewrite (map_ext _ (fun x => x)) by (intros; lia). now rewrite map_id.
    + exfalso. unfold owner in Ho. apply inbb_spec in Eb. rewrite (wrapv_in false _ _ Eb) in Ho. discriminate.
  - destruct (clamp_ext r I Hr HI HQ) as [-> ->]. now rewrite ravel_unravel.
Qed.

(** Representation only looks at the positions of tracked cells. *)
Lemma ext_congr Fs (m : mem T) u u' : represents_ext false dims loc g Fs m u ->
  (forall f P, In f Fs -> length P = length N -> u f P = u' f P) -> represents_ext false dims loc g Fs m u'.
Proof.
  intros H E r f I Hr Hf HI HQ. rewrite (H r f I Hr Hf HI HQ). apply E; auto. apply gp_length; [destruct Hok; auto|].
  apply inb_length in HI; unfold ghosted in HI; now rewrite map_length in HI.
Qed.
Lemma ext_represents Fs (m : mem T) u : represents_ext false dims loc g Fs m u -> represents dims loc g Fs m u.
Proof.
  intros H. apply rep_inner; [lia|]. intros r f I Hr Hf HI HQ. apply H; auto. 
Qed.
Lemma ext_sub per Fs Fs' (m : mem T) u : incl Fs' Fs -> represents_ext per dims loc g Fs m u -> represents_ext per dims loc g Fs' m u.
Proof. intros Hi H r f I Hr Hf. apply H; auto. Qed.
Lemma rep_sub Fs Fs' (m : mem T) u : incl Fs' Fs -> represents dims loc g Fs m u -> represents dims loc g Fs' m u.
Proof. intros Hi H r f I Hr Hf. apply H; auto. Qed.
Lemma rep_congr Fs (m : mem T) u u' : represents dims loc g Fs m u ->
  (forall f P, In f Fs -> inbb N P = true -> u f P = u' f P) -> represents dims loc g Fs m u'.
Proof. intros H E r f x Hr Hf Hx. rewrite H by auto. apply E; auto. apply inbb_spec. now apply block_inside. Qed.
End Ext.

(** *** The sponge forgets what is outside the domain *)
Section Sponge.
Context {T C : Type}.
Variables (damp : C -> C -> T -> T) (coord : nat -> Z -> C) (N : list Z) (w : Z).
Hypothesis Hw : 1 <= w.
Hypothesis HwN : Forall (fun n => w <= n) N.
Definition inside_axis (P : list Z) (b : nat) : Prop := 0 <= nth b P 0 < nth b N 0.
Definition agree_except (S : list nat) (u u' : list Z -> T) : Prop :=
  forall P, length P = length N -> (forall b, (b < length N)%nat -> ~ In b S -> inside_axis P b) -> u P = u' P.

Lemma sponge_axis S a u u' : (a < length N)%nat -> agree_except S u u' ->
  agree_except (a :: S) (sponge_back damp coord N w a (sponge_front damp coord w a u)) (sponge_back damp coord N w a (sponge_front damp coord w a u')).
Proof.
  intros Ha H P Hl HP.
  assert (HaN : w <= nth a N 0) by (rewrite Forall_forall in HwN; apply HwN; now apply nth_In).
  assert (K : forall v, 0 <= v < nth a N 0 -> u (setn P a v) = u' (setn P a v)).
  { intros v Hv. apply H; [now rewrite setn_len|]. intros b Hb Hn. unfold inside_axis. destruct (Nat.eq_dec a b) as [<-|Hne].
    - rewrite nth_setn_eq by lia. auto.
    - rewrite nth_setn_neq by auto. apply HP; auto. simpl. tauto. }
  unfold sponge_back. destruct (Z.leb_spec (nth a N 0 - w) (nth a P 0)) as [H1|H1].
  - f_equal. unfold sponge_front. rewrite nth_setn_eq by lia. rewrite setn_setn. destruct (Z.ltb_spec (nth a N 0 - w) w); [f_equal|]; apply K; lia.
  - unfold sponge_front. destruct (Z.ltb_spec (nth a P 0) w) as [H2|H2]; [f_equal; apply K; lia|].
    apply H; auto. intros b Hb Hn. destruct (Nat.eq_dec a b) as [<-|Hne]; [unfold inside_axis; lia|]. apply HP; auto. simpl. tauto.
Qed.
Lemma sponge_forgets axes u u' : Forall (fun a => (a < length N)%nat) axes -> (forall a, (a < length N)%nat -> In a axes) ->
  (forall P, inb N P -> u P = u' P) -> forall P, length P = length N ->
  sponge damp coord N w false axes u P = sponge damp coord N w false axes u' P.
Proof.
  intros Hax Hall HU. unfold sponge. replace (w =? 0) with false by (symmetry; apply Z.eqb_neq; lia). cbn [orb].
  assert (X : forall l S v v', Forall (fun a => (a < length N)%nat) l -> agree_except S v v' ->
    agree_except (rev l ++ S) (fold_left (fun u a => sponge_back damp coord N w a (sponge_front damp coord w a u)) l v)
      (fold_left (fun u a => sponge_back damp coord N w a (sponge_front damp coord w a u)) l v')).
  { induction l as [|a l IH]; intros S v v' Hl H; [exact H|]. inversion Hl; subst. cbn [fold_left rev]. rewrite <- app_assoc. apply IH; auto. now apply sponge_axis. }
  assert (B : agree_except [] u u').
  { intros P Hl HP. apply HU. clear - Hl HP. assert (HP' : forall b, (b < length N)%nat -> 0 <= nth b P 0 < nth b N 0) by (intros; apply HP; auto). clear HP.
    revert P Hl HP'. induction N as [|n N' IH]; intros [|p P] Hl HP'; simpl in *; try discriminate; constructor.
    - apply (HP' 0%nat); simpl; lia.
    - apply IH; [lia|]. intros b Hb. apply (HP' (S b)). simpl. lia. }
  intros P Hl. apply (X axes [] u u' Hax B P Hl). intros b Hb Hn. exfalso. apply Hn. rewrite app_nil_r, <- in_rev. auto.
Qed.
End Sponge.

(** *** Ghost cells outside the domain are never written by an exchange *)
Section OutGen.
Context {T : Type}.
Variables (per : bool) (dims loc : list Z) (g : Z).
Hypothesis Hok : grid_ok dims loc.
Hypothesis Hg : 0 <= g.
Hypothesis Hgn : Forall (fun n => g <= n) loc.
Lemma out_unchanged D F (m : mem T) E r f I : (forall dv, In dv D -> is_dir loc dv /\ nonzero dv) ->
  schedule (zprod dims) (steps_prog (nbr per dims) (gsteps g loc D F)) E ->
  0 <= r < zprod dims -> inb (ghosted g loc) I -> owner per dims loc (ghost_pos dims loc g r I) = None ->
  field (run_copies E m) (ghosted g loc) r f I = field m (ghosted g loc) r f I.
Proof.
  intros HD HE Hr HI Ho.
  destruct (in_dec Nat.eq_dec f F) as [Hf|Hf]; [|apply (generic_unchanged per dims loc g Hok Hg Hgn D F m E r f I HD HE Hr HI); auto].
  destruct (in_dec (list_eq_dec Z.eq_dec) (vneg (zone g loc I)) D) as [Hz|Hz]; [|apply (generic_unchanged per dims loc g Hok Hg Hgn D F m E r f I HD HE Hr HI); auto].
  rewrite (generic_refreshed per dims loc g Hok Hg Hgn D F m E r f I HD HE); auto.
  unfold refreshed. now rewrite Ho.
Qed.
End OutGen.
