(** Explicit time steps over arbitrary histories. *)
From Verif Require Import Base SpecGrid SpecGhost SpecStencil SpecStep Cart CartFacts Comm Spmd GhostGeo Ghost2D Ghost3D GhostProofs FieldProofs Stencil StencilProofs HaloProofs HaloKernels HaloThms KernelList KernelProofs TimeStep.
Arguments run_lops : simpl never.
Arguments addr_eq : simpl never.
Arguments place_dec : simpl never.

Lemma inbb_spec N P : inbb N P = true <-> inb N P.
Proof.
  revert P. induction N as [|n N IH]; intros [|p P]; simpl; try (split; [discriminate|intros H; now inversion H]).
  - split; [constructor|auto].
  - rewrite !andb_true_iff, Z.leb_le, Z.ltb_lt, IH. split; [intros [[A B] D]; constructor; auto|intros H; inversion H; subst; auto].
Qed.
Lemma edgeb_spec per N P : edgeb per N P = true <-> on_boundary per N P.
Proof.
  unfold edgeb, on_boundary. rewrite andb_true_iff, negb_true_iff, existsb_exists, Exists_exists.
  split; intros [E (x & Hx & H)]; split; auto; exists x; split; auto.
  - apply orb_true_iff in H. rewrite !Z.eqb_eq in H. auto.
  - apply orb_true_iff. rewrite !Z.eqb_eq. auto.
Qed.
Lemma wrapv_norm per N P q : length P = length N -> wrapv per N P = Some q -> q = norm per N P.
Proof.
  revert P q. induction N as [|n N IH]; intros [|p P] q Hl H; simpl in *; try discriminate.
  - inversion H. unfold norm. destruct per; reflexivity.
  - destruct (wrap per n p) as [a|] eqn:E1; [|discriminate]. destruct (wrapv per N P) as [b|] eqn:E2; [|discriminate].
    inversion H; subst. rewrite (IH P b ltac:(lia) E2). unfold norm, wrap in *. destruct per; simpl.
    + inversion E1. reflexivity.
    + destruct ((0 <=? p) && (p <? n)); inversion E1; reflexivity.
Qed.
Lemma wrapv_none_per per N P : wrapv per N P = None -> per = false.
Proof. destruct per; auto. destruct (wrapv_true N P) as [q ->]. discriminate. Qed.
Lemma wrapv_false_none N P : length P = length N -> wrapv false N P = None -> inbb N P = false.
Proof.
  revert P. induction N as [|n N IH]; intros [|p P] Hl H; simpl in *; try discriminate.
  unfold wrap in H. destruct ((0 <=? p) && (p <? n)); simpl; auto.
  destruct (wrapv false N P) eqn:E; [discriminate|]. apply IH; auto.
Qed.

Lemma sub_ok g loc I : inner g loc I -> exists x, inb loc x /\ I = map (fun i => i + g) x.
Proof. intros H. exists (map (fun i => i - g) I). split; [now apply sub_g_inb|]. now rewrite add_sub_g. Qed.

(** ** Elementwise kernels *)
Section Elem.
Context {T : Type}.
Variables (add : T -> T -> T) (z : T) (sizes : list Z) (n : Z).
Hypothesis Hs : Forall (fun x => 0 <= x) sizes.

Lemma all_in I : inb sizes I -> view_in 0 sizes (map (fun _ => SAll) sizes) I = true.
Proof. intros H. induction H; simpl; auto. inversion Hs; subst. rewrite IHinb by auto. unfold slice_in. simpl. rewrite !andb_true_iff, Z.leb_le, Z.ltb_lt. repeat split; lia. Qed.

Lemma vadd_map0 (I : list Z) : inb sizes I -> vadd I (map (fun _ => 0) sizes) = I.
Proof. intros H. induction H; simpl; auto. inversion Hs; subst. rewrite IHinb by auto. f_equal. lia. Qed.

Lemma sum_post (m : mem T) fld flux r I : fld <> flux -> 0 <= r < n -> inb sizes I ->
  field (den n [PLoc (fun _ => sum_lops add sizes fld flux)] m) sizes r fld I = add (field m sizes r fld I) (field m sizes r flux I).
Proof.
  intros Hne Hr HI. unfold den, field at 1. cbn [fold_left den1]. unfold den_loc. cbn [fst snd]. 
  replace ((0 <=? r) && (r <? n)) with true by (symmetry; apply andb_true_iff; rewrite Z.leb_le, Z.ltb_lt; lia).
  unfold sum_lops. rewrite kernel_lops_cells.
  rewrite (run_cells sizes [(fld, fun rd old => add old (rd flux (map (fun _ => 0) sizes)))]) with (ins := [flux]) (K := fun rd old => add old (rd flux (map (fun _ => 0) sizes))); auto.
  - rewrite count_view by (now rewrite map_length). rewrite all_in by auto. simpl. unfold reader. now rewrite vadd_map0 by auto.
  - repeat constructor; auto.
  - simpl. intros f [<-|[]] [E|[]]. congruence.
  - intros o K [E|[]] rd rd' old H. inversion E; subst. rewrite H; simpl; auto.
  - intros J HJ. apply kernel_cells_In in HJ; [|now rewrite map_length]. eapply view_in_inb; [|exact Hs|exact HJ]. lia.
  - now left.
Qed.
Lemma sum_frame (m : mem T) fld flux r f a : 0 <= r < n -> f <> fld ->
  den n [PLoc (fun _ => sum_lops add sizes fld flux)] m (r, (f, a)) = m (r, (f, a)).
Proof.
  intros Hr Hf. unfold den. cbn [fold_left den1]. unfold den_loc. cbn [fst snd].
  destruct ((0 <=? r) && (r <? n)); auto. unfold sum_lops. rewrite kernel_lops_cells. apply run_cells_frame. simpl. intuition.
Qed.
Lemma set_post (m : mem T) flux v r I : v = map (fun _ => SAll) sizes -> 0 <= r < n -> inb sizes I ->
  field (den n [PLoc (fun _ => set_lops sizes [flux] z v)] m) sizes r flux I = z.
Proof.
  intros -> Hr HI. unfold den, field at 1. cbn [fold_left den1]. unfold den_loc. cbn [fst snd].
  replace ((0 <=? r) && (r <? n)) with true by (symmetry; apply andb_true_iff; rewrite Z.leb_le, Z.ltb_lt; lia).
  change (set_lops sizes [flux] z (map (fun _ => SAll) sizes)) with (flat_map (set_cell sizes [flux] z) (view_cells sizes (map (fun _ => SAll) sizes))).
  assert (Hc : forall J, In J (view_cells sizes (map (fun _ => SAll) sizes)) <-> view_in 0 sizes (map (fun _ => SAll) sizes) J = true).
  { intros J. rewrite view_cells_kernel. apply kernel_cells_In. now rewrite map_length. }
  rewrite run_sets; auto.
  - destruct (in_dec ldec I _) as [|Hn]; auto. exfalso. apply Hn. apply Hc. now apply all_in.
  - intros J HJ. apply Hc in HJ. eapply view_in_inb; [|exact Hs|exact HJ]. lia.
  - now left.
Qed.
Lemma set_frame (m : mem T) flux v r f a : f <> flux -> den n [PLoc (fun _ => set_lops sizes [flux] z v)] m (r, (f, a)) = m (r, (f, a)).
Proof.
  intros Hf. unfold den. cbn [fold_left den1]. unfold den_loc. cbn [fst snd].
  destruct ((0 <=? r) && (r <? n)); auto.
  change (set_lops sizes [flux] z v) with (flat_map (set_cell sizes [flux] z) (view_cells sizes v)). apply run_sets_frame. simpl. intuition.
Qed.
End Elem.

(** ** One Euler step, any number of axes *)
Section Euler.
Context {T : Type}.
Variables (per : bool) (dims loc : list Z) (g ks : Z) (ins : list nat) (C : list (place * place)) (flux : nat) (K : @kfun T).
Variables (strips : list (list pslice)) (zv : Z -> list (list pslice)) (z : T) (add : T -> T -> T) (reset : bool).
Notation sizes := (ghosted g loc).
Notation n := (zprod dims).
Notation N := (global_size dims loc).
Hypothesis Hok : grid_ok dims loc.
Hypothesis Hks : 0 <= ks <= g.
Hypothesis Hg : 1 <= g.
Hypothesis HC : exch_facts per dims loc g ins C.
Hypothesis Hdis : ~ In flux ins.
Hypothesis Hloc : star_local (length loc) ins ks K.
Hypothesis Hstrips : Forall (fun v => length v = length sizes) strips.
Hypothesis Hzv : forall r, Forall (fun v => length v = length sizes) (zv r).
Hypothesis Hzin : forall r x, 0 <= r < n -> inb loc x ->
  zeroed loc g zv r (map (fun i => i + g) x) = (reset && edgeb per N (vadd (block_start dims loc r) x)).
Hypothesis Hzout : forall r I, 0 <= r < n -> inb sizes I -> owner per dims loc (ghost_pos dims loc g r I) = None ->
  zeroed loc g zv r I = true \/ passes loc g ks strips I = 0%nat.
Hypothesis Hp : forall x, inb loc x -> passes loc g ks strips (map (fun i => i + g) x) = 1%nat \/
  (overwrites K /\ (1 <= passes loc g ks strips (map (fun i => i + g)%Z x))%nat).

Notation prog := (halo loc g ks C [(flux, K)] strips zv z).

Lemma gp_len r I : length I = length loc -> length (ghost_pos dims loc g r I) = length N.
Proof.
  intros H. destruct Hok as [Hl _ _]. unfold ghost_pos, block_start, global_size.
  rewrite vadd_length; rewrite ?vmul_length; rewrite ?unravel_length, ?map_length; lia.
Qed.

Lemma read_ext (m : mem T) u r I : represents_ext per dims loc g ins m u -> 0 <= r < n -> inner g loc I ->
  forall f d, In f ins -> star (length loc) ks d ->
  field (run_copies C m) sizes r f (vadd I d) = u f (norm per N (vadd (ghost_pos dims loc g r I) d)).
Proof.
  intros Hrep Hr HI f d Hf Hd. rewrite (read_star per dims loc g ks ins C Hks HC) by auto.
  pose proof (star_len _ _ _ Hd) as Hdl. destruct (star_cell g loc ks I d Hks HI Hd) as [Hb Hga].
  assert (HlI : length I = length loc) by (apply in_box_length in HI; tauto).
  assert (E : ghost_pos dims loc g r (vadd I d) = vadd (ghost_pos dims loc g r I) d).
  { rewrite <- (add_sub_g g I) at 1. rewrite ghost_pos_shift; auto; [rewrite map_length; auto|destruct Hok; auto]. }
  unfold refreshed. rewrite <- E. pose proof (gp_len r (vadd I d) ltac:(rewrite vadd_length; lia)) as Hl.
  unfold owner. destruct (wrapv per N (ghost_pos dims loc g r (vadd I d))) as [q|] eqn:Eq.
  - assert (Hqi : inb N q).
    { eapply wrapv_inb; [|exact Hl|exact Eq]. unfold global_size, positive. destruct Hok as [A B D]. clear - A B D. revert loc A D.
      induction B; intros [|y0 l0] A D; simpl in *; try discriminate; constructor; inversion D; subst; [nia|apply IHB; auto]. }
    destruct Hok as [A B D]. destruct (vdivmod_inb dims loc q) as [Q1 Q2]; auto.
    rewrite Hrep; auto.
    + rewrite <- (wrapv_norm per N _ q Hl Eq). f_equal. unfold ghost_pos. rewrite map_map.
      rewrite (map_ext _ (fun x => x)) by (intros; lia). rewrite map_id. unfold block_start. rewrite unravel_ravel by auto. apply vdivmod_eq; auto.
      apply inb_length in Hqi. rewrite Hqi. unfold global_size. rewrite vmul_length; lia.
    + now apply ravel_bound.
    + apply inner_inb; [lia|]. now apply add_inner.
    + left. now apply add_inner.
  - rewrite Hrep; auto.
    + unfold norm. rewrite (wrapv_none_per _ _ _ Eq). reflexivity.
    + right. split; auto. unfold owner. now rewrite Eq.
Qed.

Lemma flux_value (m : mem T) u r I :
  represents_ext per dims loc g ins m u -> 0 <= r < n -> inb sizes I ->
  inner g loc I \/ ((ghost_axes g loc I <= 1)%nat /\ owner per dims loc (ghost_pos dims loc g r I) = None) ->
  overwrites K \/ (forall J, inb sizes J -> field m sizes r flux J = z) ->
  overwrites K \/ reset = false ->
  (owner per dims loc (ghost_pos dims loc g r I) = None -> zeroed loc g zv r I = true \/ field m sizes r flux I = z) ->
  field (den n prog m) sizes r flux I =
  if inbb N (ghost_pos dims loc g r I) && negb (reset && edgeb per N (ghost_pos dims loc g r I))
  then K (fun f d => u f (norm per N (vadd (ghost_pos dims loc g r I) d))) z else z.
Proof.
  intros Hrep Hr HIb HI Hold Hres Hout.
  assert (Hd1 : forall f, In f ins -> ~ In f (map fst [(flux, K)])) by (simpl; intros f Hf [<-|[]]; contradiction).
  assert (Hl1 : forall o K', In (o, K') [(flux, K)] -> star_local (length loc) ins ks K') by (intros o K' [E|[]]; inversion E; subst; auto).
  change (den n prog m) with (halo_post dims loc g ks C [(flux, K)] strips zv z m).
  rewrite (halo_value per dims loc g ks ins C [(flux, K)] strips zv z) with (K := K); auto; [|repeat constructor; auto|now left].
  destruct HI as [HI|[Hga Hn]].
  - pose proof (sub_ok g loc I HI) as (x & Hx & ->).
    assert (EP : ghost_pos dims loc g r (map (fun i => i + g) x) = vadd (block_start dims loc r) x).
    { unfold ghost_pos. rewrite map_map. rewrite (map_ext _ (fun x => x)) by (intros; lia). now rewrite map_id. }
    rewrite Hzin by auto. rewrite EP. replace (inbb N (vadd (block_start dims loc r) x)) with true by (symmetry; apply inbb_spec; now apply block_inside).
    destruct (reset && edgeb per N (vadd (block_start dims loc r) x)); simpl; auto.
    assert (EK : forall old, K (fun f d => field (run_copies C m) sizes r f (vadd (map (fun i => i + g) x) d)) old =
       K (fun f d => u f (norm per N (vadd (vadd (block_start dims loc r) x) d))) old).
    { intros old. apply Hloc. intros f d Hf Hd. rewrite (read_ext m u r _ Hrep Hr HI f d Hf Hd). now rewrite EP. }
    destruct (Hp x Hx) as [-> | [Hov Hc]].
    + simpl. rewrite EK. destruct Hold as [Hov|Hz']; [apply Hov|]. now rewrite Hz'.
    + rewrite iter_over by auto. rewrite EK. apply Hov.
  - replace (inbb N (ghost_pos dims loc g r I)) with false.
    2:{ symmetry. unfold owner in Hn. destruct (wrapv per N _) eqn:E; [discriminate|]. pose proof (wrapv_none_per _ _ _ E). subst per.
        apply wrapv_false_none; auto. apply gp_len. apply inb_length in HIb. unfold ghosted in HIb. now rewrite map_length in HIb. }
    simpl. destruct (zeroed loc g zv r I) eqn:Ez; auto.
    destruct (Hzout r I Hr HIb Hn) as [H | -> ]; [congruence|]. simpl. destruct (Hout Hn) as [H|H]; auto. congruence.
Qed.

(** The whole step: optional reset of the flux, kernel, sum. *)
Variables (Fs : list nat) (fld : nat) (pre : list (@phase T)).
Hypothesis Hins : incl ins Fs.
Hypothesis Hfld : In fld ins.
Hypothesis Hflux : ~ In flux Fs.
Hypothesis Hpre : (pre = [] /\ overwrites K /\ (forall r I, 0 <= r < n -> inb sizes I -> owner per dims loc (ghost_pos dims loc g r I) = None -> zeroed loc g zv r I = true)) \/
  (pre = [PLoc (fun _ => set_lops sizes [flux] z (map (fun _ => SAll) sizes))] /\ reset = false).

Notation whole := (pre ++ prog ++ [PLoc (fun _ => sum_lops add sizes fld flux)]).

Lemma whole_ok : Forall (phase_ok n) whole.
Proof.
  rewrite !Forall_app. split; [|split].
  - destruct Hpre as [(-> & _)|(-> & _)]; constructor; [exact Logic.I|constructor].
  - apply (halo_ok per dims loc g ks ins C [(flux, K)] strips zv z); auto.
    + simpl; intros f Hf [<-|[]]; contradiction.
    + intros o K' [E|[]]; inversion E; subst; auto.
  - repeat constructor.
Qed.

Lemma ext_inb r I : inner g loc I \/ ((ghost_axes g loc I <= 1)%nat /\ owner per dims loc (ghost_pos dims loc g r I) = None) -> (ghost_axes g loc I <= 1)%nat.
Proof. intros [H|[H _]]; auto. rewrite inner_ghost_axes; auto. Qed.

Lemma whole_step (m : mem T) u : represents_ext per dims loc g Fs m u ->
  represents_ext per dims loc g Fs (den n whole m) (euler_step per N add z reset fld K u).
Proof.
  intros Hrep. rewrite !den_app. pose proof (sizes_pos dims loc g Hok Hg) as Hsz.
  set (m1 := den n pre m).
  assert (H1 : forall r f a, f <> flux -> m1 (r, (f, a)) = m (r, (f, a))).
  { intros r f a Hf. unfold m1. destruct Hpre as [(-> & _)|(-> & _)]; [reflexivity|]. now apply set_frame. }
  assert (Hrep1 : represents_ext per dims loc g Fs m1 u).
  { intros r f I Hr Hf HIb HI. unfold field. rewrite H1 by (intros ->; contradiction). now apply Hrep. }
  assert (Hz1 : overwrites K \/ (forall r J, 0 <= r < n -> inb sizes J -> field m1 sizes r flux J = z)).
  { destruct Hpre as [(_ & Ho & _)|(E & _)]; [now left|right]. intros r J Hr HJ. unfold m1. rewrite E. now apply set_post. }
  set (m2 := den n prog m1).
  assert (Hd1 : forall f, In f ins -> ~ In f (map fst [(flux, K)])) by (simpl; intros f Hf [<-|[]]; contradiction).
  assert (Hl1 : forall o K', In (o, K') [(flux, K)] -> star_local (length loc) ins ks K') by (intros o K' [E|[]]; inversion E; subst; auto).
  assert (Hrep2 : represents_ext per dims loc g Fs m2 u).
  { intros r f I Hr Hf HIb HI. rewrite <- (Hrep1 r f I); auto. unfold field, m2.
    change (den n prog m1) with (halo_post dims loc g ks C [(flux, K)] strips zv z m1).
    rewrite (halo_frame dims loc g ks C [(flux, K)] strips zv z); auto.
    2:{ simpl. intros [<-|[]]. contradiction. }
    destruct (in_dec Nat.eq_dec f ins) as [Hfi|Hfi]; [|now apply (copies_frame per dims loc g ins)].
    change (field (run_copies C m1) sizes r f I = field m1 sizes r f I).
    destruct HI as [HI|[Hga Ho]].
    - now apply (copies_inner per dims loc g ins).
    - rewrite (ef_ref _ _ _ _ _ _ HC); auto. unfold refreshed. now rewrite Ho. }
  intros r f I Hr Hf HIb HI. unfold euler_step. destruct (Nat.eqb_spec f fld) as [->|Hne].
  - rewrite sum_post; auto; [|intros ->; apply Hflux; auto].
    rewrite (Hrep2 r fld I) by auto. f_equal. unfold m2. apply flux_value; auto.
    + intros r' f' I' A B D E. apply Hrep1; auto.
    + destruct Hz1 as [Ho|Hz1]; [now left|right]. auto.
    + destruct Hpre as [(_ & Ho & _)|(_ & E)]; auto.
    + intros Ho. destruct Hpre as [(_ & _ & Hz)|(E & _)]; [left; auto|right].
      unfold m1. rewrite E. now apply set_post.
  - unfold field. rewrite sum_frame by auto. now apply Hrep2.
Qed.

Lemma whole_good : Forall (phase_ok n) whole /\ forall (m : mem T) u, represents_ext per dims loc g Fs m u ->
  represents_ext per dims loc g Fs (den n whole m) (euler_step per N add z reset fld K u).
Proof. split; [apply whole_ok|intros m u; apply whole_step]. Qed.
End Euler.
