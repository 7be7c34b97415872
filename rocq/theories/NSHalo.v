(** Kernels inside a Navier-Stokes step: what they do to inner cells and to the ghost cells around the domain. *)
From Verif Require Import Base SpecGrid SpecGhost SpecStencil SpecStep SpecPenalise SpecNS Cart CartFacts Comm Spmd GhostGeo Ghost2D Ghost3D GhostProofs FieldProofs Stencil StencilProofs HaloProofs HaloKernels HaloThms CurlProofs KernelList KernelProofs TimeStep StepProofs StepHistory PenaliseProofs NSBase.
Arguments run_lops : simpl never.
Arguments addr_eq : simpl never.
Arguments place_dec : simpl never.

Lemma find_key {A} (k : list (nat * A)) o K : NoDup (map fst k) -> In (o, K) k -> find (fun oK => Nat.eqb (fst oK) o) k = Some (o, K).
Proof.
  induction k as [|[a B] k IH]; intros Hn Hin; [destruct Hin|]. cbn [find fst]. inversion Hn; subst. destruct (Nat.eqb_spec a o) as [->|Hne].
  - destruct Hin as [E|Hin]; [congruence|]. exfalso. apply H1. apply in_map_iff. exists (o, K). auto.
  - destruct Hin as [E|Hin]; [congruence|]. auto.
Qed.
Lemma find_nokey {A} (k : list (nat * A)) o : ~ In o (map fst k) -> find (fun oK => Nat.eqb (fst oK) o) k = None.
Proof.
  induction k as [|[a B] k IH]; intros Hn; auto. cbn [find fst]. simpl in Hn. destruct (Nat.eqb_spec a o) as [->|Hne]; [tauto|]. apply IH. tauto.
Qed.
Lemma key_In {A} (k : list (nat * A)) o : In o (map fst k) -> exists K, In (o, K) k.
Proof. intros H. apply in_map_iff in H as ([a K] & <- & H). eauto. Qed.

Lemma apply_at {T} (k : @kern T) w old oth (u : nat -> list Z -> T) o (K : @kfun T) P : NoDup (map fst k) -> In (o, K) k ->
  apply_kernel k w old oth u o P = if w P then K (fun f' d => u f' (vadd P d)) (old u o P) else oth u o P.
Proof. intros Hn Hin. unfold apply_kernel. pose proof (find_key k o K Hn Hin) as E. unfold kfun in E. rewrite E. reflexivity. Qed.
Lemma apply_off {T} (k : @kern T) w old oth (u : nat -> list Z -> T) o P : ~ In o (map fst k) -> apply_kernel k w old oth u o P = u o P.
Proof. intros Hn. unfold apply_kernel. pose proof (find_nokey k o Hn) as E. unfold kfun in E. rewrite E. reflexivity. Qed.

Lemma iter_id {A} (f : A -> A) x n : f x = x -> Nat.iter n f x = x.
Proof. intros H. induction n; simpl; auto. now rewrite IHn. Qed.
Lemma axis_nth n k c a : (a < n)%nat -> (k < n)%nat -> nth a (axis_vec n k c) 0 = if Nat.eqb a k then c else 0.
Proof.
  revert k a. induction n as [|n IH]; intros k a Ha Hk; [lia|]. destruct k as [|k]; cbn [axis_vec].
  - destruct a; cbn [nth Nat.eqb]; auto. rewrite nth_repeat. reflexivity.
  - destruct a; cbn [nth Nat.eqb]; auto. apply IH; lia.
Qed.
Lemma axis_len n k c : length (axis_vec n k c) = n.
Proof. revert k. induction n; intros [|k]; simpl; auto. now rewrite repeat_length. Qed.
Lemma inb_by_nth ds I : length I = length ds -> (forall a, (a < length ds)%nat -> 0 <= nth a I 0 < nth a ds 0) -> inb ds I.
Proof.
  revert I. induction ds as [|d ds IH]; intros [|i I] Hl H; simpl in *; try discriminate; constructor.
  - apply (H 0%nat). lia.
  - apply IH; [lia|]. intros a Ha. apply (H (S a)). lia.
Qed.
Lemma view_nth ks sizes v I a : view_in ks sizes v I = true -> Forall (fun n => 0 <= n) sizes -> (a < length sizes)%nat -> ks <= nth a I 0 < nth a sizes 0 - ks.
Proof.
  revert v I a. induction sizes as [|n sizes IH]; intros [|s v] [|i I] a H Hs Ha; simpl in *; try discriminate; try lia.
  apply andb_true_iff in H as [H1 H2]. inversion Hs; subst. unfold slice_in in H1. rewrite andb_true_iff, Z.leb_le, Z.ltb_lt in H1.
  pose proof (slice_bounds n s ltac:(auto)). destruct a; [lia|]. apply (IH v); auto. lia.
Qed.
Lemma view_length ks sizes v I : view_in ks sizes v I = true -> length I = length sizes.
Proof. revert v I. induction sizes as [|n sizes IH]; intros [|s v] [|i I] H; simpl in *; try discriminate; auto. apply andb_true_iff in H as [_ H]. f_equal. eauto. Qed.
Lemma view_star ks sizes v I d : 0 <= ks -> view_in ks sizes v I = true -> Forall (fun n => 0 <= n) sizes -> star (length sizes) ks d -> inb sizes (vadd I d).
Proof.
  intros Hk H Hs (b & c & Hb & Hc & ->). pose proof (view_length _ _ _ _ H) as Hl.
  apply inb_by_nth; [rewrite vadd_length; rewrite ?axis_len; lia|]. intros a Ha.
  pose proof (view_nth ks sizes v I a H Hs Ha). rewrite nth_vadd by (rewrite ?axis_len; lia). rewrite axis_nth by lia.
  destruct (Nat.eqb a b); lia.
Qed.

Lemma edge_at N P a : length P = length N -> (a < length N)%nat -> nth a P 0 = 0 \/ nth a P 0 = nth a N 0 - 1 -> edgeb false N P = true.
Proof.
  intros Hl Ha H. unfold edgeb. cbn [negb andb]. apply existsb_exists. exists (nth a P 0, nth a N 0). split.
  - rewrite <- combine_nth by auto. apply nth_In. rewrite combine_length. lia.
  - cbn [fst snd]. apply orb_true_iff. rewrite !Z.eqb_eq. lia.
Qed.

Section OutStar.
Variables (dims loc : list Z) (g : Z).
Hypothesis Hok : grid_ok dims loc.
Hypothesis Hg : 1 <= g.
Hypothesis Hgn : Forall (fun n => g <= n) loc.
Notation N := (global_size dims loc).

(** Around a ghost cell outside the domain one finds only cells outside the domain and cells of its outermost layer. *)
Lemma out_star r I d : 0 <= r < zprod dims -> inb (ghosted g loc) I -> (ghost_axes g loc I <= 1)%nat ->
  owner false dims loc (ghost_pos dims loc g r I) = None -> star (length loc) 1 d -> inb (ghosted g loc) (vadd I d) ->
  owner false dims loc (ghost_pos dims loc g r (vadd I d)) = None \/ (inner g loc (vadd I d) /\ edgeb false N (ghost_pos dims loc g r (vadd I d)) = true).
Proof.
  intros Hr HI Hga Ho (b & c & Hb & Hc & ->) HJ. pose proof Hok as [H1 H2 H3].
  assert (Hl : length I = length loc) by (apply inb_length in HI; unfold ghosted in HI; now rewrite map_length in HI).
  set (J := vadd I (axis_vec (length loc) b c)) in *.
  assert (HlJ : length J = length loc) by (unfold J; rewrite vadd_length; rewrite ?axis_len; lia).
  assert (HnJ : forall a, (a < length loc)%nat -> nth a J 0 = nth a I 0 + if Nat.eqb a b then c else 0).
  { intros a Ha. unfold J. rewrite nth_vadd by (rewrite ?axis_len; lia). now rewrite axis_nth. }
  pose proof (tracked_ext false dims loc g Hok) as [TA _].
  pose proof Ho as Ho'. apply owner_none_iff in Ho' as [_ (a0 & Ha0 & Hout)]; auto.
  assert (Hinn : forall a, (a < length loc)%nat -> a <> a0 -> axis_inner g loc I a).
  { intros a Ha Hne. assert (Hd : axis_inner g loc I a \/ ~ axis_inner g loc I a) by (unfold axis_inner; lia). destruct Hd as [|Hn]; auto. exfalso.
    assert (Hnb : ~ axis_inner g loc I a0) by (intros H; apply (inner_not_outside dims loc g r I a0); auto).
    assert (Hpos : 1 <= nth a loc 0) by (unfold positive in H3; rewrite Forall_forall in H3; apply H3; now apply nth_In).
    pose proof (ga_setn_out g loc I a g Hl Ha ltac:(lia) Hn) as E.
    assert (E0 : ghost_axes g loc (setn I a g) = 0%nat) by lia.
    apply ga0_inner in E0; [|now rewrite setn_len]. apply Hnb.
    pose proof (proj1 (inner_axes g loc (setn I a g) ltac:(now rewrite setn_len)) E0 a0 Ha0) as X. unfold axis_inner in *. rewrite nth_setn_neq in X by auto. exact X. }
  assert (D : axis_outside dims loc g r J a0 \/ ~ axis_outside dims loc g r J a0) by (unfold axis_outside; lia).
  destruct D as [D|D]; [left; apply owner_none_iff; auto; split; auto; exists a0; auto|right].
  unfold axis_outside in Hout, D. rewrite (nth_gp dims loc g r I a0 H1 Hl Ha0), (nth_gs dims loc a0 H1 Ha0) in Hout.
  rewrite (nth_gp dims loc g r J a0 H1 HlJ Ha0), (nth_gs dims loc a0 H1 Ha0) in D. rewrite HnJ in D by auto.
  pose proof (inb_nth _ _ a0 (unravel_inb dims r H2 Hr) ltac:(lia)) as Hcc. cbn beta in Hcc.
  pose proof (inb_nth _ _ a0 HI ltac:(unfold ghosted; rewrite map_length; lia)) as Hi. cbn beta in Hi. rewrite (sizes_nth loc g) in Hi by auto.
  assert (Hgn' : g <= nth a0 loc 0) by (rewrite Forall_forall in Hgn; apply Hgn; now apply nth_In).
  pose proof (nth_gp dims loc g r J a0 H1 HlJ Ha0) as EJ. rewrite HnJ in EJ by auto. pose proof (nth_gs dims loc a0 H1 Ha0) as EN.
  pose proof (HnJ a0 Ha0) as EJ0.
  remember (nth a0 (unravel dims r) 0) as cc. remember (nth a0 dims 0) as dd. remember (nth a0 loc 0) as n. remember (nth a0 I 0) as i.
  destruct (axis_out dd n g cc i Hcc ltac:(lia) Hi) as [A B].
  assert (a0 = b) by (destruct (Nat.eqb_spec a0 b); auto; lia). subst b. rewrite Nat.eqb_refl in *.
  split.
  - apply inner_axes; auto. intros a Ha. destruct (Nat.eq_dec a a0) as [->|Hne].
    + unfold axis_inner. rewrite EJ0, <- Heqn. destruct Hout as [Hout|Hout].
      * apply A in Hout as [-> Hout]. lia.
      * pose proof (proj1 B Hout) as [Ec Hout']. nia.
    + unfold axis_inner. rewrite HnJ by auto. destruct (Nat.eqb_spec a a0); [contradiction|]. rewrite Z.add_0_r. now apply Hinn.
  - apply (edge_at N _ a0); [now apply gp_length|unfold global_size; rewrite vmul_length; lia|]. rewrite EJ, EN.
    destruct Hout as [Hout|Hout]; lia.
Qed.
End OutStar.

(** *** Kernels that add to their outputs *)
Section Plain.
Context {T : Type}.
Variables (dims loc : list Z) (g ks : Z) (ins : list nat) (C : list (place * place)) (k : @kern T).
Variables (strips : list (list pslice)) (zv : Z -> list (list pslice)) (z : T).
Notation sizes := (ghosted g loc).
Notation n := (zprod dims).
Notation N := (global_size dims loc).
Hypothesis Hok : grid_ok dims loc.
Hypothesis Hks : 0 <= ks <= g.
Hypothesis Hg : 1 <= g.
Hypothesis HC : exch_facts false dims loc g ins C.
Hypothesis Hnd : NoDup (map fst k).
Hypothesis Hdis : forall f, In f ins -> ~ In f (map fst k).
Hypothesis Hloc : forall o K, In (o, K) k -> star_local (length loc) ins ks K.
Hypothesis Hstrips : Forall (fun v => length v = length sizes) strips.
Hypothesis Hzv : forall r, Forall (fun v => length v = length sizes) (zv r).
Notation prog := (halo loc g ks C k strips zv z).

(** Arrays that are not outputs keep their inner cells and the ghost values around the domain. *)
Lemma copies_ext (m : mem T) r f I : 0 <= r < n -> inb sizes I -> Qext false dims loc g r I ->
  field (run_copies C m) sizes r f I = field m sizes r f I.
Proof.
  intros Hr HI HQ. unfold field.
  destruct (in_dec Nat.eq_dec f ins) as [Hf|Hf]; [|now apply (copies_frame false dims loc g ins C HC)].
  destruct HQ as [HQ|[Hga Ho]]; [now apply (copies_inner false dims loc g ins C Hg HC)|].
  change (field (run_copies C m) sizes r f I = field m sizes r f I).
  rewrite (ef_ref _ _ _ _ _ _ HC) by auto. unfold refreshed. now rewrite Ho.
Qed.
Lemma plain_keep (m : mem T) r f I : 0 <= r < n -> inb sizes I -> Qext false dims loc g r I -> ~ In f (map fst k) ->
  field (den n prog m) sizes r f I = field m sizes r f I.
Proof.
  intros Hr HI HQ Hf. unfold field at 1. change (den n prog m) with (halo_post dims loc g ks C k strips zv z m).
  rewrite (halo_frame dims loc g ks C k strips zv z) by auto. now apply copies_ext.
Qed.
Lemma plain_ok : Forall (phase_ok n) prog.
Proof. now apply (halo_ok false dims loc g ks ins C k strips zv z). Qed.

Lemma plain_inner (m : mem T) u r I o K : represents_ext false dims loc g ins m u -> 0 <= r < n -> inner g loc I -> In (o, K) k ->
  zv r = [] -> passes loc g ks strips I = 1%nat ->
  field (den n prog m) sizes r o I = K (fun f d => u f (vadd (ghost_pos dims loc g r I) d)) (field m sizes r o I).
Proof.
  intros Hrep Hr HI Hin Hz Hp1. change (den n prog m) with (halo_post dims loc g ks C k strips zv z m).
  rewrite (halo_value false dims loc g ks ins C k strips zv z) with (K := K); auto; [|apply inner_inb; [lia|auto]].
  unfold zeroed. rewrite Hz. cbn [existsb]. rewrite Hp1. cbn [Nat.iter nat_rect]. apply (Hloc o K Hin). intros f d Hf Hd.
  rewrite (read_ext false dims loc g ks ins C z (fun a _ => a) Hok Hks Hg HC m u r I Hrep Hr HI f d Hf Hd). reflexivity.
Qed.
Lemma plain_zeroed (m : mem T) r I o K : 0 <= r < n -> inb sizes I -> In (o, K) k -> zeroed loc g zv r I = true ->
  field (den n prog m) sizes r o I = z.
Proof.
  intros Hr HI Hin Hz. change (den n prog m) with (halo_post dims loc g ks C k strips zv z m).
  rewrite (halo_value false dims loc g ks ins C k strips zv z) with (K := K); auto. now rewrite Hz.
Qed.

(** Forcing that vanishes outside the domain and on its outermost layer does not reach the ghost values around the domain. *)
Hypothesis Hgn : Forall (fun n => g <= n) loc.
Hypothesis Hunch : forall (m : mem T) r f I, 0 <= r < n -> inb sizes I -> owner false dims loc (ghost_pos dims loc g r I) = None ->
  field (run_copies C m) sizes r f I = field m sizes r f I.

Lemma plain_out (m : mem T) u r I o K : represents dims loc g ins m u ->
  (forall r f J, 0 <= r < n -> In f ins -> inb sizes J -> owner false dims loc (ghost_pos dims loc g r J) = None -> field m sizes r f J = z) ->
  (forall f P, In f ins -> inb N P -> edgeb false N P = true -> u f P = z) ->
  quiet z (length loc) ins 1 K -> ks = 1 -> zv r = [] ->
  0 <= r < n -> inb sizes I -> (ghost_axes g loc I <= 1)%nat -> owner false dims loc (ghost_pos dims loc g r I) = None -> In (o, K) k ->
  field (den n prog m) sizes r o I = field m sizes r o I.
Proof.
  intros Hrep Hmz Huz HK E1 Hz Hr HI Hga Ho Hin. change (den n prog m) with (halo_post dims loc g ks C k strips zv z m).
  rewrite (halo_value false dims loc g ks ins C k strips zv z) with (K := K); auto.
  unfold zeroed. rewrite Hz. cbn [existsb].
  destruct (passes loc g ks strips I) eqn:Ep; [reflexivity|]. rewrite <- Ep. apply iter_id. apply HK. intros f d Hf Hd.
  assert (Hsz : Forall (fun x => 0 <= x) sizes) by (apply (sizes_pos dims); auto).
  assert (Hls : length sizes = length loc) by (unfold ghosted; now rewrite map_length).
  assert (Hv : exists v, view_in 1 sizes v I = true).
  { rewrite E1 in Ep. unfold passes in Ep. destruct (view_in 1 sizes (map (fun _ => IN g) loc) I) eqn:Ev; [eauto|]. cbn [b2n] in Ep. clear - Ep.
    induction strips as [|v V IH]; cbn [fold_right] in Ep; [discriminate|]. destruct (view_in 1 sizes v I) eqn:Ev; [eauto|]. auto. }
  destruct Hv as [v Hv]. pose proof (view_star 1 sizes v I d ltac:(lia) Hv Hsz ltac:(now rewrite Hls)) as HJ.
  destruct (out_star dims loc g Hok Hg Hgn r I d Hr HI Hga Ho Hd HJ) as [Hn|[Hi He]].
  - rewrite Hunch by auto. now apply Hmz.
  - unfold field. rewrite (copies_inner false dims loc g ins C Hg HC) by auto.
    change (field m sizes r f (vadd I d) = z). destruct (sub_ok g loc _ Hi) as (x & Hx & E). rewrite E. rewrite Hrep by auto.
    assert (EP : ghost_pos dims loc g r (vadd I d) = vadd (block_start dims loc r) x).
    { rewrite E. unfold ghost_pos. rewrite map_map. rewrite (map_ext _ (fun x => x)) by (intros; lia). now rewrite map_id. }
    rewrite <- EP. apply Huz; auto. rewrite EP. now apply block_inside.
Qed.

(** Summary: update in place. *)
Hypothesis Hz0 : forall r, zv r = [].
Hypothesis Hp : forall x, inb loc x -> passes loc g ks strips (map (fun i => i + g) x) = 1%nat.

Lemma plain_step_inner Fs (m : mem T) u : represents_ext false dims loc g ins m u -> represents dims loc g Fs m u ->
  represents dims loc g Fs (den n prog m) (update_inside N k u).
Proof.
  intros He Hr r f x Hrr Hf Hx. unfold update_inside.
  assert (HI : inner g loc (map (fun i => i + g) x)) by now apply add_inner.
  assert (EP : ghost_pos dims loc g r (map (fun i => i + g) x) = vadd (block_start dims loc r) x).
  { unfold ghost_pos. rewrite map_map. rewrite (map_ext _ (fun x => x)) by (intros; lia). now rewrite map_id. }
  destruct (in_dec Nat.eq_dec f (map fst k)) as [Ho|Ho].
  - apply key_In in Ho as [K Hin]. rewrite (apply_at k _ _ _ u f K _ Hnd Hin).
    replace (inbb N (vadd (block_start dims loc r) x)) with true by (symmetry; apply inbb_spec; now apply block_inside).
    rewrite (plain_inner m u r _ f K He Hrr HI Hin (Hz0 r) (Hp x Hx)). rewrite EP. f_equal. now apply Hr.
  - rewrite (apply_off k _ _ _ u f) by auto. rewrite plain_keep; auto; [apply inner_inb; [lia|auto]|now left].
Qed.
Lemma plain_step_ext Fs (m : mem T) u : incl ins Fs -> represents_ext false dims loc g Fs m u ->
  (forall r f J, 0 <= r < n -> In f ins -> inb sizes J -> owner false dims loc (ghost_pos dims loc g r J) = None -> field m sizes r f J = z) ->
  (forall f P, In f ins -> inb N P -> edgeb false N P = true -> u f P = z) ->
  (forall o K, In (o, K) k -> quiet z (length loc) ins 1 K) -> ks = 1 ->
  represents_ext false dims loc g Fs (den n prog m) (update_inside N k u).
Proof.
  intros Hi He Hmz Huz HK E1 r f I Hr Hf HI HQ.
  pose proof (ext_sub dims loc g false _ _ m u Hi He) as Hei.
  destruct HQ as [HQ|[Hga Ho]].
  - destruct (sub_ok g loc I HQ) as (x & Hx & ->).
    rewrite (plain_step_inner Fs m u Hei (ext_represents dims loc g Hg Fs m u He) r f x Hr Hf Hx). f_equal.
    unfold ghost_pos. rewrite map_map. rewrite (map_ext _ (fun x => x)) by (intros; lia). now rewrite map_id.
  - unfold update_inside.
    assert (Eb : inbb N (ghost_pos dims loc g r I) = false).
    { destruct (inbb _ _) eqn:E; auto. exfalso. apply inbb_spec in E. unfold owner in Ho. rewrite (wrapv_in false _ _ E) in Ho. discriminate. }
    destruct (in_dec Nat.eq_dec f (map fst k)) as [Hk|Hk].
    + apply key_In in Hk as [K Hin]. rewrite (apply_at k _ _ _ u f K _ Hnd Hin), Eb.
      pose proof (ext_represents dims loc g Hg ins m u Hei) as Hri.
      rewrite (plain_out m u r I f K Hri Hmz Huz (HK f K Hin) E1 (Hz0 r) Hr HI Hga Ho Hin). apply He; auto.
    + rewrite (apply_off k _ _ _ u f) by auto. rewrite plain_keep by (auto; right; auto). apply He; auto.
Qed.
End Plain.
