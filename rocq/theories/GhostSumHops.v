(** The hops of the ghost summation add up to the sum over all copies. *)
From Coq Require Import FunctionalExtensionality Permutation.
From Verif Require Import Base SpecGrid SpecPenalise SpecGhostSum Cart CartFacts Comm PenaliseProofs GhostSumProofs.

Lemma setn_comm P a b v w : a <> b -> setn (setn P a v) b w = setn (setn P b w) a v.
Proof. revert a b. induction P as [|p P IH]; intros [|a] [|b] H; cbn [setn]; auto; try congruence. f_equal. apply IH. congruence. Qed.

Section Hops.
Context {T : Type}.
Variables (add : T -> T -> T) (z : T) (dims loc : list Z) (g : Z).
Hypothesis Hm : comm_monoid add z.
Hypothesis Hg : grid_ok dims loc.
Hypothesis Hg0 : 1 <= g.
Hypothesis Hgn : Forall (fun n => g <= n) loc.
Notation hop := (hop add z dims loc g).
Notation V_ := (list Z -> list Z -> T).

Lemma cm_zero_l x : add z x = x.
Proof. rewrite (cm_comm _ _ Hm). apply (cm_zero _ _ Hm). Qed.

Lemma hop_comm a s b t (V : V_) : a <> b -> hop a s (hop b t V) = hop b t (hop a s V).
Proof.
  intros Hab. apply functional_extensionality; intros cs. apply functional_extensionality; intros I. unfold GhostSumProofs.hop.
  rewrite !(nth_setn_neq _ a b) by congruence. rewrite !(nth_setn_neq _ b a) by congruence.
  rewrite (setn_comm cs a b), (setn_comm I a b) by auto.
  destruct ((lo1 loc g a s <=? nth a I 0) && _); destruct ((lo1 loc g b t <=? nth b I 0) && _); try reflexivity.
  destruct ((0 <=? nth a cs 0 - s) && _); destruct ((0 <=? nth b cs 0 - t) && _); rewrite ?(cm_zero _ _ Hm); try reflexivity.
  rewrite <- !(cm_assoc _ _ Hm). f_equal. rewrite !(cm_assoc _ _ Hm). f_equal. apply (cm_comm _ _ Hm).
Qed.

(** Copies of a cell along axis a. *)
Definition ch (a : nat) (x : list Z * list Z) : list (list Z * list Z) :=
  let c := nth a (fst x) 0 in let i := nth a (snd x) 0 in let n := nth a loc 0 in
  [x] ++ (if (i <? 2 * g) && (1 <=? c) then [(setn (fst x) a (c - 1), setn (snd x) a (i + n))] else [])
      ++ (if (n <=? i) && (c + 1 <? nth a dims 0) then [(setn (fst x) a (c + 1), setn (snd x) a (i - n))] else []).

Lemma total_app l k : total add z (l ++ k) = add (total add z l) (total add z k).
Proof. induction l as [|x l IH]; cbn [app total fold_right]; [now rewrite cm_zero_l|]. unfold total in *. now rewrite IH, (cm_assoc _ _ Hm). Qed.
Lemma total_perm l k : Permutation l k -> total add z l = total add z k.
Proof.
  induction 1; cbn [total fold_right]; auto; try congruence. - unfold total in *. now rewrite IHPermutation.
  - rewrite !(cm_assoc _ _ Hm). f_equal. apply (cm_comm _ _ Hm).
Qed.
Lemma total_flat {A} (F : A -> list T) L : total add z (flat_map F L) = total add z (map (fun x => total add z (F x)) L).
Proof. induction L as [|x L IH]; cbn [flat_map map]; [reflexivity|]. rewrite total_app, IH. reflexivity. Qed.

Definition on (V : V_) (x : list Z * list Z) : T := V (fst x) (snd x).

Lemma pair_ch a (V : V_) cs I : (a < length loc)%nat -> length I = length loc -> g <= nth a I 0 < g + nth a loc 0 -> 0 <= nth a cs 0 < nth a dims 0 ->
  length cs = length loc ->
  hop a (-1) (hop a 1 V) cs I = total add z (map (on V) (ch a (cs, I))).
Proof.
  intros Ha HlI HI Hc Hlc. unfold GhostSumProofs.hop, ch, lo1. change (-1 =? 1) with false. change (1 =? 1) with true. cbn iota. cbn [fst snd]. cbn zeta.
  rewrite !nth_setn_eq by lia. rewrite ?setn_setn.
  replace (nth a cs 0 - -1) with (nth a cs 0 + 1) by lia. replace (nth a I 0 + -1 * nth a loc 0) with (nth a I 0 - nth a loc 0) by lia. replace (nth a I 0 + 1 * nth a loc 0) with (nth a I 0 + nth a loc 0) by lia.
  rewrite (proj2 (Z.leb_le g (nth a I 0))) by lia. replace (g + g) with (2 * g) by lia. cbn [andb].
  rewrite (proj2 (Z.ltb_lt (nth a I 0) (nth a loc 0 + g))) by lia. rewrite andb_true_r.
  rewrite (proj2 (Z.leb_le 0 (nth a cs 0 + 1))) by lia. cbn [andb].
  rewrite (proj2 (Z.ltb_lt (nth a cs 0 - 1) (nth a dims 0))) by lia. rewrite andb_true_r.
  replace (0 <=? nth a cs 0 - 1) with (1 <=? nth a cs 0) by (destruct (Z.leb_spec 1 (nth a cs 0)); destruct (Z.leb_spec 0 (nth a cs 0 - 1)); lia).
  rewrite (proj2 (Z.leb_gt g (nth a I 0 - nth a loc 0))) by lia. cbn [andb].
  unfold total, on. 
  destruct (nth a I 0 <? 2 * g); destruct (1 <=? nth a cs 0); destruct (nth a loc 0 <=? nth a I 0); destruct (nth a cs 0 + 1 <? nth a dims 0);
    cbn [andb app map fold_right fst snd]; rewrite ?(cm_zero _ _ Hm); try reflexivity; try (now rewrite <- !(cm_assoc _ _ Hm)).
Qed.

(** Copies along several axes. *)
Definition chs (axes : list nat) (x : list Z * list Z) : list (list Z * list Z) := fold_left (fun l a => flat_map (ch a) l) axes [x].
Definition ok_at (a : nat) (x : list Z * list Z) : Prop := g <= nth a (snd x) 0 < g + nth a loc 0 /\ 0 <= nth a (fst x) 0 < nth a dims 0.
Definition ok_len2 (x : list Z * list Z) : Prop := length (fst x) = length loc /\ length (snd x) = length loc.

Definition near (a : nat) (x y : list Z * list Z) : Prop :=
  exists k, (k = 0 \/ (k = -1 /\ nth a (snd x) 0 < 2 * g /\ 1 <= nth a (fst x) 0) \/ (k = 1 /\ nth a loc 0 <= nth a (snd x) 0 /\ nth a (fst x) 0 + 1 < nth a dims 0)) /\
    fst y = setn (fst x) a (nth a (fst x) 0 + k) /\ snd y = setn (snd x) a (nth a (snd x) 0 - k * nth a loc 0).
Lemma ch_near a x y : In y (ch a x) <-> near a x y.
Proof.
  destruct x as [cs I], y as [cs' I']. unfold ch, near. cbn [fst snd]. rewrite !in_app_iff. split.
  - intros [[E|[]]|[H|H]].
    + injection E as <- <-. exists 0. rewrite !Z.add_0_r, Z.mul_0_l, Z.sub_0_r, !setn_same. auto.
    + destruct (_ && _) eqn:E; [|destruct H]. apply andb_true_iff in E. rewrite Z.ltb_lt, Z.leb_le in E. destruct H as [H|[]]. injection H as <- <-. exists (-1). split; [right; left; lia|]. split; f_equal; lia.
    + destruct (_ && _) eqn:E; [|destruct H]. apply andb_true_iff in E. rewrite Z.ltb_lt, Z.leb_le in E. destruct H as [H|[]]. injection H as <- <-. exists 1. split; [right; right; lia|]. split; f_equal; lia.
  - intros (k & [-> | [(-> & H1 & H2) | (-> & H1 & H2)]] & -> & ->).
    + left. left. now rewrite !Z.add_0_r, Z.mul_0_l, Z.sub_0_r, !setn_same.
    + right. left. rewrite (proj2 (andb_true_iff _ _)) by (rewrite Z.ltb_lt, Z.leb_le; lia). left. f_equal; f_equal; lia.
    + right. right. rewrite (proj2 (andb_true_iff _ _)) by (rewrite Z.ltb_lt, Z.leb_le; lia). left. f_equal; f_equal; lia.
Qed.
Lemma near_len a x y : near a x y -> ok_len2 x -> ok_len2 y.
Proof. intros (k & _ & E1 & E2) [H1 H2]. unfold ok_len2. rewrite E1, E2, !setn_len. auto. Qed.
Lemma near_other a b x y : near a x y -> a <> b -> nth b (fst y) 0 = nth b (fst x) 0 /\ nth b (snd y) 0 = nth b (snd x) 0.
Proof. intros (k & _ & E1 & E2) H. rewrite E1, E2, !nth_setn_neq by auto. auto. Qed.
Lemma near_ok a b x y : near a x y -> a <> b -> ok_at b x -> ok_at b y.
Proof. intros H Hab. destruct (near_other a b x y H Hab) as [E1 E2]. unfold ok_at. now rewrite E1, E2. Qed.

Definition pairs (axes : list nat) (V : V_) : V_ := fold_right (fun a V => hop a (-1) (hop a 1 V)) V axes.
Lemma flat_map_flat {A B C} (f : A -> list B) (h : B -> list C) l : flat_map h (flat_map f l) = flat_map (fun x => flat_map h (f x)) l.
Proof. induction l; cbn [flat_map]; auto. now rewrite flat_map_app, IHl. Qed.
Lemma chs_flat axes : forall l, fold_left (fun l a => flat_map (ch a) l) axes l = flat_map (chs axes) l.
Proof.
  induction axes as [|a axes IH]; intros l; unfold chs; cbn [fold_left].
  - induction l; cbn [flat_map]; auto. rewrite <- IHl. reflexivity.
  - rewrite IH, flat_map_flat. apply flat_map_ext'. intros x _. cbn [flat_map]. rewrite app_nil_r. now rewrite IH.
Qed.
Lemma chs_cons a axes x : chs (a :: axes) x = flat_map (chs axes) (ch a x).
Proof. unfold chs. cbn [fold_left flat_map]. rewrite app_nil_r. apply chs_flat. Qed.

Lemma pairs_chs axes (V : V_) : NoDup axes -> Forall (fun a => (a < length loc)%nat) axes -> forall x, ok_len2 x -> (forall a, In a axes -> ok_at a x) ->
  pairs axes V (fst x) (snd x) = total add z (map (on V) (chs axes x)).
Proof.
  intros Hn. induction Hn as [|a axes Ha Hn IH]; intros Hr x Hx Hok.
  - cbn. symmetry. apply (cm_zero _ _ Hm).
  - inversion Hr; subst. cbn [pairs fold_right]. destruct (Hok a (or_introl eq_refl)) as [O1 O2]. destruct Hx as [L1 L2].
    rewrite pair_ch by auto. rewrite chs_cons, map_flat_map', total_flat. f_equal. rewrite <- surjective_pairing. apply map_ext_in. intros y Hy. apply ch_near in Hy.
    unfold on. apply IH; auto.
    + eapply near_len; eauto. split; auto.
    + intros b Hb. apply (near_ok a b x y Hy); [intros ->; contradiction|]. apply Hok. now right.
Qed.

Fixpoint nears (axes : list nat) (x y : list Z * list Z) : Prop :=
  match axes with [] => x = y | a :: axes' => exists w, near a x w /\ nears axes' w y end.
Lemma chs_nears axes : forall x y, In y (chs axes x) <-> nears axes x y.
Proof.
  induction axes as [|a axes IH]; intros x y; [cbn; intuition|]. rewrite chs_cons, in_flat_map. cbn [nears]. split.
  - intros (w & H1 & H2). exists w. split; [now apply ch_near|now apply IH].
  - intros (w & H1 & H2). exists w. split; [now apply ch_near|now apply IH].
Qed.
Lemma nears_other axes : forall x y b, nears axes x y -> ~ In b axes -> nth b (fst y) 0 = nth b (fst x) 0 /\ nth b (snd y) 0 = nth b (snd x) 0.
Proof.
  induction axes as [|a axes IH]; intros x y b H Hb; [cbn in H; subst; auto|]. destruct H as (w & H1 & H2). cbn [In] in Hb.
  destruct (IH w y b H2) as [E1 E2]; [tauto|]. rewrite E1, E2. apply (near_other a b x w H1). intros ->. tauto.
Qed.
Lemma ch_NoDup a x : (a < length loc)%nat -> ok_len2 x -> NoDup (ch a x).
Proof.
  intros Ha [L1 L2]. destruct x as [cs I]. unfold ch. cbn [fst snd] in *. apply NoDup_map_inv with (f := fun y : list Z * list Z => nth a (fst y) 0).
  destruct ((nth a I 0 <? 2 * g) && _); destruct ((nth a loc 0 <=? nth a I 0) && _); cbn [app map fst]; rewrite ?nth_setn_eq by lia; repeat constructor; cbn [In]; lia.
Qed.
Lemma near_inj a x w w' : (a < length loc)%nat -> ok_len2 x -> near a x w -> near a x w' -> nth a (fst w) 0 = nth a (fst w') 0 -> w = w'.
Proof.
  intros Ha [L1 L2] (k & _ & E1 & E2) (k' & _ & E1' & E2') E. destruct w as [wc wi], w' as [wc' wi']. cbn [fst snd] in *. subst. rewrite !nth_setn_eq in E by lia. assert (k = k') by lia. now subst.
Qed.
Lemma chs_NoDup axes : NoDup axes -> Forall (fun a => (a < length loc)%nat) axes -> forall x, ok_len2 x -> NoDup (chs axes x).
Proof.
  intros Hn. induction Hn as [|a axes Ha Hn IH]; intros Hr x Hx; [repeat constructor; intros []|]. inversion Hr; subst. rewrite chs_cons. apply NoDup_flat_map.
  - now apply ch_NoDup.
  - intros w Hw. apply IH; auto. apply ch_near in Hw. eapply near_len; eauto.
  - intros w w' y Hw Hw' Hy Hy'. apply ch_near in Hw, Hw'. apply chs_nears in Hy, Hy'. apply (near_inj a x w w'); auto.
    rewrite <- (proj1 (nears_other axes w y a Hy Ha)). now rewrite <- (proj1 (nears_other axes w' y a Hy' Ha)).
Qed.
Lemma nears_len axes : forall x y, nears axes x y -> ok_len2 x -> ok_len2 y.
Proof. induction axes as [|a axes IH]; intros x y H Hx; [cbn in H; now subst|]. destruct H as (w & H1 & H2). eapply IH; eauto. eapply near_len; eauto. Qed.

(** One coordinate. *)
Definition near1 (a : nat) (x y : list Z * list Z) : Prop :=
  exists k, (k = 0 \/ (k = -1 /\ nth a (snd x) 0 < 2 * g /\ 1 <= nth a (fst x) 0) \/ (k = 1 /\ nth a loc 0 <= nth a (snd x) 0 /\ nth a (fst x) 0 + 1 < nth a dims 0)) /\
    nth a (fst y) 0 = nth a (fst x) 0 + k /\ nth a (snd y) 0 = nth a (snd x) 0 - k * nth a loc 0.
Lemma nears_spec axes : NoDup axes -> Forall (fun a => (a < length loc)%nat) axes -> forall x y, ok_len2 x -> ok_len2 y ->
  (nears axes x y <-> (forall a, In a axes -> near1 a x y) /\ (forall b, (b < length loc)%nat -> ~ In b axes -> nth b (fst y) 0 = nth b (fst x) 0 /\ nth b (snd y) 0 = nth b (snd x) 0)).
Proof.
  intros Hn. induction Hn as [|a axes Ha Hn IH]; intros Hr x y Hx Hy.
  - cbn [nears]. split; [intros ->; split; [intros a []|auto]|]. intros [_ H]. destruct Hx as [X1 X2], Hy as [Y1 Y2]. destruct x as [xc xi], y as [yc yi]. cbn [fst snd] in *.
    f_equal; (apply nth_ext with (d := 0) (d' := 0); [lia|]; intros k Hk; symmetry; apply (H k); [lia|intros []]).
  - inversion Hr; subst. cbn [nears]. split.
    + intros (w & H1' & H2'). pose proof (near_len _ _ _ H1' Hx) as Hw. split.
      * intros b [<- |Hb].
        -- destruct (nears_other _ _ _ a H2' Ha) as [E1 E2]. destruct H1' as (k & Hk & F1 & F2). exists k. split; auto. rewrite E1, E2, F1, F2. destruct Hx. rewrite !nth_setn_eq by lia. auto.
        -- apply (IH H2 w y Hw Hy) in H2' as [H2' _]. destruct (H2' b Hb) as (k & Hk & F1 & F2). assert (Hab : a <> b) by (intros ->; contradiction).
           destruct (near_other a b x w H1' Hab) as [E1 E2]. rewrite E1, E2 in *. exists k. auto.
      * intros b Hb Hb'. cbn [In] in Hb'. assert (Hab : a <> b) by (intros ->; tauto). destruct (near_other a b x w H1' Hab) as [E1 E2].
        destruct (nears_other _ _ _ b H2') as [E3 E4]; [tauto|]. now rewrite E3, E4.
    + intros [N1 N2]. destruct (N1 a (or_introl eq_refl)) as (k & Hk & F1 & F2).
      set (w := (setn (fst x) a (nth a (fst x) 0 + k), setn (snd x) a (nth a (snd x) 0 - k * nth a loc 0))).
      assert (Nw : near a x w) by (exists k; auto). exists w. split; auto. pose proof (near_len _ _ _ Nw Hx) as Hw. apply (IH H2 w y Hw Hy). split.
      * intros b Hb. assert (Hab : a <> b) by (intros ->; contradiction). destruct (near_other a b x w Nw Hab) as [E1 E2]. destruct (N1 b (or_intror Hb)) as (k' & Hk' & G1 & G2). exists k'. now rewrite E1, E2.
      * intros b Hb Hb'. destruct (Nat.eq_dec b a) as [-> |Hne].
        -- destruct Hx. cbn [w fst snd]. now rewrite !nth_setn_eq by lia.
        -- destruct (near_other a b x w Nw (not_eq_sym Hne)) as [E1 E2]. rewrite E1, E2. apply N2; auto. intros [X|X]; [congruence|contradiction].
Qed.

(** All copies. *)
Lemma inner_nth I a : inner g loc I -> (a < length loc)%nat -> g <= nth a I 0 < g + nth a loc 0.
Proof.
  unfold inner. clear Hg Hgn. revert I a. induction loc as [|n l IH]; intros I a H Ha; cbn [length] in Ha; [lia|]. inversion H; subst. destruct a; cbn [nth]; auto. apply IH; auto. lia.
Qed.
Lemma vadd_nth_eq cs cs' I I' : length cs = length loc -> length cs' = length loc -> length I = length loc -> length I' = length loc ->
  (vadd (vmul cs loc) (map (fun i => i - g) I) = vadd (vmul cs' loc) (map (fun i => i - g) I') <->
   forall a, (a < length loc)%nat -> nth a cs 0 * nth a loc 0 + nth a I 0 = nth a cs' 0 * nth a loc 0 + nth a I' 0).
Proof.
  clear Hg Hgn. revert cs cs' I I'. induction loc as [|n l IH]; intros [|c cs] [|c' cs'] [|i I] [|i' I'] A B C D; try discriminate.
  - cbn. split; [intros _ a Ha; lia|auto].
  - cbn [vmul map vadd]. cbn [length] in *. split.
    + intros E. injection E as E1 E2. rewrite IH in E2 by lia. intros [|a] Ha; cbn [nth]; [lia|]. apply E2. lia.
    + intros H. f_equal; [specialize (H O ltac:(lia)); cbn [nth] in H; lia|]. rewrite IH by lia. intros a Ha. apply (H (S a)). lia.
Qed.
Lemma inb_spec N P : inb N P <-> length P = length N /\ forall a, (a < length N)%nat -> 0 <= nth a P 0 < nth a N 0.
Proof.
  split.
  - intros H. split; [now apply inb_length|]. intros. now apply CartFacts.inb_nth.
  - revert P. induction N as [|n N IH]; intros [|p P] [H1 H2]; try discriminate; constructor.
    + apply (H2 O). cbn [length]. lia.
    + apply IH. split; [cbn [length] in H1; lia|]. intros a Ha. apply (H2 (S a)). cbn [length]. lia.
Qed.

Lemma copies_perm r I : 0 <= r < zprod dims -> inner g loc I ->
  Permutation (map (fun rI => (unravel dims (fst rI), snd rI)) (copies_of dims loc g (ghost_pos dims loc g r I))) (chs (seq 0 (length loc)) (unravel dims r, I)).
Proof.
  intros Hr HI. destruct Hg as [Hl Hd Hlo].
  assert (HlI : length I = length loc) by (apply in_box_length in HI; tauto).
  assert (Hx : ok_len2 (unravel dims r, I)) by (split; cbn [fst snd]; [rewrite unravel_length; lia|auto]).
  assert (Hu := proj2 (proj1 (inb_spec _ _) (unravel_inb dims r Hd Hr))).
  assert (Hrange : Forall (fun a => (a < length loc)%nat) (seq 0 (length loc))) by (apply Forall_forall; intros a Ha; apply in_seq in Ha; lia).
  apply NoDup_Permutation.
  - apply NoDup_map_inv with (f := fun x => (ravel dims (fst x), snd x)). rewrite map_map. cbn [fst snd].
    erewrite map_ext_in; [rewrite map_id|].
    + unfold copies_of. apply NoDup_filter.
      assert (NP : forall (A B : Type) (l : list A) (l' : list B), NoDup l -> NoDup l' -> NoDup (list_prod l l')).
      { clear. intros A B l l' H H'. induction H as [|x l Hx H IH]; cbn [list_prod]; [constructor|].
        assert (G : forall k, NoDup k -> NoDup (map (fun y : B => (x, y)) k ++ list_prod l l')).
        { intros k. induction 1 as [|y k Hy Hk IHk]; cbn [map app]; auto. constructor; auto. rewrite in_app_iff, in_map_iff, in_prod_iff. intros [(y' & E & Hy')|[X _]]; [congruence|contradiction]. }
        now apply G. }
      apply NP; [apply zrange_NoDup|apply box_NoDup].
    + intros [q J] Hq. unfold copies_of in Hq. apply filter_In in Hq as [Hq _]. apply in_prod_iff in Hq as [Hq _]. apply zrange_In in Hq. cbn [fst snd]. now rewrite ravel_unravel by (auto; lia).
  - apply chs_NoDup; auto using seq_NoDup.
  - intros [cs J]. rewrite chs_nears. unfold copies_of. rewrite in_map_iff.
    assert (Hbox : forall J, In J (box (map (fun _ => 0) loc) (ghosted g loc)) <-> inb (ghosted g loc) J).
    { intros J'. rewrite <- (box0_inb (ghosted g loc) J'). unfold ghosted. now rewrite map_map. }
    split.
    + intros ([q J'] & E & Hq). cbn [fst snd] in E. injection E as <- ->. apply filter_In in Hq as [Hq Hc]. apply in_prod_iff in Hq as [Hq HJ]. apply zrange_In in Hq. apply Hbox in HJ. cbn [fst snd] in Hc.
      assert (HlJ : length J = length loc) by (apply inb_length in HJ; now rewrite HJ, sizes_len).
      unfold cell_eqb in Hc. destruct (list_eq_dec _ _ _) as [Hc'|]; [|discriminate]. clear Hc. unfold ghost_pos, block_start in Hc'.
      assert (Hq' : 0 <= q < zprod dims) by lia. assert (Huq := proj2 (proj1 (inb_spec _ _) (unravel_inb dims q Hd Hq'))).
      rewrite vadd_nth_eq in Hc' by (rewrite ?unravel_length; lia).
      apply nears_spec; auto using seq_NoDup.
      * split; cbn [fst snd]; [rewrite unravel_length; lia|auto].
      * split; [|intros b Hb Hb'; exfalso; apply Hb', in_seq; lia]. intros a Ha. apply in_seq in Ha. assert (Ha' : (a < length loc)%nat) by lia.
        specialize (Hc' a Ha'). specialize (Hu a ltac:(lia)). specialize (Huq a ltac:(lia)). pose proof (inner_nth I a HI Ha') as Hi.
        pose proof (proj2 (proj1 (inb_spec _ _) HJ) a ltac:(rewrite sizes_len; auto)) as Hj. rewrite nth_sizes in Hj by auto.
        assert (Hna : g <= nth a loc 0) by (rewrite Forall_forall in Hgn; apply Hgn; now apply nth_In).
        unfold near1. cbn [fst snd]. set (c := nth a (unravel dims r) 0) in *. set (c' := nth a (unravel dims q) 0) in *. set (n := nth a loc 0) in *. set (i := nth a I 0) in *. set (j := nth a J 0) in *.
        assert (Ej : j = i - (c' - c) * n) by lia.
        assert (Hk : c' - c = 0 \/ c' - c = -1 \/ c' - c = 1) by nia.
        exists (c' - c). split; [|lia]. destruct Hk as [E|[E|E]]; rewrite E in *; [left; lia|right; left; nia|right; right; nia].
    + intros Hn. pose proof (nears_len _ _ _ Hn Hx) as Hy. apply nears_spec in Hn as [Hn _]; auto using seq_NoDup. destruct Hy as [Y1 Y2]. cbn [fst snd] in Y1, Y2. unfold near1 in Hn. cbn [fst snd] in Hn.
      assert (Hin : forall a, (a < length loc)%nat -> In a (seq 0 (length loc))) by (intros; apply in_seq; lia).
      assert (HcI : inb dims cs).
      { apply inb_spec. split; [lia|]. intros a Ha. destruct (Hn a (Hin a ltac:(lia))) as (k & Hk & E1 & _). specialize (Hu a Ha). rewrite E1. lia. }
      exists (ravel dims cs, J). cbn [fst snd]. rewrite unravel_ravel by auto. split; auto. apply filter_In. split.
      * apply in_prod_iff. split; [apply zrange_In; pose proof (ravel_bound _ _ HcI); lia|]. apply Hbox. apply inb_spec. rewrite sizes_len. split; auto.
        intros a Ha. rewrite nth_sizes by auto. destruct (Hn a (Hin a Ha)) as (k & Hk & _ & E2). pose proof (inner_nth I a HI Ha) as Hi.
        assert (Hna : g <= nth a loc 0) by (rewrite Forall_forall in Hgn; apply Hgn; now apply nth_In). rewrite E2. destruct Hk as [-> | [(-> & K1 & K2) | (-> & K1 & K2)]]; lia.
      * unfold cell_eqb. destruct (list_eq_dec _ _ _) as [|Hc]; [reflexivity|]. exfalso. apply Hc. cbn [fst snd]. unfold ghost_pos, block_start. rewrite unravel_ravel by auto.
        apply vadd_nth_eq; rewrite ?unravel_length; try lia. intros a Ha. destruct (Hn a (Hin a Ha)) as (k & Hk & E1 & E2). rewrite E1, E2. lia.
Qed.

Lemma pairs_copies (V : V_) r I : 0 <= r < zprod dims -> inner g loc I ->
  pairs (seq 0 (length loc)) V (unravel dims r) I = total add z (map (fun rI => V (unravel dims (fst rI)) (snd rI)) (copies_of dims loc g (ghost_pos dims loc g r I))).
Proof.
  intros Hr HI. destruct Hg as [Hl Hd Hlo]. pose proof (proj2 (proj1 (inb_spec _ _) (unravel_inb dims r Hd Hr))) as Hu.
  etransitivity; [refine (pairs_chs (seq 0 (length loc)) V _ _ (unravel dims r, I) _ _)|].
  - apply seq_NoDup.
  - apply Forall_forall. intros a Ha. apply in_seq in Ha. lia.
  - split; cbn [fst snd]; [rewrite unravel_length; lia|]. apply in_box_length in HI. tauto.
  - intros a Ha. apply in_seq in Ha. split; cbn [fst snd]; [apply inner_nth; auto; lia|apply Hu; lia].
  - rewrite <- (total_perm _ _ (Permutation_map (on V) (copies_perm r I Hr HI))). rewrite map_map. reflexivity.
Qed.
End Hops.
