(** Proofs behind C27 and C28. *)
From Coq Require Import FunctionalExtensionality Permutation.
From Verif Require Import Base SpecGrid SpecPenalise SpecGhostSum Cart CartFacts Comm Blocking SpecBlocking BlockFacts Spmd Ghost2D Ghost3D Stencil GhostGeo Penalise PenaliseProofs StageRun LagComm GhostSum.
Arguments run_lops : simpl never.
Arguments addr_eq : simpl never.
Arguments place_dec : simpl never.

(** *** Cartesian shifts *)
Lemma wrap_at_setn dims cs : inb dims cs -> forall a s, (a < length dims)%nat ->
  wrap_at false dims a (add_at a s cs) = let q := nth a cs 0 + s in if (0 <=? q) && (q <? nth a dims 0) then Some (setn cs a q) else None.
Proof.
  unfold wrap_at. induction 1 as [|d ds c cs Hc H IH]; intros a s Ha; simpl in Ha; [lia|]. destruct a as [|a].
  - cbn [nth_error add_at nth firstn skipn app setn]. unfold wrap. cbn zeta. destruct ((0 <=? c + s) && (c + s <? d)); reflexivity.
  - cbn [nth_error add_at nth firstn skipn app setn]. specialize (IH a s ltac:(lia)). cbn zeta in *.
    destruct (nth_error ds a) as [d'|]; [|destruct ((0 <=? _) && _); congruence].
    destruct (nth_error (add_at a s cs) a) as [c'|]; [|destruct ((0 <=? _) && _); congruence].
    destruct (wrap false d' c'); destruct ((0 <=? nth a cs 0 + s) && _); try congruence. injection IH as IH. f_equal. cbn [firstn skipn app] in *. now rewrite IH.
Qed.
Lemma shift_spec dims r a s : positive dims -> 0 <= r < zprod dims -> (a < length dims)%nat ->
  cart_shift_dest false dims r a s =
    let q := nth a (unravel dims r) 0 + s in if (0 <=? q) && (q <? nth a dims 0) then Some (ravel dims (setn (unravel dims r) a q)) else None.
Proof.
  intros Hd Hr Ha. unfold cart_shift_dest, cart_coords. rewrite wrap_at_setn by (auto using unravel_inb). cbn zeta. destruct (_ && _); reflexivity.
Qed.
Lemma ravel_setn dims : positive dims -> forall cs a, length cs = length dims -> (a < length dims)%nat ->
  exists k, 1 <= k /\ forall v, ravel dims (setn cs a v) = ravel dims cs + (v - nth a cs 0) * k.
Proof.
  induction 1 as [|d ds Hd Hds IH]; intros cs a Hl Ha; simpl in Ha; [lia|]. destruct cs as [|c cs]; [discriminate|]. destruct a as [|a]; cbn [setn nth ravel].
  - exists (zprod ds). split; [now apply zprod_pos|]. intros v. lia.
  - destruct (IH cs a ltac:(simpl in Hl; lia) ltac:(lia)) as (k & Hk & E). exists k. split; auto. intros v. rewrite E. lia.
Qed.
Lemma inb_setn N P a v : inb N P -> 0 <= v < nth a N 0 -> inb N (setn P a v).
Proof. apply setn_inb. Qed.
Lemma inb_nth N P a : inb N P -> (a < length N)%nat -> 0 <= nth a P 0 < nth a N 0.
Proof. intros H. revert a. induction H as [|n N p P Hp H IH]; intros a Ha; simpl in Ha; [lia|]. destruct a; cbn [nth]; auto. apply IH. lia. Qed.

(** *** Local updates of distinct cells *)
Section Distinct.
Context {T A : Type}.
Variables (ad : A -> addr) (F : A -> @lmemT T -> T).
Lemma run_distinct L : NoDup (map ad L) ->
  (forall x m m', In x L -> m (ad x) = m' (ad x) -> (forall b, ~ In b (map ad L) -> m b = m' b) -> F x m = F x m') ->
  forall m, (forall x, In x L -> run_lops (map (fun x => {| la := ad x; lf := F x |}) L) m (ad x) = F x m) /\
            (forall b, ~ In b (map ad L) -> run_lops (map (fun x => {| la := ad x; lf := F x |}) L) m b = m b).
Proof.
  intros Hn HF.
  assert (G : forall S L', L = S ++ L' -> forall m0 m, (forall x, In x L' -> m (ad x) = m0 (ad x)) -> (forall b, ~ In b (map ad L) -> m b = m0 b) ->
    (forall x, In x L' -> run_lops (map (fun x => {| la := ad x; lf := F x |}) L') m (ad x) = F x m0) /\
    (forall b, ~ In b (map ad L') -> run_lops (map (fun x => {| la := ad x; lf := F x |}) L') m b = m b)).
  { intros S L'. revert S. induction L' as [|y L' IH]; intros S E m0 m H1 H2; [split; [intros x []|reflexivity]|].
    assert (Hy : ~ In (ad y) (map ad L')). { rewrite E, map_app in Hn. cbn [map] in Hn. apply NoDup_remove_2 in Hn. intros X. apply Hn, in_app_iff. now right. }
    assert (HyL : In (ad y) (map ad L)) by (rewrite E, map_app; apply in_app_iff; right; now left).
    assert (Ey : F y m = F y m0). { apply HF; [rewrite E; apply in_app_iff; right; now left|apply H1; now left|exact H2]. }
    set (m1 := lop1 m {| la := ad y; lf := F y |}).
    destruct (IH (S ++ [y]) ltac:(rewrite <- app_assoc; exact E) m0 m1) as [I1 I2].
    { intros x Hx. unfold m1, lop1. cbn [la lf]. destruct (addr_eq (ad x) (ad y)) as [X|X]; [exfalso; apply Hy; rewrite <- X; now apply in_map|]. apply H1. now right. }
    { intros b Hb. unfold m1, lop1. cbn [la lf]. destruct (addr_eq b (ad y)) as [-> |]; [contradiction|]. now apply H2. }
    unfold run_lops in *. cbn [map fold_left]. fold m1. split.
    - intros x [-> |Hx]; [|now apply I1]. rewrite I2 by auto. unfold m1, lop1. cbn [la lf]. destruct (addr_eq (ad x) (ad x)); congruence.
    - intros b Hb. cbn [In] in Hb. rewrite I2 by tauto. unfold m1, lop1. cbn [la lf]. destruct (addr_eq b (ad y)) as [-> |]; [tauto|reflexivity]. }
  intros m. destruct (G [] L eq_refl m m) as [G1 G2]; auto.
Qed.
End Distinct.

Lemma run_lops_app {T} (a b : list (@lop T)) m : run_lops (a ++ b) m = run_lops b (run_lops a m).
Proof. unfold run_lops. apply fold_left_app. Qed.

Lemma addr_ravel_NoDup f sizes (L : list (list Z)) : NoDup L -> (forall I, In I L -> inb sizes I) -> NoDup (map (fun I => (f, ravel sizes I) : addr) L).
Proof.
  induction 1 as [|I L HI HL IH]; intros H; cbn [map]; constructor.
  - intros X. apply in_map_iff in X as (J & E & HJ). injection E as E. apply ravel_inj in E; [subst; contradiction| |]; apply H; [now right|now left].
  - apply IH. intros; apply H; now right.
Qed.

(** *** Whole arrays *)
Lemma zrange_box bs : Forall (fun x => 0 <= x) bs -> zrange 0 (zprod bs) = map (ravel bs) (box (map (fun _ => 0) bs) bs).
Proof.
  assert (Hp : forall l, Forall (fun x => 0 <= x) l -> 0 <= zprod l) by (induction 1; cbn [zprod]; nia).
  induction 1 as [|n bs Hn H IH]; cbn [zprod map box]; [reflexivity|]. rewrite map_flat_map'.
  rewrite <- (zrange_flat (zprod bs) n) by auto. apply flat_map_ext'. intros i _. rewrite IH, !map_map. reflexivity.
Qed.
Lemma whole_gdata b bs : Forall (fun x => 0 <= x) bs -> whole b bs = gdata b bs (map (fun _ => 0) bs) bs.
Proof. intros H. unfold whole, gdata. rewrite zrange_box by auto. now rewrite map_map. Qed.
Lemma box0_inb bs K : In K (box (map (fun _ => 0) bs) bs) <-> inb bs K.
Proof.
  rewrite box_In by apply map_length. split.
  - revert K. induction bs as [|b bs IH]; intros K H; inversion H; subst; constructor; [lia|auto].
  - induction 1; cbn [map]; constructor; [lia|auto].
Qed.

(** *** One stage *)
Section GStage.
Context {T : Type}.
Variables (add : T -> T -> T) (z : T) (dims loc : list Z) (g : Z) (f : nat) (buf : nat -> nat).
Hypothesis Hg : grid_ok dims loc.
Hypothesis Hg0 : 1 <= g.
Hypothesis Hgn : Forall (fun n => g <= n) loc.
Notation sizes := (ghosted g loc).
Definition zeros : list Z := map (fun _ => 0) loc.
Definition lo1 (a : nat) (s : Z) : Z := if s =? 1 then g else nth a loc 0.
Definition so1 (a : nat) (s : Z) : Z := if s =? 1 then nth a loc 0 + g else 0.
Definition bsz (a : nat) : list Z := setn sizes a g.
Definition gact (a : nat) (s : Z) : list (@lop T) :=
  map (fun I => {| la := (f, ravel sizes I);
                   lf := fun m => add (m (f, ravel sizes I)) (m (buf a, ravel (bsz a) (vadd I (vneg (setn zeros a (lo1 a s)))))) |})
      (box (setn zeros a (lo1 a s)) (bsz a)) ++
  map (fun K => {| la := (buf a, ravel (bsz a) K); lf := fun _ => z |}) (box zeros (bsz a)).
Definition gst (a : nat) (s : Z) : @stage T :=
  {| dst := fun r => cart_shift_dest false dims r a s; src := fun r => cart_shift_dest false dims r a (- s);
     sd := gdata f sizes (setn zeros a (so1 a s)) (bsz a); rd := gdata (buf a) (bsz a) zeros (bsz a); act := run_lops (gact a s) |}.

Lemma zeros_len : length zeros = length loc.
Proof. apply map_length. Qed.
Lemma sizes_len : length sizes = length loc.
Proof. apply map_length. Qed.
Lemma bsz_len a : length (bsz a) = length loc.
Proof. unfold bsz. now rewrite setn_len, sizes_len. Qed.
Lemma gstage_ok a s : (a < length loc)%nat -> (s = 1 \/ s = -1) -> stage_ok (zprod dims) (gst a s).
Proof.
  intros Ha Hs. destruct Hg as [Hl Hd Hlo]. assert (Ha' : (a < length dims)%nat) by lia.
  assert (Back : forall s r b, (s = 1 \/ s = -1) -> 0 <= r < zprod dims -> cart_shift_dest false dims r a s = Some b ->
     0 <= b < zprod dims /\ cart_shift_dest false dims b a (- s) = Some r).
  { clear s Hs. intros s r b Hs Hr. rewrite shift_spec by auto. cbn zeta. pose proof (unravel_inb dims r Hd Hr) as Hu. pose proof (inb_nth _ _ a Hu Ha') as Hn.
    destruct ((0 <=? nth a (unravel dims r) 0 + s) && _) eqn:E; [|discriminate]. apply andb_true_iff in E. rewrite Z.leb_le, Z.ltb_lt in E. intros X. injection X as <-.
    assert (Hi : inb dims (setn (unravel dims r) a (nth a (unravel dims r) 0 + s))) by (apply setn_inb; auto; lia).
    assert (Hb := ravel_bound _ _ Hi). split; [exact Hb|]. rewrite shift_spec by auto. rewrite unravel_ravel by auto. cbn zeta.
    rewrite nth_setn_eq by (rewrite unravel_length; lia). replace (nth a (unravel dims r) 0 + s + - s) with (nth a (unravel dims r) 0) by lia.
    rewrite (proj2 (andb_true_iff _ _)) by (rewrite Z.leb_le, Z.ltb_lt; lia). rewrite setn_setn, setn_same. now rewrite ravel_unravel. }
  constructor; cbn [dst src sd rd gst].
  - intros r b Hr Hb. now apply Back.
  - intros r b Hb Hr. destruct (Back (- s) b r) as [B1 B2]; auto; [lia|]. rewrite Z.opp_involutive in B2. auto.
  - unfold gdata. rewrite !map_length. apply box_length_eq; rewrite ?setn_len, ?zeros_len, ?bsz_len; auto.
  - assert (O : forall r b, 0 <= r < zprod dims -> cart_shift_dest false dims r a s = Some b -> exists k, 1 <= k /\ b = r + s * k).
    { intros r b Hr. rewrite shift_spec by auto. cbn zeta. destruct (_ && _); [|discriminate]. intros X. injection X as <-.
      destruct (ravel_setn dims Hd (unravel dims r) a (unravel_length _ _) Ha') as (k & Hk & E). exists k. split; auto. rewrite E, ravel_unravel by auto. lia. }
    destruct Hs as [-> | -> ]; [left|right]; intros r b Hr Hb; destruct (O r b Hr Hb) as (k & Hk & ->); lia.
Qed.

Lemma zeros_bsz a : zeros = map (fun _ => 0) (bsz a).
Proof.
  unfold bsz, zeros. clear Hg Hgn. revert a. induction loc as [|n l IH]; intros a; [destruct a; reflexivity|]. cbn [ghosted map]. destruct a as [|a]; cbn [setn map]; f_equal.
  - now rewrite map_map.
  - apply IH.
Qed.
Lemma box_bsz a K : In K (box zeros (bsz a)) <-> inb (bsz a) K.
Proof. rewrite (zeros_bsz a). apply box0_inb. Qed.
Lemma vadd_setn_zeros a v : vadd zeros (setn zeros a v) = setn zeros a v.
Proof.
  unfold zeros. clear Hg Hgn. revert a. induction loc as [|n l IH]; intros a; [destruct a; reflexivity|]. cbn [map]. destruct a as [|a]; cbn [setn vadd]; f_equal; try lia; auto.
  clear. induction l; cbn [map vadd]; [reflexivity|]. f_equal; auto.
Qed.
Lemma nth_sizes a : (a < length loc)%nat -> nth a sizes 0 = nth a loc 0 + 2 * g.
Proof. intros Ha. transitivity ((fun n => n + 2 * g) (nth a loc 0)); [|reflexivity]. rewrite <- (map_nth (fun n => n + 2 * g)). apply nth_indep. now rewrite map_length. Qed.

Lemma slab_box a lo I : (a < length loc)%nat -> 0 <= lo -> lo <= nth a loc 0 + g ->
  (In I (box (setn zeros a lo) (bsz a)) <-> inb sizes I /\ lo <= nth a I 0 < lo + g).
Proof.
  intros Ha H0 H1. rewrite box_In by (rewrite setn_len, zeros_len, bsz_len; reflexivity). unfold bsz, zeros. clear Hg Hgn. revert a I Ha H1.
  induction loc as [|n l IH]; intros a I Ha H1; cbn [length] in Ha; [lia|]. cbn [map ghosted]. destruct a as [|a]; cbn [setn nth].
  - cbn [nth] in H1. split.
    + intros H. inversion H as [|? ? ? ? c cs Hc Hcs]; subst. cbn [nth]. split; [|lia]. constructor; [lia|]. apply box0_inb. apply box_In; [now rewrite !map_length|]. rewrite map_map. exact Hcs.
    + intros [H Hc]. inversion H as [|? ? c cs Hc' Hcs]; subst. cbn [nth] in Hc. constructor; [lia|]. apply box0_inb in Hcs. rewrite map_map in Hcs. apply box_In in Hcs; [exact Hcs|now rewrite !map_length].
  - cbn [nth] in H1. split.
    + intros H. inversion H as [|? ? ? ? c cs Hc Hcs]; subst. cbn [nth]. apply IH in Hcs; try lia. split; [|tauto]. constructor; [lia|tauto].
    + intros [H Hc]. inversion H as [|? ? c cs Hc' Hcs]; subst. cbn [nth] in Hc. constructor; [lia|]. apply IH; try lia. tauto.
Qed.
Lemma shift_back a lo so I : length I = length loc -> vadd (vadd I (vneg (setn zeros a lo))) (setn zeros a so) = setn I a (nth a I 0 + (so - lo)).
Proof.
  unfold zeros. clear Hg Hgn. revert a I. induction loc as [|n l IH]; intros a I Hl; destruct I as [|i I]; try discriminate; [destruct a; reflexivity|].
  cbn [length] in Hl. cbn [map]. destruct a as [|a]; cbn [setn vneg map vadd nth].
  - f_equal; [lia|]. clear IH. revert I Hl. induction l as [|m l IH]; intros I Hl; destruct I as [|j I]; try discriminate; [reflexivity|]. cbn [map vadd]. f_equal; [lia|]. apply IH. cbn [length] in Hl. lia.
  - f_equal; [lia|]. apply IH. lia.
Qed.
Lemma shift_inb a lo I : (a < length loc)%nat -> inb sizes I -> lo <= nth a I 0 < lo + g -> inb (bsz a) (vadd I (vneg (setn zeros a lo))).
Proof.
  unfold zeros, bsz. clear Hg Hgn. revert a I. induction loc as [|n l IH]; intros a I Ha HI Hi; cbn [length] in Ha; [lia|].
  cbn [ghosted map] in *. inversion HI as [|? ? c cs Hc Hcs]; subst. destruct a as [|a]; cbn [setn vneg map vadd nth] in *.
  - constructor; [lia|]. clear IH Ha HI. revert cs Hcs. induction l as [|m l IH]; intros cs Hcs; inversion Hcs; subst; [constructor|]. cbn [map vadd]. constructor; [lia|]. now apply IH.
  - constructor; [lia|]. apply IH; auto; lia.
Qed.

Definition hop (a : nat) (s : Z) (V : list Z -> list Z -> T) (cs I : list Z) : T :=
  if (lo1 a s <=? nth a I 0) && (nth a I 0 <? lo1 a s + g) then
    add (V cs I) (if (0 <=? nth a cs 0 - s) && (nth a cs 0 - s <? nth a dims 0) then V (setn cs a (nth a cs 0 - s)) (setn I a (nth a I 0 + s * nth a loc 0)) else z)
  else V cs I.

Definition Rel (m : Z -> @lmemT T) (V : list Z -> list Z -> T) : Prop :=
  (forall r I, 0 <= r < zprod dims -> inb sizes I -> m r (f, ravel sizes I) = V (unravel dims r) I) /\
  (forall a r K, (a < length loc)%nat -> 0 <= r < zprod dims -> inb (bsz a) K -> m r (buf a, ravel (bsz a) K) = z).
Hypothesis Hbf : forall a, (a < length loc)%nat -> buf a <> f.
Hypothesis Hbb : forall a b, (a < length loc)%nat -> (b < length loc)%nat -> a <> b -> buf a <> buf b.

Lemma hop_rel a s m V : (a < length loc)%nat -> (s = 1 \/ s = -1) -> Rel m V -> Rel (stage_mem (zprod dims) (gst a s) m) (hop a s V) /\
  forall r x, fst x <> f -> fst x <> buf a -> stage_mem (zprod dims) (gst a s) m r x = m r x.
Proof.
  intros Ha Hs [HV HB]. destruct Hg as [Hl Hd Hlo].
  assert (Hna : g <= nth a loc 0). { rewrite Forall_forall in Hgn. apply Hgn. now apply nth_In. }
  assert (Hlob : 0 <= lo1 a s /\ lo1 a s <= nth a loc 0 + g) by (unfold lo1; destruct (s =? 1); lia).
  assert (Hsob : 0 <= so1 a s /\ so1 a s <= nth a loc 0 + g) by (unfold so1; destruct (s =? 1); lia).
  assert (Hdiff : so1 a s - lo1 a s = s * nth a loc 0) by (unfold so1, lo1; destruct Hs as [-> | -> ]; [rewrite Z.eqb_refl|change (-1 =? 1) with false]; cbn iota; lia).
  assert (Haddr : forall I, In I (box (setn zeros a (lo1 a s)) (bsz a)) <-> inb sizes I /\ lo1 a s <= nth a I 0 < lo1 a s + g) by (intros; apply slab_box; tauto).
  assert (Heff : forall r, 0 <= r < zprod dims ->
     (forall I, inb sizes I -> act (gst a s) (received (gst a s) m r) (f, ravel sizes I) = hop a s V (unravel dims r) I) /\
     (forall K, inb (bsz a) K -> act (gst a s) (received (gst a s) m r) (buf a, ravel (bsz a) K) = z) /\
     (forall x, fst x <> f -> fst x <> buf a -> act (gst a s) (received (gst a s) m r) x = m r x)).
  { intros r Hr. set (cs := unravel dims r). set (mr := received (gst a s) m r).
    assert (R2 : forall x, fst x <> buf a -> mr x = m r x).
    { intros x Hx. unfold mr, received. destruct (src (gst a s) r); [|reflexivity]. apply write_other. cbn [rd gst]. unfold gdata. intros Hi. apply in_map_iff in Hi as (K & <- & _). now apply Hx. }
    assert (R1 : forall I, inb sizes I -> lo1 a s <= nth a I 0 < lo1 a s + g -> mr (buf a, ravel (bsz a) (vadd I (vneg (setn zeros a (lo1 a s))))) =
       if (0 <=? nth a cs 0 - s) && (nth a cs 0 - s <? nth a dims 0) then V (setn cs a (nth a cs 0 - s)) (setn I a (nth a I 0 + s * nth a loc 0)) else z).
    { intros I HI Hin. pose proof (shift_inb a (lo1 a s) I Ha HI Hin) as HK. set (K := vadd I (vneg (setn zeros a (lo1 a s)))) in *.
      unfold mr, received. cbn [src gst]. rewrite shift_spec by (auto; lia). cbn zeta. fold cs. replace (nth a cs 0 + - s) with (nth a cs 0 - s) by lia.
      destruct ((0 <=? nth a cs 0 - s) && _) eqn:E; [|now apply HB]. apply andb_true_iff in E. rewrite Z.leb_le, Z.ltb_lt in E.
      assert (Hi : inb dims (setn cs a (nth a cs 0 - s))) by (apply setn_inb; [now apply unravel_inb|lia]).
      set (q := ravel dims (setn cs a (nth a cs 0 - s))). pose proof (ravel_bound _ _ Hi) as Hq. fold q in Hq.
      cbn [sd rd gst]. unfold gdata.
      assert (Eb : box (setn zeros a (so1 a s)) (bsz a) = map (fun c => vadd c (setn zeros a (so1 a s))) (box zeros (bsz a))).
      { rewrite <- box_shift by (rewrite ?setn_len, ?zeros_len, ?bsz_len; reflexivity). now rewrite vadd_setn_zeros. }
      rewrite Eb, !map_map.
      etransitivity; [refine (write_in (fun K => (buf a, ravel (bsz a) K) : addr) (fun c => m q (f, ravel sizes (vadd c (setn zeros a (so1 a s))))) (box zeros (bsz a)) (m r) K _ _)|].
      - apply addr_ravel_NoDup; [apply box_NoDup|]. intros J. apply box_bsz.
      - now apply box_bsz.
      - cbn beta. unfold K. rewrite shift_back by (apply inb_length in HI; now rewrite HI, sizes_len). rewrite Hdiff. rewrite HV; auto; [unfold q; now rewrite unravel_ravel|].
        apply setn_inb; auto. rewrite nth_sizes by auto. unfold lo1 in Hin. destruct Hs as [-> | -> ]; [rewrite Z.eqb_refl in Hin|change (-1 =? 1) with false in Hin]; cbn iota in Hin; lia. }
    cbn [act gst]. unfold gact. rewrite run_lops_app.
    destruct (run_distinct (fun I => (f, ravel sizes I) : addr) (fun I (m : @lmemT T) => add (m (f, ravel sizes I)) (m (buf a, ravel (bsz a) (vadd I (vneg (setn zeros a (lo1 a s)))))))
       (box (setn zeros a (lo1 a s)) (bsz a))) with (m := mr) as [A1 A2].
    { apply addr_ravel_NoDup; [apply box_NoDup|]. intros I HI. now apply Haddr in HI. }
    { intros I m1 m2 HI E1 E2. f_equal; [exact E1|]. apply E2. intros X. apply in_map_iff in X as (J & E & _). injection E as E _. now apply (Hbf a Ha). }
    set (m1 := run_lops _ mr) in *.
    destruct (run_distinct (fun K => (buf a, ravel (bsz a) K) : addr) (fun K (_ : @lmemT T) => z) (box zeros (bsz a))) with (m := m1) as [C1 C2].
    { apply addr_ravel_NoDup; [apply box_NoDup|]. intros I HI. now apply box_bsz in HI. }
    { reflexivity. }
    set (m2 := run_lops _ m1) in *.
    assert (Cn : forall x : addr, fst x <> buf a -> ~ In x (map (fun K => (buf a, ravel (bsz a) K) : addr) (box zeros (bsz a)))).
    { intros x Hx Hi. apply in_map_iff in Hi as (K & <- & _). now apply Hx. }
    split; [|split].
    - intros I HI. rewrite C2 by (apply Cn; cbn [fst]; intros X; symmetry in X; now apply (Hbf a Ha)).
      unfold hop. destruct ((lo1 a s <=? nth a I 0) && (nth a I 0 <? lo1 a s + g)) eqn:E.
      + apply andb_true_iff in E. rewrite Z.leb_le, Z.ltb_lt in E. rewrite (A1 I) by now apply Haddr.
        rewrite R1 by auto. rewrite R2 by (cbn [fst]; intros X; symmetry in X; now apply (Hbf a Ha)). fold cs. unfold cs at 1. rewrite HV by auto. reflexivity.
      + rewrite A2.
        * rewrite R2 by (cbn [fst]; intros X; symmetry in X; now apply (Hbf a Ha)). now apply HV.
        * intros X. apply in_map_iff in X as (J & EJ & HJ). injection EJ as EJ. apply Haddr in HJ. apply ravel_inj in EJ; [|tauto|auto]. subst J.
          apply andb_false_iff in E. rewrite Z.leb_gt, Z.ltb_ge in E. lia.
    - intros K HK. apply (C1 K). now apply box_bsz.
    - intros x X1 X2. rewrite C2 by now apply Cn. rewrite A2; [now apply R2|]. intros Hi. apply in_map_iff in Hi as (J & <- & _). now apply X1. }
  assert (Hin : forall r, 0 <= r < zprod dims -> stage_mem (zprod dims) (gst a s) m r = act (gst a s) (received (gst a s) m r)).
  { intros r Hr. unfold stage_mem. now rewrite (proj2 (andb_true_iff _ _)) by (rewrite Z.leb_le, Z.ltb_lt; lia). }
  split; [split|].
  - intros r I Hr HI. rewrite Hin by auto. now apply Heff.
  - intros b r K Hb Hr HK. rewrite Hin by auto. destruct (Nat.eq_dec b a) as [-> |Hne]; [now apply Heff|].
    rewrite (proj2 (proj2 (Heff r Hr))); [now apply HB|apply Hbf; auto|apply Hbb; auto].
  - intros r x X1 X2. unfold stage_mem. destruct ((0 <=? r) && (r <? zprod dims)) eqn:E; [|reflexivity]. apply andb_true_iff in E. rewrite Z.leb_le, Z.ltb_lt in E. now apply Heff.
Qed.
End GStage.
