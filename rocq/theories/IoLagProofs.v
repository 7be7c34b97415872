(** Proofs about Lagrangian save/load. *)
From Coq Require Import String Permutation DecimalString DecimalNat.
From Verif Require Import Base SpecGrid SpecIO Comm IoEul IoEulProofs IoLag SpecIOLag.
Open Scope Z_scope.
Open Scope list_scope.

Lemma lkey_eqb_eq a b : lkey_eqb a b = true <-> a = b.
Proof. destruct a, b; simpl; rewrite ?andb_true_iff, ?String.eqb_eq; (split; [try (intros [-> ->]); try (intros ->); try discriminate; reflexivity|try discriminate; intros [= -> ->] || intros [= ->]; auto]). Qed.
Lemma lslot_eqb_eq a b : lslot_eqb a b = true <-> a = b.
Proof. destruct a, b. unfold lslot_eqb, cell_eqb'. simpl. rewrite andb_true_iff, lkey_eqb_eq. destruct list_eq_dec; split; try (intros []; congruence); intros [= -> ->]; auto. Qed.
Lemma lplace_eqb_eq a b : lplace_eqb a b = true <-> a = b.
Proof. apply place_eqb_eq. Qed.

(** ** dictionaries *)
Section D.
Context {V : Type}.
Implicit Types d : list (string * V).
Lemma dset_fresh k v d : ~ In k (map fst d) -> dset k v d = d ++ [(k, v)].
Proof. induction d as [|[k' v'] d IH]; intros H; cbn [dset map In fst app] in *; [reflexivity|]. destruct (String.eqb_spec k' k); [tauto|]. now rewrite IH by tauto. Qed.
Lemma dset_last k v v' d : ~ In k (map fst d) -> dset k v (d ++ [(k, v')]) = d ++ [(k, v)].
Proof.
  induction d as [|[k1 v1] d IH]; intros H; cbn [dset map In fst app] in *; [now rewrite String.eqb_refl|]. destruct (String.eqb_spec k1 k); [tauto|]. now rewrite IH by tauto.
Qed.
Lemma dget_last k v d : ~ In k (map fst d) -> dget k (d ++ [(k, v)]) = Some v.
Proof.
  induction d as [|[k1 v1] d IH]; intros H; cbn [dget map In fst app] in *; [now rewrite String.eqb_refl|]. destruct (String.eqb_spec k1 k); [tauto|]. now rewrite IH by tauto.
Qed.
Lemma dget_In k v d : NoDup (map fst d) -> In (k, v) d -> dget k d = Some v.
Proof.
  induction d as [|[k1 v1] d IH]; intros Hn Hi; [destruct Hi|]. cbn [dget map fst] in *. inversion Hn; subst.
  destruct Hi as [[= -> ->]|Hi]; [now rewrite String.eqb_refl|]. destruct (String.eqb_spec k1 k) as [->|]; [|auto].
  exfalso. apply H1. apply in_map_iff. exists (k, v). auto.
Qed.
End D.

Definition fields_ok (dim n : Z) (fl : list (string * (nat * list Z))) : Prop :=
  Forall (fun f => snd (snd f) = [n] \/ (snd (snd f) = [dim; n] /\ n <> dim)) fl.
Definition type_of (n : Z) (f : string * (nat * list Z)) : string * ltype :=
  (fst f, if list_eq_dec Z.eq_dec (snd (snd f)) [n] then TScalar else TVector).

Lemma classify_ok dim n shape : shape = [n] \/ (shape = [dim; n] /\ n <> dim) ->
  classify dim n shape = Some (if list_eq_dec Z.eq_dec shape [n] then TScalar else TVector).
Proof.
  intros [-> | [-> H]]; unfold classify.
  - rewrite Z.eqb_refl. destruct list_eq_dec; congruence.
  - destruct (Z.eqb_spec dim n); [congruence|]. destruct (list_eq_dec Z.eq_dec [dim; n] [dim; n]); [|congruence]. destruct list_eq_dec; congruence.
Qed.

Lemma add_fields_ok dim n label fl : forall st G g, fields_ok dim n fl -> grids st = G ++ [(label, g)] -> ~ In label (map fst G) ->
  NoDup (map fst fl) -> (forall f, In f (map fst fl) -> ~ In f (map fst (lfields st))) -> map fst (ltypes st) = map fst (lfields st) ->
  add_fields dim n label fl st = Some
    {| grids := G ++ [(label, {| gmaster := gmaster g; garr := garr g; gn := gn g; gfields := gfields g ++ map fst fl |})];
       lfields := lfields st ++ fl; ltypes := ltypes st ++ map (type_of n) fl; conns := conns st; gcount := gcount st |}.
Proof.
  induction fl as [|[name [arr shape]] fl IH]; intros st G g Hs Hg Hl Hn Hf Ht.
  - cbn [add_fields map]. rewrite !app_nil_r. destruct st as [gr lf lt co gc], g as [a b c d]. cbn in *. subst gr. reflexivity.
  - cbn [add_fields]. apply Forall_inv in Hs as H1. apply Forall_inv_tail in Hs. cbn [fst snd] in H1. rewrite (classify_ok dim n shape H1).
    rewrite Hg, dget_last by exact Hl. rewrite dset_last by exact Hl. cbn [map fst] in Hn, Hf. inversion Hn as [|? ? Hx Hn']; subst.
    rewrite (IH _ G {| gmaster := gmaster g; garr := garr g; gn := gn g; gfields := gfields g ++ [name] |}); cbn [grids lfields ltypes conns gcount gmaster garr gn gfields]; auto.
    + rewrite dset_fresh by (apply Hf; now left). rewrite dset_fresh by (rewrite Ht; apply Hf; now left). cbn [map fst]. rewrite <- !app_assoc. reflexivity.
    + rewrite dset_fresh by (apply Hf; now left). intros f Hfi. rewrite map_app, in_app_iff. cbn [map fst In]. intros [H|[H|[]]]; [apply (Hf f); [now right|exact H]|]. subst. contradiction.
    + rewrite dset_fresh by (rewrite Ht; apply Hf; now left). rewrite dset_fresh by (apply Hf; now left). rewrite !map_app. now rewrite Ht.
Qed.

Definition to_grid (label : string) (a : ladd) : string * lgrid :=
  (label, {| gmaster := la_master a; garr := la_grid a; gn := la_n a; gfields := map fst (la_fields a) |}).

Lemma NoDup_app_split {A} (a b : list A) : NoDup (a ++ b) -> NoDup a /\ NoDup b /\ (forall x, In x a -> ~ In x b).
Proof.
  induction a as [|x a IH]; cbn [app]; intros H; [repeat split; [constructor|exact H|intros ? []]|]. inversion H; subst. destruct (IH H3) as (H4 & H5 & H6).
  rewrite in_app_iff in H2. repeat split; auto; [constructor; tauto|]. intros y [<-|Hy]; [tauto|auto].
Qed.

Lemma add_all_ok dim adds : forall st, shapes_ok dim adds -> NoDup (map fst (grids st) ++ labels (gcount st) adds) ->
  NoDup (map fst (lfields st) ++ field_names adds) -> map fst (ltypes st) = map fst (lfields st) ->
  exists st', add_all dim adds st = Some st' /\
    grids st' = grids st ++ map (fun la => to_grid (fst la) (snd la)) (combine (labels (gcount st) adds) adds) /\
    lfields st' = lfields st ++ flat_map la_fields adds /\
    ltypes st' = ltypes st ++ flat_map (fun a => map (type_of (la_n a)) (la_fields a)) adds.
Proof.
  induction adds as [|a adds IH]; intros st Hs Hl Hn Ht; cbn [add_all flat_map labels combine map].
  - exists st. rewrite !app_nil_r. auto.
  - apply Forall_inv in Hs as H1. apply Forall_inv_tail in Hs. cbn [labels] in Hl. unfold field_names in Hn. cbn [flat_map] in Hn. fold (field_names adds) in Hn.
    unfold add_lagrangian. set (label := grid_label (gcount st) (la_name a)) in *.
    assert (Hfr : ~ In label (map fst (grids st))). { apply NoDup_app_split in Hl as (_ & _ & H). intros Hi. apply (H _ Hi). now left. }
    destruct (NoDup_app_split _ _ Hn) as (Hn1 & Hn2 & Hn3). destruct (NoDup_app_split _ _ Hn2) as (Hn4 & Hn5 & Hn6).
    erewrite (add_fields_ok dim (la_n a) label (la_fields a) _ (grids st)); cbn [grids lfields ltypes conns gcount gmaster garr gn gfields app];
      [|exact H1|now apply dset_fresh|exact Hfr|exact Hn4| |exact Ht].
    2:{ intros f Hf Hf'. apply (Hn3 f Hf'). apply in_or_app. now left. }
    cbn [gmaster garr gn gfields app].
    edestruct IH as (st' & E & E1 & E2 & E3); cbn [grids lfields ltypes conns gcount]; [exact Hs| | | |exists st'; split; [exact E|]]; cbn [grids lfields ltypes conns gcount] in *.
    + rewrite map_app. cbn [map fst]. rewrite <- app_assoc. cbn [app]. exact Hl.
    + rewrite map_app, <- app_assoc. exact Hn.
    + rewrite !map_app. rewrite Ht. f_equal. rewrite map_map. apply map_ext. intros [? [? ?]]. reflexivity.
    + rewrite E1, E2, E3. rewrite <- !app_assoc. repeat split; reflexivity.
Qed.

(** ** explicit entries *)
Definition fentry (label : string) (a : ladd) (f : string * (nat * list Z)) : lentry :=
  if list_eq_dec Z.eq_dec (snd (snd f)) [la_n a]
  then {| le_rank := la_master a; le_key := KScalar label (fst f); le_arr := fst (snd f); le_vec := false; le_n := la_n a |}
  else {| le_rank := la_master a; le_key := KVector label (fst f); le_arr := fst (snd f); le_vec := true; le_n := la_n a |}.
Definition gentry (label : string) (a : ladd) : lentry :=
  {| le_rank := la_master a; le_key := KGrid label; le_arr := la_grid a; le_vec := true; le_n := la_n a |}.
Definition entries_of (label : string) (a : ladd) : list lentry := gentry label a :: map (fentry label a) (la_fields a).
Definition expected (count : nat) (adds : list ladd) : list lentry := flat_map (fun la => entries_of (fst la) (snd la)) (combine (labels count adds) adds).

Lemma field_entries_ok dim st label a fl : (forall f, In f fl -> In f (lfields st) /\ In (type_of (la_n a) f) (ltypes st)) ->
  NoDup (map fst (lfields st)) -> NoDup (map fst (ltypes st)) -> fields_ok dim (la_n a) fl ->
  field_entries dim st label (snd (to_grid label a)) (map fst fl) = Some (map (fentry label a) fl).
Proof.
  intros Hin H1 H2 Hs. induction fl as [|[name [arr shape]] fl IH]; [reflexivity|]. cbn [map fst field_entries]. 
  apply Forall_inv in Hs as Hs1. apply Forall_inv_tail in Hs. cbn [fst snd] in Hs1.
  destruct (Hin _ (or_introl eq_refl)) as [I1 I2]. rewrite (dget_In name (arr, shape) _ H1 I1). rewrite (dget_In name _ _ H2 I2).
  rewrite IH; [|intros f Hf; apply Hin; now right|exact Hs]. cbn [to_grid snd gn gmaster fst]. set (tail := map (fentry label a) fl). unfold fentry. cbn [snd fst].
  destruct (list_eq_dec Z.eq_dec shape [la_n a]) as [E|E]; [reflexivity|].
  destruct Hs1 as [?|[-> _]]; [congruence|]. destruct (list_eq_dec Z.eq_dec [dim; la_n a] [dim; la_n a]); [reflexivity|congruence].
Qed.

Lemma entries_ok dim adds : shapes_ok dim adds -> NoDup (labels 0 adds) -> NoDup (field_names adds) ->
  exists st, add_all dim adds lio_init = Some st /\ entries dim st = Some (expected 0 adds) /\ lfields st = flat_map la_fields adds.
Proof.
  intros Hs Hl Hn. destruct (add_all_ok dim adds lio_init) as (st & E & E1 & E2 & E3); auto. cbn [lio_init grids lfields ltypes gcount app] in *.
  exists st. split; [exact E|]. split; [|exact E2]. unfold entries. rewrite E1. unfold expected.
  assert (N1 : NoDup (map fst (lfields st))). { rewrite E2, map_flat_map'. exact Hn. }
  assert (N2 : NoDup (map fst (ltypes st))). { rewrite E3, map_flat_map'. erewrite flat_map_ext'; [exact Hn|]. intros a _. rewrite map_map. apply map_ext. intros [? [? ?]]. reflexivity. }
  assert (HI : forall la, In la (combine (labels 0 adds) adds) -> In (snd la) adds) by (intros [s b] H; exact (in_combine_r _ _ s b H)).
  revert HI. generalize (combine (labels 0 adds) adds). intros L HI. induction L as [|[label a] L IH]; [reflexivity|].
  cbn [map flat_map grid_entries fst snd]. unfold to_grid at 1. cbn [fst snd].
  pose proof (HI (label, a) (or_introl eq_refl)) as Ha. cbn [snd] in Ha.
  change {| gmaster := la_master a; garr := la_grid a; gn := la_n a; gfields := map fst (la_fields a) |} with (snd (to_grid label a)). cbn [to_grid snd gfields].
  change {| gmaster := la_master a; garr := la_grid a; gn := la_n a; gfields := map fst (la_fields a) |} with (snd (to_grid label a)).
  rewrite (field_entries_ok dim st label a (la_fields a)); [| |exact N1|exact N2|].
  - rewrite IH by (intros la Hla; apply HI; now right). reflexivity.
  - intros f Hf. rewrite E2, E3. split; apply in_flat_map; exists a; split; auto. now apply in_map.
  - unfold shapes_ok in Hs. rewrite Forall_forall in Hs. now apply Hs.
Qed.

(** ** elements *)
Lemma elements_vec dim e po : le_vec e = true -> In po (elements dim e) <-> exists i c, 0 <= i < le_n e /\ 0 <= c < dim /\ po = ([i; c], c * le_n e + i).
Proof.
  intros H. unfold elements. rewrite H. rewrite in_map_iff. split.
  - intros (ic & <- & Hi). apply box_In in Hi; [|reflexivity]. inversion Hi as [|? ? ? ? i ? Hi1 Hi2]; subst. inversion Hi2 as [|? ? ? ? c ? Hi3 Hi4]; subst. inversion Hi4; subst.
    exists i, c. cbn [rev app ravel zprod fold_right]. repeat split; try lia. f_equal. cbn. lia.
  - intros (i & c & Hi & Hc & ->). exists [i; c]. split; [f_equal; cbn; lia|]. apply box_In; [reflexivity|]. repeat constructor; lia.
Qed.
Lemma elements_sc dim e po : le_vec e = false -> In po (elements dim e) <-> exists i, 0 <= i < le_n e /\ po = ([i], i).
Proof.
  intros H. unfold elements. rewrite H. rewrite in_map_iff. split.
  - intros (i & <- & Hi). apply zrange_In in Hi. exists i. split; [lia|reflexivity].
  - intros (i & Hi & ->). exists i. split; [reflexivity|]. apply zrange_In. lia.
Qed.
Lemma elements_pos_NoDup dim e : NoDup (map fst (elements dim e)).
Proof.
  unfold elements. destruct (le_vec e); rewrite map_map; cbn [fst].
  - rewrite map_id. apply box_NoDup.
  - apply FinFun.Injective_map_NoDup; [|apply zrange_NoDup]. intros x y [= E]. exact E.
Qed.
Lemma elements_off_inj dim e p q o : In (p, o) (elements dim e) -> In (q, o) (elements dim e) -> p = q.
Proof.
  destruct (le_vec e) eqn:E.
  - rewrite !elements_vec by exact E. intros (i & c & Hi & Hc & [= -> ->]) (j & d & Hj & Hd & [= -> Hh]).
    assert (c = d) by nia. subst d. assert (i = j) by lia. now subst.
  - rewrite !elements_sc by exact E. intros (i & Hi & [= -> ->]) (j & Hj & [= -> Hh]). congruence.
Qed.
Lemma elements_off_NoDup dim e : NoDup (map snd (elements dim e)).
Proof.
  pose proof (elements_off_inj dim e) as H. pose proof (elements_pos_NoDup dim e) as Hn. induction (elements dim e) as [|[p o] l IH]; [constructor|].
  cbn [map fst snd] in *. inversion Hn as [|? ? Hx Hn']; subst. constructor.
  - intros Hi. apply in_map_iff in Hi as ([q o'] & E & Hi). cbn [snd] in E. subst o'. apply Hx. rewrite (H p q o); [|now left|now right]. apply in_map_iff. exists (q, o). auto.
  - apply IH; auto. intros p' q' o' H1 H2. apply (H p' q' o'); now right.
Qed.
Lemma elements_cover dim e o : 0 <= dim -> 0 <= o < (if le_vec e then dim * le_n e else le_n e) -> exists p, In (p, o) (elements dim e).
Proof.
  destruct (le_vec e) eqn:E; intros Hd Ho.
  - assert (0 < le_n e \/ le_n e <= 0) as [Hn|Hn] by lia.
    + exists [o mod le_n e; o / le_n e]. apply elements_vec; [exact E|]. exists (o mod le_n e), (o / le_n e).
      pose proof (Z.mod_pos_bound o (le_n e) Hn). pose proof (Z.div_mod o (le_n e) ltac:(lia)).
      assert (0 <= o / le_n e) by (apply Z.div_pos; lia). assert (o / le_n e < dim) by (apply Z.div_lt_upper_bound; nia).
      repeat split; try lia. f_equal. lia.
    + exfalso. nia.
  - exists [o]. apply elements_sc; [exact E|]. exists o. auto.
Qed.

Lemma expected_keys_fresh adds : NoDup (labels 0 adds) -> NoDup (field_names adds) -> lag_fresh (expected 0 adds).
Proof.
  unfold lag_fresh, expected, field_names. generalize 0%nat as cnt. induction adds as [|a adds IH]; intros cnt Hl Hn; cbn [labels combine flat_map map]; [constructor|].
  cbn [labels flat_map] in Hl, Hn. inversion Hl as [|? ? Hx Hl']; subst. destruct (NoDup_app_split _ _ Hn) as (H1 & H2 & H3).
  rewrite map_app. set (label := grid_label cnt (la_name a)) in *. cbn [fst snd].
  assert (KL : forall k l, In k (map le_key (entries_of l a)) -> k = KGrid l \/ exists f, In f (map fst (la_fields a)) /\ (k = KScalar l f \/ k = KVector l f)).
  { intros k l Hk. cbn [entries_of map In] in Hk. destruct Hk as [<-|Hk]; [now left|]. right. rewrite map_map in Hk. apply in_map_iff in Hk as (f & <- & Hf).
    exists (fst f). split; [now apply in_map|]. unfold fentry. destruct list_eq_dec; cbn [le_key]; auto. }
  apply NoDup_app_intro'.
  - cbn [entries_of map]. constructor.
    + intros Hk. rewrite map_map in Hk. apply in_map_iff in Hk as (f & E & _). unfold fentry in E. destruct list_eq_dec; discriminate.
    + rewrite map_map. clear - H1. induction (la_fields a) as [|f fl IHf]; cbn [map]; constructor; cbn [map] in H1; inversion H1; subst; auto.
      intros Hk. apply in_map_iff in Hk as (f' & E & Hf'). apply H2. apply in_map_iff. exists f'. split; [|exact Hf'].
      unfold fentry in E. destruct list_eq_dec, list_eq_dec; cbn [le_key] in E; congruence.
  - apply IH; auto.
  - intros k Hk Hk'. apply KL in Hk.
    assert (Hlab : exists l, In l (labels (match la_name a with None => S cnt | Some _ => cnt end) adds) /\ (k = KGrid l \/ exists f, k = KScalar l f \/ k = KVector l f)).
    { rewrite map_flat_map' in Hk'. apply in_flat_map in Hk' as ([l b] & Hb & Hk'). cbn [fst snd] in Hk'. exists l. split; [exact (in_combine_l _ _ l b Hb)|].
      cbn [entries_of map In] in Hk'. destruct Hk' as [<-|Hk']; [now left|]. right. rewrite map_map in Hk'. apply in_map_iff in Hk' as (f & <- & _).
      exists (fst f). unfold fentry. destruct list_eq_dec; cbn [le_key]; auto. }
    destruct Hlab as (l & Hli & Hlk). assert (label = l); [|subst; contradiction].
    destruct Hk as [->|(f & _ & [-> | ->])], Hlk as [E|(f' & [E|E])]; congruence.
Qed.

(** ** saving and loading entries *)
Section L.
Context {T : Type}.
Lemma lag_writes_NoDup dim es (m : mem T) : lag_fresh es -> NoDup (map fst (lag_writes dim es m)).
Proof.
  unfold lag_fresh, lag_writes. intros H. rewrite map_flat_map'. 
  rewrite (flat_map_ext' _ (fun e => map (fun p => (le_key e, p)) (map fst (elements dim e)))). 2:{ intros e. rewrite !map_map. reflexivity. }
  induction es as [|e es IH]; cbn [flat_map]; [constructor|]. cbn [map] in H. inversion H; subst. apply NoDup_app_intro'.
  - apply FinFun.Injective_map_NoDup; [|apply elements_pos_NoDup]. intros x y [= E]. exact E.
  - now apply IH.
  - intros [k p] Hi Hi'. apply in_map_iff in Hi as (q & [= <- <-] & _). apply in_flat_map in Hi' as (e' & He' & Hi'). apply in_map_iff in Hi' as (q' & [= E _] & _).
    apply H2. rewrite <- E. now apply in_map.
Qed.
Lemma lag_saved_data dim st es (m : mem T) time ws e p o : lag_fresh es -> Permutation ws (lag_writes dim es m) -> In e es -> In (p, o) (elements dim e) ->
  l_data (lag_saved st es time ws) (le_key e, p) = Some (m (le_rank e, (le_arr e, o))).
Proof.
  intros Hf Hp He Hi. cbn [lag_saved l_data]. apply assign_in; [exact lslot_eqb_eq| |].
  - eapply Permutation_NoDup; [apply Permutation_map, Permutation_sym; exact Hp|]. now apply lag_writes_NoDup.
  - eapply Permutation_in; [apply Permutation_sym; exact Hp|]. unfold lag_writes. apply in_flat_map. exists e. split; [exact He|]. apply in_map_iff. exists (p, o). auto.
Qed.

Lemma load_entries_ok (fill : T) dim (F : lfile T) r es : forall m : nat * Z -> T, NoDup (map le_arr es) ->
  (forall e, In e es -> In (le_key e, (le_vec e, le_n e)) (l_keys F)) ->
  exists m' : nat * Z -> T, load_entries fill dim F r es m = Some m' /\
    (forall e p o, In e es -> le_rank e = r -> In (p, o) (elements dim e) -> m' (le_arr e, o) = match l_data F (le_key e, p) with Some v => v | None => fill end) /\
    (forall b i, (forall e, In e es -> le_rank e = r -> b <> le_arr e) -> m' (b, i) = m (b, i)).
Proof.
  induction es as [|e0 es IH]; intros m Hn Hk.
  - exists m. split; [reflexivity|]. split; [intros ? ? ? []|reflexivity].
  - cbn [map] in Hn. inversion Hn as [|? ? Hx Hn']; subst. cbn [load_entries].
    assert (Hk' : forall e, In e es -> In (le_key e, (le_vec e, le_n e)) (l_keys F)) by (intros; apply Hk; now right).
    destruct (Z.eqb_spec (le_rank e0) r) as [Er|Er].
    + replace (existsb _ (l_keys F)) with true.
      2:{ symmetry. apply existsb_exists. exists (le_key e0, (le_vec e0, le_n e0)). split; [apply Hk; now left|]. cbn [fst snd]. rewrite (proj2 (lkey_eqb_eq _ _) eq_refl), eqb_reflx, Z.eqb_refl. reflexivity. }
      set (m1 := assign lplace_eqb (entry_reads fill dim F e0) m). destruct (IH m1 Hn' Hk') as (m' & E & H1 & H2). exists m'. split; [exact E|]. split.
      * intros e p o [<-|He] Hr Hp; [|now apply H1]. rewrite H2. 2:{ intros e He _ Eq. apply Hx. rewrite Eq. now apply in_map. }
        unfold m1. apply assign_in; [exact lplace_eqb_eq| |].
        -- unfold entry_reads. rewrite map_map. cbn [fst]. rewrite <- (map_map snd (fun o => (le_arr e0, o))). apply FinFun.Injective_map_NoDup; [|apply elements_off_NoDup]. intros x y [= Ex]. exact Ex.
        -- unfold entry_reads. apply in_map_iff. exists (p, o). auto.
      * intros b i Hb. rewrite H2 by (intros e He; apply Hb; now right). unfold m1. apply assign_out; [exact lplace_eqb_eq|].
        unfold entry_reads. rewrite map_map. cbn [fst]. intros Hi. apply in_map_iff in Hi as (po & [= Eb _] & _). apply (Hb e0); [now left|exact Er|now symmetry].
    + destruct (IH m Hn' Hk') as (m' & E & H1 & H2). exists m'. split; [exact E|]. split.
      * intros e p o [<-|He] Hr Hp; [contradiction|now apply H1].
      * intros b i Hb. apply H2. intros e He. apply Hb. now right.
Qed.

Lemma expected_arrays cnt adds : map le_arr (expected cnt adds) = arrays adds.
Proof.
  unfold expected, arrays. revert cnt. induction adds as [|a adds IH]; intros cnt; [reflexivity|]. cbn [labels combine flat_map map]. rewrite map_app, IH. f_equal.
  cbn [fst snd entries_of map]. f_equal. rewrite map_map. apply map_ext. intros f. unfold fentry. destruct list_eq_dec; reflexivity.
Qed.
Lemma same_labels adds adds' : Forall2 same_add adds adds' -> forall cnt, labels cnt adds = labels cnt adds'.
Proof. induction 1 as [|a a' l l' (H1 & _) H IH]; intros cnt; [reflexivity|]. cbn [labels]. rewrite H1. f_equal. apply IH. Qed.
Lemma same_names adds adds' : Forall2 same_add adds adds' -> field_names adds = field_names adds'.
Proof.
  induction 1 as [|a a' l l' (_ & _ & H1) H IH]; [reflexivity|]. unfold field_names in *. cbn [flat_map]. rewrite IH. f_equal.
  clear - H1. induction H1 as [|f f' l l' [E _] _ IH]; [reflexivity|]. cbn [map]. now rewrite E, IH.
Qed.
Lemma same_shapes dim adds adds' : Forall2 same_add adds adds' -> shapes_ok dim adds -> shapes_ok dim adds'.
Proof.
  unfold shapes_ok. induction 1 as [|a a' l l' (_ & E & H1) H IH]; intros Hs; constructor.
  - apply Forall_inv in Hs. rewrite <- E. clear - Hs H1. induction H1 as [|f f' l l' [_ E] _ IH]; constructor; [rewrite <- E; now apply Forall_inv in Hs|]. apply IH. now apply Forall_inv_tail in Hs.
  - apply IH. now apply Forall_inv_tail in Hs.
Qed.
Lemma fields_nonempty adds : (exists a, In a adds /\ la_fields a <> []) -> flat_map la_fields adds <> [].
Proof. intros (a & Ha & Hne) E. destruct (la_fields a) as [|f l] eqn:El; [contradiction|]. assert (H : In f (flat_map la_fields adds)) by (apply in_flat_map; exists a; rewrite El; split; [exact Ha|now left]). now rewrite E in H. Qed.

(** corresponding entries of the two programs *)
Lemma combine3 (adds adds' : list ladd) a a' cnt : Forall2 same_add adds adds' -> In (a, a') (combine adds adds') ->
  same_add a a' /\ exists l, In (l, a) (combine (labels cnt adds) adds) /\ In (l, a') (combine (labels cnt adds') adds').
Proof.
  intros H. revert cnt. induction H as [|b b' l l' Hs H IH]; intros cnt Hi; [destruct Hi|]. cbn [combine labels] in *. destruct Hi as [[= <- <-]|Hi].
  - split; [exact Hs|]. exists (grid_label cnt (la_name b)). split; left; [reflexivity|]. destruct Hs as (-> & _). reflexivity.
  - destruct (IH (match la_name b with None => S cnt | Some _ => cnt end) Hi) as (H1 & l0 & H2 & H3). split; [exact H1|]. exists l0. split; right; [exact H2|]. destruct Hs as (<- & _). exact H3.
Qed.
Lemma entry_key_back (adds adds' : list ladd) : Forall2 same_add adds adds' -> forall cnt e', In e' (expected cnt adds') ->
  exists e, In e (expected cnt adds) /\ le_key e = le_key e' /\ le_vec e = le_vec e' /\ le_n e = le_n e'.
Proof.
  induction 1 as [|b b' l l' Hs H IH]; intros cnt e' He'; [destruct He'|]. unfold expected in *. cbn [labels combine flat_map fst snd] in *. destruct Hs as (En & Enn & Ef).
  apply in_app_iff in He' as [He'|He'].
  - cbn [entries_of In] in He'. rewrite <- En in He'. destruct He' as [<-|He'].
    + exists (gentry (grid_label cnt (la_name b)) b). split; [now left|]. cbn. auto.
    + apply in_map_iff in He' as (f' & <- & Hf'). assert (exists f, In f (la_fields b) /\ fst f = fst f' /\ snd (snd f) = snd (snd f')) as (f & Hf & E1 & E2).
      { clear - Ef Hf'. induction Ef as [|x y lx ly [E1 E2] _ IH]; [destruct Hf'|]. destruct Hf' as [<-|Hf']; [exists x; repeat split; auto; now left|]. destruct (IH Hf') as (f & ? & ?). exists f. split; [now right|auto]. }
      exists (fentry (grid_label cnt (la_name b)) b f). split; [apply in_or_app; left; right; now apply in_map|]. unfold fentry. rewrite <- E1, <- E2, <- Enn. destruct list_eq_dec; auto.
  - rewrite <- En in He'. destruct (IH _ e' He') as (e & He & ?). exists e. split; [apply in_or_app; now right|auto].
Qed.

Lemma lag_restart (fill : T) dim adds adds' (m m0 : mem T) time ws st es st' :
  0 <= dim -> shapes_ok dim adds -> NoDup (labels 0 adds) -> NoDup (field_names adds) -> Forall2 same_add adds adds' -> NoDup (arrays adds') ->
  (exists a, In a adds /\ la_fields a <> []) ->
  add_all dim adds lio_init = Some st -> entries dim st = Some es -> Permutation ws (lag_writes dim es m) ->
  add_all dim adds' lio_init = Some st' ->
  exists m', (forall r, lag_load fill dim st' (lag_saved st es time ws) r (fun a => m0 (r, a)) = Some (fun a => m' (r, a))) /\
    lag_restored dim adds m adds' m0 m'.
Proof.
  intros Hd Hs Hl Hn Hsame Ha Hne Hst Hes Hp Hst'.
  destruct (entries_ok dim adds Hs Hl Hn) as (st1 & X1 & X2 & X3). rewrite Hst in X1. injection X1 as <-. rewrite Hes in X2. injection X2 as ->.
  assert (Hs' := same_shapes dim adds adds' Hsame Hs). assert (Hl' : NoDup (labels 0 adds')) by (now rewrite <- (same_labels adds adds' Hsame)).
  assert (Hn' : NoDup (field_names adds')) by (now rewrite <- (same_names adds adds' Hsame)).
  destruct (entries_ok dim adds' Hs' Hl' Hn') as (st1 & Y1 & Y2 & Y3). rewrite Hst' in Y1. injection Y1 as <-.
  assert (Hne' : lfields st' <> []).
  { rewrite Y3. apply fields_nonempty. destruct Hne as (a & Hin & Hf). clear - Hsame Hin Hf. induction Hsame as [|b b' l l' (_ & _ & E) H IH]; [destruct Hin|]. destruct Hin as [->|Hin].
    - exists b'. split; [now left|]. intros E'. rewrite E' in E. inversion E. congruence.
    - destruct (IH Hin) as (a' & ? & ?). exists a'. split; [now right|auto]. }
  pose proof (expected_keys_fresh adds Hl Hn) as Hfr. set (F := lag_saved st (expected 0 adds) time ws).
  assert (HL : forall r, exists m' : nat * Z -> T, load_entries fill dim F r (expected 0 adds') (fun a => m0 (r, a)) = Some m' /\
    (forall e p o, In e (expected 0 adds') -> le_rank e = r -> In (p, o) (elements dim e) -> m' (le_arr e, o) = match l_data F (le_key e, p) with Some v => v | None => fill end) /\
    (forall b i, (forall e, In e (expected 0 adds') -> le_rank e = r -> b <> le_arr e) -> m' (b, i) = m0 (r, (b, i)))).
  { intros r. apply (load_entries_ok fill dim F r (expected 0 adds') (fun a => m0 (r, a))); [now rewrite expected_arrays|].
    intros e' He'. destruct (entry_key_back adds adds' Hsame 0 e' He') as (e & He & <- & <- & <-). cbn [F lag_saved l_keys]. apply in_map_iff. exists e. auto. }
  exists (fun ra => match load_entries fill dim F (fst ra) (expected 0 adds') (fun a => m0 (fst ra, a)) with Some m' => m' (snd ra) | None => fill end).
  assert (Hval : forall e e' o, In e (expected 0 adds) -> In e' (expected 0 adds') -> le_key e = le_key e' -> le_vec e = le_vec e' -> le_n e = le_n e' -> 0 <= o < (if le_vec e then dim * le_n e else le_n e) ->
    match load_entries fill dim F (le_rank e') (expected 0 adds') (fun a => m0 (le_rank e', a)) with Some m' => m' (le_arr e', o) | None => fill end = m (le_rank e, (le_arr e, o))).
  { intros e e' o He He' Ek Ev En Ho. destruct (HL (le_rank e')) as (mr & -> & H1 & _). destruct (elements_cover dim e o Hd Ho) as (p & Hpo).
    assert (Ee : elements dim e' = elements dim e) by (unfold elements; rewrite Ev, En; reflexivity).
    rewrite (H1 e' p o He' eq_refl) by (now rewrite Ee). rewrite <- Ek. unfold F. now rewrite (lag_saved_data dim st (expected 0 adds) m time ws e p o Hfr Hp He Hpo). }
  split.
  - intros r. unfold lag_load. destruct (lfields st') eqn:E; [contradiction|]. rewrite Y2. destruct (HL r) as (mr & Er & _ & _). fold F. cbn [fst snd]. rewrite Er. reflexivity.
  - split.
    + intros a a' Hin. destruct (combine3 adds adds' a a' 0 Hsame Hin) as ((E1 & E2 & E3) & l & Hla & Hla'). cbn [fst snd].
      assert (HIn : In a adds) by (exact (in_combine_l _ _ a a' Hin)).
      split.
      * intros o Ho. apply (Hval (gentry l a) (gentry l a')); cbn [gentry le_key le_vec le_n]; auto.
        -- apply in_flat_map. exists (l, a). split; [exact Hla|now left].
        -- apply in_flat_map. exists (l, a'). split; [exact Hla'|now left].
        -- cbn [zprod fold_right] in Ho. lia.
      * intros f arr arr' shape o Hf Hf' Ho.
        assert (R : le_rank (fentry l a' (f, (arr', shape))) = la_master a' /\ le_arr (fentry l a' (f, (arr', shape))) = arr') by (unfold fentry; cbn [fst snd]; destruct list_eq_dec; auto).
        assert (R' : le_rank (fentry l a (f, (arr, shape))) = la_master a /\ le_arr (fentry l a (f, (arr, shape))) = arr) by (unfold fentry; cbn [fst snd]; destruct list_eq_dec; auto).
        destruct R as [R1 R2], R' as [R3 R4]. pose proof (Hval (fentry l a (f, (arr, shape))) (fentry l a' (f, (arr', shape))) o) as K. rewrite R1, R2, R3, R4 in K.
        apply K; [apply in_flat_map; exists (l, a); split; [exact Hla|right; apply in_map_iff; eauto]|apply in_flat_map; exists (l, a'); split; [exact Hla'|right; apply in_map_iff; eauto]|..].
        -- unfold fentry. cbn [fst snd]. rewrite <- E2. destruct list_eq_dec; reflexivity.
        -- unfold fentry. cbn [fst snd]. rewrite <- E2. destruct list_eq_dec; reflexivity.
        -- unfold fentry. cbn [fst snd]. rewrite <- E2. destruct list_eq_dec; reflexivity.
        -- unfold shapes_ok in Hs. rewrite Forall_forall in Hs. specialize (Hs a HIn). rewrite Forall_forall in Hs. specialize (Hs _ Hf). cbn [fst snd] in Hs.
           unfold fentry. cbn [fst snd]. destruct list_eq_dec as [E|E]; cbn [le_vec le_n].
           ++ rewrite E in Ho. cbn [zprod fold_right] in Ho. lia.
           ++ destruct Hs as [?|[E4 _]]; [contradiction|]. rewrite E4 in Ho. cbn [zprod fold_right] in Ho. lia.
    + intros r b i Hb. cbn [fst snd]. destruct (HL r) as (mr & -> & _ & H2). apply H2. intros e He Er ->.
      apply in_flat_map in He as ([l a'] & Hla & He). cbn [fst snd entries_of In] in He. pose proof (in_combine_r _ _ l a' Hla) as Hin.
      destruct He as [<-|He].
      * destruct (Hb a' Hin Er) as [Hc _]. now apply Hc.
      * apply in_map_iff in He as (f & <- & Hf). assert (Er' : la_master a' = r) by (unfold fentry in Er; destruct list_eq_dec; exact Er).
        destruct (Hb a' Hin Er') as [_ Hno]. apply Hno. apply in_map_iff. exists f. split; [|exact Hf]. unfold fentry. destruct list_eq_dec; reflexivity.
Qed.
End L.

(** ** findings *)
(** a vector field on a grid with N = dim: accepted when added, but save raises *)
Lemma square_vector_raises dim name master grid arr fname connect : 
  exists st, add_all dim [ {| la_name := name; la_master := master; la_grid := grid; la_n := dim; la_connect := connect; la_fields := [(fname, (arr, [dim; dim]))] |} ] lio_init = Some st /\
    entries dim st = None.
Proof.
  cbn [add_all]. unfold add_lagrangian. cbn [la_name la_master la_grid la_n la_connect la_fields lio_init grids lfields ltypes conns gcount].
  set (lab := grid_label 0 name). cbn [add_fields classify]. rewrite Z.eqb_refl. eexists. split; [reflexivity|]. unfold entries.
  repeat (cbn [grids dget dset gfields gmaster garr gn app grid_entries field_entries lfields ltypes]; rewrite ?String.eqb_refl).
  destruct (list_eq_dec Z.eq_dec [dim; dim] [dim]) as [E|E]; [discriminate|reflexivity].
Qed.
(** grids without any field: saved, but load changes nothing *)
Lemma add_all_nofields dim adds : Forall (fun a => la_fields a = []) adds -> forall st st', add_all dim adds st = Some st' -> lfields st' = lfields st.
Proof.
  induction 1 as [|a adds Ha H IH]; intros st st' E; cbn [add_all] in E; [injection E as <-; reflexivity|]. unfold add_lagrangian in E. rewrite Ha in E. cbn [add_fields] in E. now apply IH in E.
Qed.
Lemma gridonly_not_loaded {T} (fill : T) dim adds st (F : lfile T) r m : Forall (fun a => la_fields a = []) adds -> add_all dim adds lio_init = Some st ->
  lag_load fill dim st F r m = Some m.
Proof. intros H E. unfold lag_load. rewrite (add_all_nofields dim adds H _ _ E). reflexivity. Qed.

(** default names are distinct *)
Lemma decimal_inj n k : decimal n = decimal k -> n = k.
Proof.
  unfold decimal. intros E. apply (f_equal NilEmpty.uint_of_string) in E. rewrite !NilEmpty.usu in E. injection E as E.
  apply (f_equal Nat.of_uint) in E. now rewrite !Unsigned.of_to in E.
Qed.
Lemma default_label_inj n k : grid_label n None = grid_label k None -> n = k.
Proof. unfold grid_label. intros E. apply append_inj_len in E as [_ E]; [|reflexivity]. now apply decimal_inj. Qed.
Lemma default_labels_distinct adds : Forall (fun a => la_name a = None) adds -> NoDup (labels 0 adds).
Proof.
  generalize 0%nat as cnt. intros cnt H. revert cnt.
  assert (G : forall adds, Forall (fun a => la_name a = None) adds -> forall cnt l, In l (labels cnt adds) -> exists k, (cnt <= k)%nat /\ l = grid_label k None).
  { clear. induction 1 as [|a adds Ha H IH]; intros cnt l Hi; cbn [labels In] in Hi; [destruct Hi|]. rewrite Ha in Hi. destruct Hi as [<-|Hi]; [exists cnt; auto|].
    destruct (IH (S cnt) l Hi) as (k & ? & ?). exists k. split; [lia|auto]. }
  induction H as [|a adds Ha H IH]; intros cnt; cbn [labels]; constructor.
  - rewrite Ha. intros Hi. apply (G adds H) in Hi as (k & Hk & E). apply default_label_inj in E. lia.
  - apply IH.
Qed.
