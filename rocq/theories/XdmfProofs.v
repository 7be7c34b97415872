From Coq Require Import String Ascii.
From Verif Require Import Base SpecGrid SpecIO Comm IoEul IoLag SpecIOLag IoLagProofs Xdmf SpecXdmf.
Open Scope Z_scope.
Open Scope list_scope.

(** ** File names *)
Lemma is_h5_spec a b c : is_h5 a b c = true -> a = "."%char /\ b = "h"%char /\ c = "5"%char.
Proof. unfold is_h5. rewrite !andb_true_iff. intros [[A B] C]. apply Ascii.eqb_eq in A, B, C. auto. Qed.
Lemma sapp_assoc (a b c : string) : ((a ++ b) ++ c = a ++ b ++ c)%string.
Proof. induction a; cbn; congruence. Qed.
Lemma sapp_nil (a : string) : (a ++ "" = a)%string.
Proof. induction a; cbn; congruence. Qed.
Lemma sapp_inj (a b c : string) : (a ++ b = a ++ c)%string -> b = c.
Proof. induction a; cbn; intros H; [exact H|]. injection H as H. auto. Qed.
Lemma has_tail a s : has_h5 s -> has_h5 (String a s).
Proof. intros (p & q & ->). exists (String a p), q. reflexivity. Qed.
Lemma replace_step new a s : (forall b c s3, s = String b (String c s3) -> is_h5 a b c = false) -> replace_h5 new (String a s) = String a (replace_h5 new s).
Proof. intros H. destruct s as [|b [|c s3]]; try reflexivity. cbn [replace_h5]. now rewrite (H b c s3 eq_refl). Qed.
Lemma replace_none new s : ~ has_h5 s -> replace_h5 new s = s.
Proof.
  induction s as [|a s IH]; intros H; [reflexivity|]. rewrite replace_step.
  - f_equal. apply IH. intros X. apply H. now apply has_tail.
  - intros b c s3 ->. apply not_true_iff_false. intros E. apply is_h5_spec in E as (-> & -> & ->). apply H. exists EmptyString, s3. reflexivity.
Qed.
Lemma replace_end new stem : ~ has_h5 stem -> replace_h5 new (stem ++ ".h5") = (stem ++ new)%string.
Proof.
  induction stem as [|a s IH]; intros H; [cbn; now rewrite sapp_nil|]. change (String a s ++ ".h5")%string with (String a (s ++ ".h5")). rewrite replace_step.
  - cbn [append]. f_equal. apply IH. intros X. apply H. now apply has_tail.
  - intros b c s3 E. apply not_true_iff_false. intros X. apply is_h5_spec in X as (-> & -> & ->). destruct s as [|b' [|c' s']]; try discriminate E.
    injection E as -> -> _. apply H. exists EmptyString, s'. reflexivity.
Qed.
Lemma eul_name stem : ~ has_h5 stem -> eul_xmf (stem ++ ".h5") = (stem ++ "_eulerian.xmf")%string.
Proof. apply replace_end. Qed.
Lemma lag_name stem label : ~ has_h5 stem -> lag_xmf (stem ++ ".h5") label = (stem ++ "_" ++ label ++ ".xmf")%string.
Proof. apply replace_end. Qed.
Lemma suffix_inj (a b s : string) : (a ++ s = b ++ s)%string -> a = b.
Proof.
  assert (L : forall x y : string, String.length (x ++ y) = (String.length x + String.length y)%nat) by (induction x; intros; cbn; auto).
  revert b. induction a as [|c a IH]; intros [|d b] H; auto.
  - pose proof (f_equal String.length H) as E. rewrite !L in E. cbn in E. lia.
  - pose proof (f_equal String.length H) as E. rewrite !L in E. cbn in E. lia.
  - cbn in H. injection H as -> H. now rewrite (IH b H).
Qed.
Lemma lag_name_inj stem l l' : ~ has_h5 stem -> lag_xmf (stem ++ ".h5") l = lag_xmf (stem ++ ".h5") l' -> l = l'.
Proof. intros H E. rewrite !lag_name in E by auto. apply sapp_inj in E. cbn in E. injection E as E. exact (suffix_inj _ _ _ E). Qed.
Lemma lag_eul_name stem l : ~ has_h5 stem -> lag_xmf (stem ++ ".h5") l = eul_xmf (stem ++ ".h5") -> l = "eulerian"%string.
Proof. intros H E. rewrite lag_name, eul_name in E by auto. apply sapp_inj in E. cbn in E. injection E as E. change "eulerian.xmf"%string with ("eulerian" ++ ".xmf")%string in E. exact (suffix_inj _ _ _ E). Qed.
Lemma not_h5 stem : ~ has_h5 stem -> eul_xmf (stem ++ ".h5") <> (stem ++ ".h5")%string /\ forall l, lag_xmf (stem ++ ".h5") l <> (stem ++ ".h5")%string.
Proof. intros H. rewrite eul_name by auto. split; [|intros l; rewrite lag_name by auto]; intros E; apply sapp_inj in E; discriminate E. Qed.

(** ** Last writes *)
Section O.
Context {D : Type}.
Lemma content_some name (ws : list (Z * (string * D))) d : content name ws = Some d -> exists r, In (r, (name, d)) ws.
Proof.
  induction ws as [|[r [f e]] ws IH]; cbn [content]; [discriminate|]. destruct (content name ws) as [d'|].
  - intros [= <-]. destruct (IH eq_refl) as [r' H]. exists r'. now right.
  - destruct (String.eqb_spec f name) as [-> |]; [|discriminate]. intros [= <-]. exists r. now left.
Qed.
Lemma content_exists name (ws : list (Z * (string * D))) r d : In (r, (name, d)) ws -> content name ws <> None.
Proof.
  induction ws as [|[r' [f e]] ws IH]; [intros []|]. intros [H|H]; cbn [content].
  - injection H as -> -> ->. destruct (content name ws); [discriminate|]. now rewrite String.eqb_refl.
  - specialize (IH H). destruct (content name ws); [discriminate|contradiction].
Qed.
(** All the contents written to a file are equal: so is what it holds. *)
Lemma content_eq n (progs : Z -> list (string * D)) ws name d : some_order n progs ws ->
  (forall r e, 0 <= r < n -> In (name, e) (progs r) -> e = d) -> (exists r, 0 <= r < n /\ In (name, d) (progs r)) -> content name ws = Some d.
Proof.
  intros [H1 H2] He (r & Hr & Hi). rewrite <- (H2 r Hr) in Hi. apply in_map_iff in Hi as ([r' w] & E & Hi). cbn in E. subst w. apply filter_In in Hi as [Hi _].
  destruct (content name ws) as [e|] eqn:Ec; [|now apply content_exists in Hi]. destruct (content_some _ _ _ Ec) as [r0 H0].
  rewrite Forall_forall in H1. pose proof (H1 _ H0) as Hr0. cbn in Hr0. f_equal. apply (He r0); auto. rewrite <- (H2 r0 Hr0). apply in_map_iff. exists (r0, (name, e)). split; [reflexivity|].
  apply filter_In. split; [exact H0|]. cbn. apply Z.eqb_refl.
Qed.
Lemma content_none n (progs : Z -> list (string * D)) ws name : some_order n progs ws -> (forall r e, 0 <= r < n -> ~ In (name, e) (progs r)) -> content name ws = None.
Proof.
  intros [H1 H2] He. destruct (content name ws) as [e|] eqn:Ec; [|reflexivity]. exfalso. destruct (content_some _ _ _ Ec) as [r0 H0].
  rewrite Forall_forall in H1. pose proof (H1 _ H0) as Hr0. cbn in Hr0. apply (He r0 e Hr0). rewrite <- (H2 r0 Hr0). apply in_map_iff. exists (r0, (name, e)). split; [reflexivity|].
  apply filter_In. split; [exact H0|]. cbn. apply Z.eqb_refl.
Qed.
End O.

(** ** Eulerian *)
Section Eul.
Context {V : Type}.
Variables (zero : V) (stem : string) (dim : Z).
Hypothesis Hstem : ~ has_h5 stem.
Notation h5 := (stem ++ ".h5")%string.
Lemma components_keys n i arrs : map fst (components n i arrs) = map (fun k => DVector (component_name n k)) (seq i (length arrs)).
Proof. revert i. induction arrs as [|a arrs IH]; intros i; cbn; [reflexivity|]. now rewrite IH. Qed.
Lemma eul_doc_fits N origin dx fs : 0 <= dim -> vectors_ok dim fs -> eul_fits zero h5 dim N origin dx (map fst (all_datasets fs)) (eul_doc zero h5 dim N origin dx fs).
Proof.
  intros Hd Hv. assert (P : forall W (o : W) l, pad dim o l = three_axes dim o l) by (intros; unfold pad, three_axes; destruct (Z.eqb_spec dim 3), (Z.eq_dec dim 3); congruence).
  split; cbn [x_fields x_topology x_origin x_spacing x_connect x_points eul_doc snd]; try apply P; [| |auto].
  - unfold all_datasets. induction Hv as [|f fs Hf _ IH]; [reflexivity|]. cbn [flat_map]. rewrite !map_app, <- IH. f_equal.
    destruct f as [n a|n arrs]; cbn [eul_items datasets]; [reflexivity|]. rewrite components_keys, !map_map. cbn [x_key]. now rewrite <- Hf, Nat2Z.id.
  - apply Forall_forall. intros i Hi. apply in_flat_map in Hi as (f & _ & Hi). destruct f as [n a|n arrs]; cbn [eul_items] in Hi.
    + destruct Hi as [<- |[]]. cbn. auto.
    + apply in_map_iff in Hi as (k & <- & _). cbn. auto.
Qed.
Variable cols : Z -> nat -> Z.
Lemma rank_files_in N origin dx fs st r name e : In (name, e) (rank_files zero h5 dim cols N origin dx fs st r) ->
  (r = 0 /\ fs <> [] /\ name = eul_xmf h5 /\ e = eul_doc zero h5 dim N origin dx fs) \/
  (exists label g label' g', In (label, g) (grids st) /\ In (label', g') (grids st) /\ r = gmaster g' /\ name = lag_xmf h5 label /\ e = lag_doc h5 dim cols st r label g).
Proof.
  unfold rank_files. rewrite in_app_iff. intros [H|H].
  - destruct (Z.eqb_spec r 0) as [-> |]; [|destruct H]. destruct fs; [destruct H|]. destruct H as [H|[]]. injection H as <- <-. left. repeat split. discriminate.
  - right. apply in_flat_map in H as ([l' g'] & H' & H). cbn [snd] in H. destruct (Z.eqb_spec r (gmaster g')); [|destruct H]. unfold lag_docs in H. apply in_map_iff in H as ([l g] & E & H).
    injection E as <- <-. exists l, g, l', g'. auto.
Qed.
Lemma eulerian_file n N origin dx fs st ws : 0 <= dim -> vectors_ok dim fs -> fs <> [] -> 0 < n -> ~ In "eulerian"%string (map fst (grids st)) ->
  some_order n (rank_files zero h5 dim cols N origin dx fs st) ws ->
  content (eul_xmf h5) ws = Some (eul_doc zero h5 dim N origin dx fs).
Proof.
  intros Hd Hv Hf Hn He Hws. apply (content_eq n _ _ _ _ Hws).
  - intros r e Hr Hi. apply rank_files_in in Hi as [(_ & _ & _ & ->)|(l & g & l' & g' & H & _ & _ & E & _)]; [reflexivity|]. exfalso. apply He.
    symmetry in E. apply lag_eul_name in E; auto. subst l. exact (in_map fst _ _ H).
  - exists 0. split; [lia|]. unfold rank_files. apply in_or_app. left. cbn. destruct fs; [contradiction|now left].
Qed.

(** ** Lagrangian *)
Lemma conns_ok adds : forall st st', add_all dim adds st = Some st' -> NoDup (map fst (conns st)) -> (forall l, In l (labels (gcount st) adds) -> ~ In l (map fst (conns st))) -> NoDup (labels (gcount st) adds) ->
  (forall l, ~ In l (labels (gcount st) adds) -> dget l (conns st') = dget l (conns st)) /\
  forall l a, In (l, a) (combine (labels (gcount st) adds) adds) -> dget l (conns st') = if la_connect a then Some (la_n a) else None.
Proof.
  assert (AF : forall n label fl st st', add_fields dim n label fl st = Some st' -> conns st' = conns st /\ gcount st' = gcount st).
  { intros n label fl. induction fl as [|[nm [arr sh]] fl IH]; intros st st'; cbn [add_fields]; [intros [= <-]; auto|]. destruct (classify dim n sh); [|discriminate]. intros E. apply IH in E. exact E. }
  assert (Dn : forall (V0 : Type) k (d : list (string * V0)), ~ In k (map fst d) -> dget k d = None).
  { intros V0 k d. induction d as [|[k' v] d IH]; cbn [dget map fst In]; [reflexivity|]. intros H. destruct (String.eqb_spec k' k); [tauto|]. apply IH. tauto. }
  assert (Dap : forall (V0 : Type) k (d d' : list (string * V0)), dget k (d ++ d') = match dget k d with Some v => Some v | None => dget k d' end).
  { intros V0 k d d'. induction d as [|[k' v] d IH]; cbn [dget app]; [reflexivity|]. destruct (String.eqb_spec k' k); auto. }
  induction adds as [|a adds IH]; intros st st' E Hc Hd Hl; cbn [add_all] in E.
  - injection E as <-. split; [reflexivity|intros l a []].
  - unfold add_lagrangian in E. destruct (add_fields _ _ _ _ _) as [st1|] eqn:E1; [|discriminate]. apply AF in E1 as [C1 C2]. cbn [conns gcount] in C1, C2. cbn [labels] in Hl, Hd.
    set (label := grid_label (gcount st) (la_name a)) in *. inversion Hl as [|? ? Hl1 Hl2]; subst.
    assert (Hnew : ~ In label (map fst (conns st))) by (apply Hd; now left).
    assert (C1' : conns st1 = conns st ++ if la_connect a then [(label, la_n a)] else []).
    { rewrite C1. destruct (la_connect a); [now apply dset_fresh|now rewrite app_nil_r]. }
    destruct (IH st1 st' E) as [I1 I2].
    + rewrite C1', map_app. destruct (la_connect a); cbn [map app fst]; [|now rewrite app_nil_r]. apply (Permutation.Permutation_NoDup (l := label :: map fst (conns st))); [apply Permutation.Permutation_cons_append|now constructor].
    + rewrite C2. intros l Hi. rewrite C1', map_app, in_app_iff. intros [X|X]; [apply (Hd l); [now right|exact X]|]. destruct (la_connect a); [|destruct X]. destruct X as [<- |[]]. exact (Hl1 Hi).
    + rewrite C2. exact Hl2.
    + rewrite C2 in I1, I2. split.
      * intros l Hn. cbn [labels In] in Hn. fold label in Hn. rewrite I1 by tauto. rewrite C1', Dap. destruct (dget l (conns st)); [reflexivity|]. destruct (la_connect a); [|reflexivity]. cbn [dget].
        destruct (String.eqb_spec label l); [tauto|reflexivity].
      * intros l b Hi. cbn [labels combine In] in Hi. fold label in Hi. destruct Hi as [Hi|Hi]; [|now apply I2]. injection Hi as <- <-. rewrite I1 by exact Hl1. rewrite C1', Dap, Dn by exact Hnew.
        destruct (la_connect a); [|reflexivity]. cbn [dget]. now rewrite String.eqb_refl.
Qed.
Lemma grid_keys label a (G : list (string * ladd)) : NoDup (map fst G) -> In (label, a) G ->
  filter (fun e => (grid_of (le_key e) =? label)%string) (flat_map (fun la => entries_of (fst la) (snd la)) G) = entries_of label a.
Proof.
  assert (K : forall l b e, In e (entries_of l b) -> grid_of (le_key e) = l).
  { intros l b e [<- |H]; [reflexivity|]. apply in_map_iff in H as (f & <- & _). unfold fentry. destruct (list_eq_dec _ _ _); reflexivity. }
  assert (N : forall G0, ~ In label (map fst G0) -> filter (fun e => (grid_of (le_key e) =? label)%string) (flat_map (fun la : string * ladd => entries_of (fst la) (snd la)) G0) = []).
  { induction G0 as [|[l b] G0 IH]; intros H; [reflexivity|]. cbn [flat_map fst snd]. rewrite filter_app, IH by (cbn in H; tauto). rewrite app_nil_r.
    induction (entries_of l b) as [|e es IHe] eqn:Ee; [reflexivity|]. enough (X : forall es0, (forall e0, In e0 es0 -> grid_of (le_key e0) = l) -> filter (fun e0 => (grid_of (le_key e0) =? label)%string) es0 = []).
    - apply X. intros e0 H0. apply (K l b). now rewrite Ee.
    - intros es0 HH. induction es0 as [|e0 es0 IH0]; [reflexivity|]. cbn [filter]. rewrite (HH e0) by now left. destruct (String.eqb_spec l label) as [-> |]; [cbn in H; tauto|]. apply IH0. intros; apply HH; now right. }
  assert (A : forall es0, (forall e0, In e0 es0 -> grid_of (le_key e0) = label) -> filter (fun e0 => (grid_of (le_key e0) =? label)%string) es0 = es0).
  { intros es0 HH. induction es0 as [|e0 es0 IH0]; [reflexivity|]. cbn [filter]. rewrite (HH e0) by now left. rewrite String.eqb_refl. f_equal. apply IH0. intros; apply HH; now right. }
  induction G as [|[l b] G IH]; [intros _ []|]. intros Hn Hi. cbn [map fst] in Hn. inversion Hn as [|? ? Hn1 Hn2]; subst. cbn [flat_map fst snd]. rewrite filter_app. destruct Hi as [Hi|Hi].
  - injection Hi as -> ->. rewrite (N G Hn1), app_nil_r. apply A. intros e0. apply K.
  - rewrite (IH Hn2 Hi). assert (Hne : l <> label) by (intros ->; apply Hn1; exact (in_map fst _ _ Hi)).
    assert (Z0 : filter (fun e => (grid_of (le_key e) =? label)%string) (entries_of l b) = []).
    { specialize (N [(l, b)]). cbn [flat_map map fst snd In] in N. rewrite app_nil_r in N. apply N. intros [X|[]]. exact (Hne X). }
    now rewrite Z0.
Qed.
Lemma map_fst_combine {A B} (l : list A) (l' : list B) : length l = length l' -> map fst (combine l l') = l.
Proof. revert l'. induction l as [|x l IH]; intros [|y l'] H; try discriminate; [reflexivity|]. cbn. f_equal. apply IH. now injection H. Qed.
Lemma labels_length c adds : length (labels c adds) = length adds.
Proof. revert c. induction adds as [|a adds IH]; intros c; cbn; [reflexivity|]. f_equal. apply IH. Qed.
Lemma filter_map_comm {A B} (p : B -> bool) (f : A -> B) l : filter p (map f l) = map f (filter (fun x => p (f x)) l).
Proof. induction l as [|x l IH]; cbn; [reflexivity|]. destruct (p (f x)); cbn; now rewrite IH. Qed.

Theorem lagrangian_file {T} n N origin dx fs adds st es time (dws : list ((lkey * list Z) * option T)) ws :
  shapes_ok dim adds -> NoDup (labels 0 adds) -> NoDup (field_names adds) -> ~ In "eulerian"%string (labels 0 adds) ->
  Forall (fun a => 0 <= la_master a < n) adds -> (forall a a', In a adds -> In a' adds -> cols (la_master a) (la_grid a') = la_n a') ->
  add_all dim adds lio_init = Some st -> entries dim st = Some es -> some_order n (rank_files zero h5 dim cols N origin dx fs st) ws ->
  forall label a, In (label, a) (combine (labels 0 adds) adds) ->
  exists d, content (lag_xmf h5 label) ws = Some d /\ lag_fits h5 dim label (la_n a) (lag_saved st es time dws) d.
Proof.
  intros Hs Hl Hn He Hm Hc Est Ees Hws label a Hla.
  destruct (add_all_ok dim adds lio_init) as (st0 & E0 & G & F & Ty); auto. cbn [lio_init grids lfields ltypes gcount app] in G, F, Ty. rewrite Est in E0. injection E0 as <-.
  destruct (entries_ok dim adds Hs Hl Hn) as (st0 & E0 & EE & _). rewrite Est in E0. injection E0 as <-. rewrite Ees in EE. injection EE as ->.
  destruct (conns_ok adds lio_init st Est) as [_ Hcn]; [constructor|intros ? ? []|exact Hl|]. cbn [lio_init gcount] in Hcn.
  assert (Lab : map fst (combine (labels 0 adds) adds) = labels 0 adds) by (apply map_fst_combine, labels_length).
  assert (Gin : forall l g, In (l, g) (grids st) -> exists b, In (l, b) (combine (labels 0 adds) adds) /\ In b adds /\ g = snd (to_grid l b)).
  { intros l g H. rewrite G in H. apply in_map_iff in H as ([l0 b] & E & H). injection E as <- <-. exists b. split; [exact H|]. split; [exact (in_combine_r _ _ _ _ H)|reflexivity]. }
  assert (Hgr : In (label, snd (to_grid label a)) (grids st)) by (rewrite G; apply in_map_iff; exists (label, a); split; [reflexivity|exact Hla]).
  assert (Ha : In a adds) by exact (in_combine_r _ _ _ _ Hla).
  assert (Uniq : forall b, In (label, b) (combine (labels 0 adds) adds) -> b = a).
  { intros b Hb. rewrite <- Lab in Hl. clear -Hl Hla Hb. induction (combine (labels 0 adds) adds) as [|[l c] L IH]; [destruct Hb|]. cbn in Hl. inversion Hl as [|? ? H1 H2]; subst.
    destruct Hb as [Hb|Hb], Hla as [Hla|Hla]; try congruence; try (now apply IH).
    - injection Hb as -> ->. exfalso. apply H1. exact (in_map fst _ _ Hla).
    - injection Hla as -> ->. exfalso. apply H1. exact (in_map fst _ _ Hb). }
  set (d := lag_doc (V := V) h5 dim (fun _ _ => la_n a) st 0 label (snd (to_grid label a))).
  assert (Ed : forall r, (exists b, In b adds /\ la_master b = r) -> lag_doc (V := V) h5 dim cols st r label (snd (to_grid label a)) = d).
  { intros r (b & Hb & <-). unfold d, lag_doc. cbn [to_grid snd garr gfields]. now rewrite (Hc b a Hb Ha). }
  exists d. split.
  - apply (content_eq n _ _ _ _ Hws).
    + intros r e Hr Hi. apply rank_files_in in Hi as [(_ & _ & E & _)|(l & g & l' & g' & H & H' & Er & E & ->)].
      * exfalso. apply lag_eul_name in E; auto. subst label. apply He. exact (in_combine_l _ _ _ _ Hla).
      * apply lag_name_inj in E; auto. subst l. destruct (Gin _ _ H) as (b & Hb & _ & ->). apply Uniq in Hb. subst b. apply Ed. destruct (Gin _ _ H') as (b' & _ & Hb' & ->). exists b'. auto.
    + exists (la_master a). split; [rewrite Forall_forall in Hm; now apply Hm|]. unfold rank_files. apply in_or_app. right. apply in_flat_map. exists (label, snd (to_grid label a)). split; [exact Hgr|].
      cbn [snd to_grid gmaster]. rewrite Z.eqb_refl. unfold lag_docs. apply in_map_iff. exists (label, snd (to_grid label a)). cbn [fst snd]. split; [|exact Hgr]. f_equal. apply Ed. exists a. auto.
  - unfold lag_fits. cbn [l_keys l_conns lag_saved x_points x_fields x_topology x_connect d lag_doc to_grid snd gfields]. rewrite (Hcn label a Hla). split; [|split; [reflexivity|split]].
    + rewrite filter_map_comm. cbn [fst]. unfold expected. rewrite (grid_keys label a) by (auto; now rewrite Lab). rewrite map_map. cbn [fst snd entries_of map app gentry le_key le_vec le_n x_key x_dims]. f_equal.
      rewrite !map_map. apply map_ext_in. intros f Hf. unfold lag_item.
      assert (Hty : dget (fst f) (ltypes st) = Some (snd (type_of (la_n a) f))).
      { apply dget_In.
        - rewrite Ty. rewrite flat_map_concat_map, concat_map, map_map. unfold field_names in Hn. rewrite flat_map_concat_map in Hn. erewrite map_ext; [exact Hn|]. intros b. cbv beta. rewrite map_map. apply map_ext. intros [? [? ?]]. reflexivity.
        - rewrite Ty. apply in_flat_map. exists a. split; [exact Ha|]. apply in_map_iff. exists f. split; [destruct f as [? [? ?]]; reflexivity|exact Hf]. }
      rewrite Hty. unfold fentry. destruct f as [nm [arr sh]]. cbn [fst snd type_of].
      destruct (list_eq_dec Z.eq_dec sh [la_n a]); reflexivity.
    + destruct (la_connect a); reflexivity.
    + cbn [app]. constructor; [reflexivity|]. apply Forall_forall. intros i Hi. apply in_map_iff in Hi as (f & <- & _). unfold lag_item. destruct (dget f (ltypes st)) as [[|]|]; reflexivity.
Qed.
End Eul.
Lemma filter_pair {A} (r r' : Z) (l : list A) : (r = r' -> filter (fun w => fst w =? r) (map (pair r') l) = map (pair r') l) /\ (r <> r' -> filter (fun w => fst w =? r) (map (pair r') l) = []).
Proof. split; intros H; induction l as [|x l IH]; cbn; auto; destruct (Z.eqb_spec r' r); try congruence. Qed.

(** Two masters. *)
Definition tm_add (name : string) (master : Z) (grid : nat) (n : Z) (field : string) : ladd :=
  {| la_name := Some name; la_master := master; la_grid := grid; la_n := n; la_connect := false; la_fields := [(field, (S grid, [n]))] |}.
Definition tm_adds : list ladd := [tm_add "a" 0 0 2 "s"; tm_add "b" 1 4 3 "t"].
Lemma two_masters :
  exists adds st ws d, shapes_ok 2 adds /\ NoDup (labels 0 adds) /\ NoDup (field_names adds) /\ Forall (fun a => 0 <= la_master a < 2 /\ la_n a > 0) adds /\ add_all 2 adds lio_init = Some st /\
    some_order 2 (rank_files 0 ("x" ++ ".h5") 2 (fun r arr => fold_right (fun a x => if (la_grid a =? arr)%nat then (if la_master a =? r then la_n a else 0) else x) 0 adds) [6; 8] [0; 0] [1; 1] [] st) ws /\
    content (lag_xmf ("x" ++ ".h5") "a") ws = Some d /\
    In "a"%string (labels 0 adds) /\ x_topology d = [0] /\ forall (T : Type) es time (dws : list ((lkey * list Z) * option T)) n, entries 2 st = Some es -> ~ lag_fits ("x" ++ ".h5") 2 "a" n (lag_saved st es time dws) d.
Proof.
  destruct (add_all 2 tm_adds lio_init) as [st|] eqn:E; [|discriminate E]. pose proof E as E'. vm_compute in E. injection E as E. subst st.
  set (cols := fun r arr => fold_right (fun a x => if (la_grid a =? arr)%nat then (if la_master a =? r then la_n a else 0) else x) 0 tm_adds).
  match type of E' with _ = Some ?s => set (st := s) in * end.
  exists tm_adds, st, (map (pair 0) (rank_files 0 ("x" ++ ".h5") 2 cols [6; 8] [0; 0] [1; 1] [] st 0) ++ map (pair 1) (rank_files 0 ("x" ++ ".h5") 2 cols [6; 8] [0; 0] [1; 1] [] st 1)).
  eexists. split; [repeat constructor; cbn; auto|]. split; [cbn; repeat constructor; cbn; intuition discriminate|]. split; [cbn; repeat constructor; cbn; intuition discriminate|].
  split; [repeat constructor; cbn; lia|]. split; [exact E'|]. split; [|split; [vm_compute; reflexivity|split; [cbn; auto|split; [reflexivity|]]]].
  - split.
    + apply Forall_app. split; apply Forall_forall; intros w Hw; apply in_map_iff in Hw as (? & <- & _); cbn; lia.
    + intros r Hr. assert (C : r = 0 \/ r = 1) by lia. rewrite filter_app. destruct C as [-> | ->].
      * rewrite (proj2 (filter_pair 0 1 _)) by lia. rewrite (proj1 (filter_pair 0 0 _)), app_nil_r, map_map, map_id by reflexivity. reflexivity.
      * rewrite (proj2 (filter_pair 1 0 _)) by lia. rewrite (proj1 (filter_pair 1 1 _)) by reflexivity. cbn [app]. rewrite map_map, map_id. reflexivity.
  - intros T es time dws n Ees [H _]. vm_compute in Ees. injection Ees as <-. vm_compute in H. discriminate H.
Qed.
