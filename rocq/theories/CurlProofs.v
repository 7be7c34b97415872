(** curl_pyst_mpi_kernel_3d: the interior pass reads x ghosts in flight. *)
From Verif Require Import Base SpecGrid SpecGhost SpecStencil Cart CartFacts Comm Spmd GhostGeo Ghost2D Ghost3D GhostProofs Stencil StencilProofs HaloProofs HaloKernels HaloThms.
Arguments run_lops : simpl never.
Arguments addr_eq : simpl never.
Arguments place_dec : simpl never.

Section RaceRun.
Context {T : Type}.
Variable (sizes : list Z).
Variable (k : @kern T).
Hypothesis Hk : NoDup (map fst k).
Variable ins : list nat.
Hypothesis Hdis : forall f, In f ins -> ~ In f (map fst k).
Hypothesis Hloc : forall o K, In (o, K) k -> forall rd rd' old,
  (forall f d, In f ins -> rd f d = rd' f d) -> K rd old = K rd' old.
Variable (good : list Z -> bool) (race : nat -> list Z -> T).

Definition race_lops (I : list Z) : list (@lop T) :=
  map (fun oK : nat * kfun => {| la := (fst oK, ravel sizes I);
    lf := fun m => if good I then snd oK (fun f d => m (f, ravel sizes (vadd I d))) (m (fst oK, ravel sizes I)) else race (fst oK) I |}) k.

Lemma race_good I : good I = true -> race_lops I = cell_lops sizes k I.
Proof. unfold race_lops. intros ->. reflexivity. Qed.

Lemma race_la u I : In u (race_lops I) -> exists o, In o (map fst k) /\ la u = (o, ravel sizes I).
Proof. intros H. apply in_map_iff in H as ([o K] & <- & H). exists o. split; auto. apply in_map_iff. exists (o, K). auto. Qed.

Lemma race_frame Cs (m : @lmemT T) f a : ~ In f (map fst k) -> run_lops (flat_map race_lops Cs) m (f, a) = m (f, a).
Proof.
  intros Hf. apply run_other. intros u Hu. apply in_flat_map in Hu as (I & _ & Hu). apply race_la in Hu as (o & Ho & E).
  rewrite E. intros X. inversion X; subst. contradiction.
Qed.

Lemma run_race Cs : forall (m : @lmemT T) I o K, inb sizes I -> (forall J, In J Cs -> inb sizes J) -> In (o, K) k -> good I = true ->
  run_lops (flat_map race_lops Cs) m (o, ravel sizes I) =
  Nat.iter (count_occ ldec Cs I) (K (reader sizes m I)) (m (o, ravel sizes I)).
Proof.
  induction Cs as [|J Cs IH]; intros m I o K HI HC Hin Hgood; simpl; auto.
  rewrite run_lops_app, (IH _ I o K); auto; [|intros; apply HC; now right].
  assert (Hrd : forall x, K (reader sizes (run_lops (race_lops J) m) I) x = K (reader sizes m I) x).
  { intros x. apply (Hloc o K); auto. intros f d Hf. unfold reader.
    rewrite <- (app_nil_r (race_lops J)). change (race_lops J ++ []) with (flat_map race_lops [J]). apply race_frame. now apply Hdis. }
  assert (Hit : forall n x, Nat.iter n (K (reader sizes (run_lops (race_lops J) m) I)) x = Nat.iter n (K (reader sizes m I)) x).
  { induction n; intros x; simpl; auto. now rewrite IHn, Hrd. }
  rewrite Hit. destruct (ldec J I) as [->|Hn].
  - rewrite (race_good I Hgood). rewrite (one_cell sizes k Hk ins Hdis Hloc I m o K Hin). simpl. clear. induction (count_occ ldec Cs I); simpl; congruence.
  - rewrite run_other; auto. intros u Hu. apply race_la in Hu as (o' & _ & ->).
    intros X. inversion X as [[X1 X2]]. apply ravel_inj in X2; auto. apply HC. now left.
Qed.
End RaceRun.

Section Curl.
Context {T : Type}.
Variables (per : bool) (pz py px n0 n1 n2 g : Z) (full : bool) (cx cy cz vx vy vz : nat) (Kx Ky Kz : @kfun T) (zv : T) (race : Z -> nat -> list Z -> T).
Notation dims := [pz; py; px].
Notation loc := [n0; n1; n2].
Notation sizes := (ghosted g loc).
Notation F := [vx; vy; vz].
Notation k := [(cx, Kx); (cy, Ky); (cz, Kz)].
Notation C := (all_copies (zprod dims) (exchange3 per pz py px n0 n1 n2 g full F)).
Notation strips := (strips3 g 1 (s0 n0 g) (s1 n1 g) (s2 n2 g)).
Notation prog := (curl_3d zv per pz py px n0 n1 n2 g full cx cy cz vx vy vz Kx Ky Kz race).
Hypothesis Hp : 1 <= pz /\ 1 <= py /\ 1 <= px.
Hypothesis Hg : 1 <= g.
Hypothesis Hn : g <= n0 /\ g <= n1 /\ g <= n2.
Hypothesis Hnd : NoDup (map fst k).
Hypothesis Hdis : forall f, In f F -> ~ In f (map fst k).
Hypothesis Hloc : forall o K, In (o, K) k -> star_local 3 F 1 K.
Hypothesis Hov : forall o K, In (o, K) k -> overwrites K.

Let Hweak : forall o K, In (o, K) k -> forall rd rd' old, (forall f d, In f F -> rd f d = rd' f d) -> K rd old = K rd' old.
Proof. intros o K Hin rd rd' old H. apply (Hloc o K Hin). auto. Qed.
Let Hok : grid_ok dims loc := ok3 pz py px n0 n1 n2 g Hp Hg Hn.
Let HC : exch_facts per dims loc g F C := exch3_facts per pz py px n0 n1 n2 g full F Hp Hg Hn.

Definition good (I : list Z) : bool := (g + 1 <=? nth 2 I 0) && (nth 2 I 0 <? g + n2 - 1).
Notation icells := (kernel_cells 1 sizes (interior3_curl g)).

Lemma curl_interior_eq r : curl_interior sizes g n2 k (race r) = flat_map (race_lops sizes k good (race r)) icells.
Proof. reflexivity. Qed.

Lemma good_deep I : In I icells -> good I = true -> in_box (map (fun _ => g + 1) loc) (map (fun n => n - 2 * 1) loc) I.
Proof.
  intros HI Hgd. apply kernel_cells_In in HI; [|reflexivity]. unfold interior3_curl in HI.
  destruct I as [|i0 [|i1 [|i2 [|]]]]; simpl in HI; try discriminate; try (rewrite !andb_false_r in HI; discriminate).
  rewrite !andb_true_iff in HI. destruct HI as (H0 & H1 & _).
  rewrite IN_in in H0 by lia. rewrite IN_in in H1 by lia. unfold good in Hgd. simpl in Hgd.
  rewrite andb_true_iff, Z.leb_le, Z.ltb_lt in H0, H1, Hgd. simpl.
  repeat (constructor; [lia|]). constructor.
Qed.

Lemma curl_ok : Forall (phase_ok (zprod dims)) prog.
Proof.
  constructor; [|constructor; [exact I|constructor]]. simpl.
  split; [apply (ef_nrw _ _ _ _ _ _ HC)|]. split; [apply (ef_ss _ _ _ _ _ _ HC)|]. split; [apply (ef_rng _ _ _ _ _ _ HC)|].
  intros r Hr. apply Forall_forall. intros u Hu.
  change (In u (flat_map (race_lops sizes k good (race r)) icells)) in Hu.
  apply in_flat_map in Hu as (J & HJ & Hu). apply in_map_iff in Hu as ([o K] & <- & Ho).
  assert (Hout : In o (map fst k)) by (apply in_map_iff; exists (o, K); auto).
  split; cbn [la lf fst snd].
  - intros [s d] Hin. simpl. split.
    + destruct (ef_src _ _ _ _ _ _ HC _ _ Hin) as (f & I' & Hf & _ & E). intros ->. simpl in E. inversion E; subst. now apply (Hdis f).
    + destruct (ef_dst _ _ _ _ _ _ HC _ _ Hin) as (f & I' & Hf & _ & _ & E). intros ->. simpl in E. inversion E; subst. now apply (Hdis f).
  - intros m m' Hmm. destruct (good J) eqn:Hgd; auto. rewrite Hmm.
    2:{ intros s Hin. destruct (ef_dst _ _ _ _ _ _ HC _ _ Hin) as (f & I' & Hf & _ & _ & E). simpl in E. inversion E; subst. now apply (Hdis f). }
    apply (Hloc o K Ho). intros f d Hf Hd. apply Hmm. intros s Hin.
    pose proof (deep_star g loc 1 J d ltac:(lia) (good_deep J HJ Hgd) Hd) as Hinn.
    destruct (ef_dst _ _ _ _ _ _ HC _ _ Hin) as (f' & I' & Hf' & HI' & Hni & E). cbn [snd] in E. pose proof (f_equal snd E) as E2. cbn [snd] in E2.
    apply ravel_inj in E2; auto; [subst; contradiction|]. apply inner_inb; auto. lia.
Qed.

Notation zvs := (zeroed3 per pz py px g).

Lemma curl_run (m : mem T) r a : 0 <= r < zprod dims ->
  den (zprod dims) prog m (r, a) =
  run_lops (flat_map (set_cell sizes (map fst k) zv) (flat_map (view_cells sizes) (zvs r)))
   (run_lops (flat_map (cell_lops sizes k) (flat_map (kernel_cells 1 sizes) strips))
    (run_lops (flat_map (race_lops sizes k good (race r)) icells) (fun a => run_copies C m (r, a)))) a.
Proof.
  intros Hr. unfold curl_3d, den. cbn [fold_left den1]. unfold den_loc at 1. cbn [fst snd]. rewrite in_rk by auto.
  rewrite run_lops_app, kernel_lops_views. unfold zero_lops3. rewrite set_lops_views.
  unfold zeroed3. apply f_equal2; auto. f_equal. f_equal.
  apply FunctionalExtensionality.functional_extensionality. intros b. unfold den_loc. cbn [fst snd]. rewrite in_rk by auto.
  rewrite curl_interior_eq. reflexivity.
Qed.

Lemma strips_len : Forall (fun v => length v = length sizes) strips.
Proof. repeat constructor. Qed.
Lemma zvs_len r : Forall (fun v => length v = length sizes) (zvs r).
Proof. unfold zeroed3, zero_views3. rewrite !Forall_app. repeat split; apply ifF; reflexivity. Qed.

Lemma curl_frame (m : mem T) r f a : 0 <= r < zprod dims -> ~ In f (map fst k) -> den (zprod dims) prog m (r, (f, a)) = run_copies C m (r, (f, a)).
Proof.
  intros Hr Hf. rewrite curl_run by auto. rewrite run_sets_frame by auto. rewrite run_cells_frame by auto. now rewrite race_frame by auto.
Qed.

Lemma curl_value (m : mem T) r I o K : 0 <= r < zprod dims -> inner g loc I -> In (o, K) k ->
  field (den (zprod dims) prog m) sizes r o I =
  if zeroed loc g zvs r I then zv else K (fun f d => field (run_copies C m) sizes r f (vadd I d)) (field m sizes r o I).
Proof.
  intros Hr HI Hin. unfold field at 1. rewrite curl_run by auto.
  assert (HIb : inb sizes I) by (apply inner_inb; auto; lia).
  assert (Ho : In o (map fst k)) by (apply in_map_iff; exists (o, K); auto).
  assert (Hsp : Forall (fun x => 0 <= x) sizes) by (apply (sizes_pos dims); auto; lia).
  assert (HCi : forall v J, length v = length sizes -> In J (kernel_cells 1 sizes v) -> inb sizes J).
  { intros v J Hv HJ. apply kernel_cells_In in HJ; auto. eapply view_in_inb; [|exact Hsp|exact HJ]. lia. }
  rewrite run_sets; auto.
  2:{ intros J HJ. apply (zero_cells_In loc g zvs zvs_len) in HJ. unfold zeroed in HJ. apply existsb_exists in HJ as (v & Hv & HJ).
      eapply view_in_inb; [|exact Hsp|exact HJ]. lia. }
  assert (E : (if in_dec ldec I (flat_map (view_cells sizes) (zvs r)) then true else false) = zeroed loc g zvs r I).
  { destruct (in_dec _ _ _) as [H|H].
    - symmetry. now apply (zero_cells_In loc g zvs zvs_len).
    - destruct (zeroed loc g zvs r I) eqn:Ez; auto. exfalso. apply H. now apply (zero_cells_In loc g zvs zvs_len). }
  destruct (in_dec _ _ _); rewrite <- E; auto.
  rewrite (run_cells sizes k Hnd F Hdis Hweak) with (K := K); auto.
  2:{ intros J HJ. apply in_flat_map in HJ as (v & Hv & HJ). apply (HCi v); auto. pose proof strips_len as HS. rewrite Forall_forall in HS. auto. }
  assert (Hrd : forall x, K (reader sizes (run_lops (flat_map (race_lops sizes k good (race r)) icells) (fun a => run_copies C m (r, a))) I) x =
     K (fun f d => field (run_copies C m) sizes r f (vadd I d)) x).
  { intros x. apply (Hweak o K Hin). intros f d Hf. unfold reader. rewrite race_frame; auto. }
  destruct (count_occ ldec (flat_map (kernel_cells 1 sizes) strips) I) as [|c] eqn:Ec.
  - match goal with |- Nat.iter 0 _ ?x = _ => change (x = K (fun f d => field (run_copies C m) sizes r f (vadd I d)) (field m sizes r o I)) end.
    pose proof (passes3 n0 n1 n2 g 1 I ltac:(lia) Hg Hn HI) as [_ P]. unfold passes in P.
    rewrite <- (count_strips loc g 1 strips strips_len I), Ec in P.
    destruct (view_in 1 sizes (map (fun _ => IN g) loc) I) eqn:Ev; [|simpl in P; lia]. clear P.
    apply interior_deep in Ev; [|destruct Hok; auto|lia|lia].
    assert (HIc : In I icells /\ good I = true).
    { simpl in Ev. inversion Ev as [|? ? ? ? i0 I0 H0 HI0]; subst. inversion HI0 as [|? ? ? ? i1 I1 H1 HI1]; subst. inversion HI1 as [|? ? ? ? i2 I2 H2 HI2]; subst. inversion HI2; subst.
      split.
      - apply kernel_cells_In; [reflexivity|]. simpl. rewrite !IN_in, SAll_in by lia.
        rewrite !andb_true_iff, !Z.leb_le, !Z.ltb_lt. lia.
      - unfold good. simpl. rewrite andb_true_iff, Z.leb_le, Z.ltb_lt. lia. }
    destruct HIc as [HIc Hgd].
    rewrite (run_race sizes k Hnd F Hdis Hweak good (race r)) with (K := K); auto; [|intros J HJ; apply (HCi (interior3_curl g)); auto].
    rewrite count_view by reflexivity. apply kernel_cells_In in HIc; [|reflexivity]. rewrite HIc. simpl. apply (Hov o K Hin).
  - rewrite iter_over by (eauto; lia). rewrite Hrd. apply (Hov o K Hin).
Qed.

Lemma curl_serial (m : mem T) : acts_as_serial per dims loc g 1 F k (Some zv) m (den (zprod dims) prog m).
Proof.
  split.
  - intros u r x o K rd Hrep Hr Hx Hin P Hnb Hrd.
    rewrite curl_value with (K := K); auto; [|now apply add_inner].
    replace (zeroed loc g zvs r (map (fun i => i + g) x)) with false.
    2:{ destruct Hnb as [Hnb|Hnb]; [discriminate|].
        destruct (zeroed loc g zvs r (map (fun i => i + g) x)) eqn:E; auto. exfalso. apply Hnb. now apply boundary3 in E. }
    exact (read_global per dims loc g 1 F C k Hok ltac:(lia) HC Hloc m u r x K o _ rd Hr Hx Hrep Hin Hrd).
  - intros z' r x o K E Hr Hx Hin Hb. inversion E; subst z'.
    rewrite curl_value with (K := K); auto; [|now apply add_inner].
    apply boundary3 with (g := g) in Hb; auto. now rewrite Hb.
  - intros r f x Hr Hx Hf. unfold field. rewrite curl_frame; auto.
    apply (copies_inner per dims loc g F); auto. now apply add_inner.
  - intros r f a Hr Hf HF. rewrite curl_frame; auto. now apply (copies_frame per dims loc g F).
Qed.
End Curl.
