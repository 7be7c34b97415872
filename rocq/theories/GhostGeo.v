(** Geometry of ghost exchange, for any number of axes: proof-side notions
    that the 2D and 3D communicator models are shown to coincide with. *)
From Verif Require Import Base SpecGrid Cart CartFacts Comm.

Definition send_start1 (g n d : Z) : Z := if d =? 1 then n else g.
Definition recv_start1 (g n d : Z) : Z := if d =? 1 then 0 else if d =? -1 then n + g else g.
Definition len1 (g n d : Z) : Z := if d =? 0 then n else g.
Definition zone1 (g n i : Z) : Z := if i <? g then -1 else if i <? g + n then 0 else 1.

Fixpoint map2 {A} (f : Z -> Z -> A) (a b : list Z) : list A :=
  match a, b with x :: a', y :: b' => f x y :: map2 f a' b' | _, _ => [] end.

Definition send_start g loc dv := map2 (send_start1 g) loc dv.
Definition recv_start g loc dv := map2 (recv_start1 g) loc dv.
Definition lens g loc dv := map2 (len1 g) loc dv.
Definition zone g loc I := map2 (zone1 g) loc I.

Definition is_dir (loc dv : list Z) := length dv = length loc /\ Forall (fun d => d = -1 \/ d = 0 \/ d = 1) dv.
Definition nonzero (dv : list Z) := Exists (fun d => d <> 0) dv.

Definition gdata (f : nat) (sizes start len : list Z) : list addr :=
  map (fun c => (f, ravel sizes c)) (box start len).

Definition gstep (g : Z) (loc : list Z) (f : nat) (dv : list Z) : step :=
  {| sdir := dv;
     sdata := gdata f (ghosted g loc) (send_start g loc dv) (lens g loc dv);
     rdata := gdata f (ghosted g loc) (recv_start g loc dv) (lens g loc dv) |}.

Definition gsteps (g : Z) (loc : list Z) (D : list (list Z)) (F : list nat) : list step :=
  flat_map (fun f => map (gstep g loc f) D) F.

(** displacement of a cell index when the block moves by dv blocks *)
Definition disp (dv loc : list Z) : list Z := vneg (vmul dv loc).

Ltac cmp := repeat match goal with
  | |- context [?a =? ?b] => destruct (Z.eqb_spec a b)
  | |- context [?a <? ?b] => destruct (Z.ltb_spec a b)
  | H : context [?a =? ?b] |- _ => destruct (Z.eqb_spec a b)
  | H : context [?a <? ?b] |- _ => destruct (Z.ltb_spec a b)
  end; try lia.

Lemma map2_length {A} (f : Z -> Z -> A) a b : length a = length b -> length (map2 f a b) = length a.
Proof. revert b. induction a; intros [|]; simpl; intros; try discriminate; auto. Qed.

Lemma recv_is_shift g loc dv : is_dir loc dv ->
  recv_start g loc dv = vadd (send_start g loc dv) (disp dv loc).
Proof.
  intros [Hl Hd]. revert loc Hl. induction Hd as [|d dv H Hd IH]; intros [|n loc] Hl; simpl in *; try discriminate; auto.
  unfold recv_start, send_start, disp in *. simpl. rewrite IH by lia. f_equal.
  unfold recv_start1, send_start1. destruct H as [-> | [-> | -> ]]; cmp.
Qed.

Lemma gcopies g loc f dv x y : is_dir loc dv ->
  (In (x, y) (combine (sdata (gstep g loc f dv)) (rdata (gstep g loc f dv))) <->
   exists c, in_box (send_start g loc dv) (lens g loc dv) c /\
     x = (f, ravel (ghosted g loc) c) /\ y = (f, ravel (ghosted g loc) (vadd c (disp dv loc)))).
Proof.
  intros Hdir. assert (Hl := proj1 Hdir). simpl. rewrite (recv_is_shift g loc dv Hdir). unfold gdata.
  assert (L1 : length (send_start g loc dv) = length (lens g loc dv)).
  { unfold send_start, lens. rewrite !map2_length; lia. }
  rewrite box_shift; auto.
  - rewrite map_map, combine_map_map, in_map_iff. split.
    + intros (c & E & Hc). apply box_In in Hc; auto. exists c. split; auto. split; congruence.
    + intros (c & Hc & -> & ->). exists c. split; auto. now apply box_In.
  - unfold disp, send_start. rewrite vneg_length, vmul_length, map2_length; lia.
Qed.

(** Source cells are inner cells; target cells lie in zone -dv. *)
Lemma send_cell_inner g loc dv c : 0 <= g -> Forall (fun n => g <= n) loc -> is_dir loc dv ->
  in_box (send_start g loc dv) (lens g loc dv) c -> inner g loc c.
Proof.
  intros Hg Hn [Hl Hd]. revert dv c Hl Hd. induction Hn as [|n loc H Hn IH]; intros [|d dv] c Hl Hd Hc; simpl in *; try discriminate.
  - inversion Hc. constructor.
  - unfold send_start, lens in Hc. simpl in Hc. inversion Hc as [|? ? ? ? a cs Ha Hcs]; subst.
    inversion Hd as [|? ? Hd1 Hd2]; subst. unfold inner. simpl. constructor.
    + unfold send_start1, len1 in Ha. destruct Hd1 as [-> | [-> | -> ]]; cmp.
    + apply (IH dv cs); auto.
Qed.

Lemma inner_inb g loc c : 0 <= g -> inner g loc c -> inb (ghosted g loc) c.
Proof.
  intros Hg. revert c. induction loc as [|n loc IH]; intros c H; unfold inner in H; simpl in H; inversion H; subst; simpl; [constructor|]. constructor; [lia|apply IH; assumption].
Qed.

Lemma recv_cell_inb_any g loc dv c : 0 <= g -> Forall (fun n => 0 <= n) loc -> is_dir loc dv ->
  in_box (send_start g loc dv) (lens g loc dv) c -> inb (ghosted g loc) (vadd c (disp dv loc)).
Proof.
  intros Hg Hn [Hl Hd]. revert dv c Hl Hd. induction Hn as [|n loc H Hn IH]; intros [|d dv] c Hl Hd Hc; simpl in *; try discriminate.
  - inversion Hc. constructor.
  - unfold send_start, lens in Hc. simpl in Hc. inversion Hc as [|? ? ? ? a cs Ha Hcs]; subst.
    inversion Hd as [|? ? Hd1 Hd2]; subst. unfold disp. simpl. constructor.
    + unfold send_start1, len1 in Ha. destruct Hd1 as [-> | [-> | -> ]]; cmp.
    + apply (IH dv cs); auto.
Qed.
Lemma recv_cell_inb g loc dv c : 0 <= g -> Forall (fun n => g <= n) loc -> is_dir loc dv ->
  in_box (send_start g loc dv) (lens g loc dv) c -> inb (ghosted g loc) (vadd c (disp dv loc)).
Proof. intros Hg Hn. apply recv_cell_inb_any; auto. eapply Forall_impl; [|exact Hn]. simpl. lia. Qed.

Lemma recv_cell_zone_any g loc dv c : 0 <= g -> Forall (fun n => 0 <= n) loc -> is_dir loc dv ->
  in_box (send_start g loc dv) (lens g loc dv) c -> zone g loc (vadd c (disp dv loc)) = vneg dv.
Proof.
  intros Hg Hn [Hl Hd]. revert dv c Hl Hd. induction Hn as [|n loc H Hn IH]; intros [|d dv] c Hl Hd Hc; simpl in *; try discriminate.
  - reflexivity.
  - unfold send_start, lens in Hc. simpl in Hc. inversion Hc as [|? ? ? ? a cs Ha Hcs]; subst.
    inversion Hd as [|? ? Hd1 Hd2]; subst. unfold zone, disp. simpl. f_equal.
    + unfold send_start1, len1 in Ha. unfold zone1.
      destruct Hd1 as [-> | [-> | -> ]]; cmp.
    + apply (IH dv cs); auto.
Qed.
Lemma recv_cell_zone g loc dv c : 0 <= g -> Forall (fun n => g <= n) loc -> is_dir loc dv ->
  in_box (send_start g loc dv) (lens g loc dv) c -> zone g loc (vadd c (disp dv loc)) = vneg dv.
Proof. intros Hg Hn. apply recv_cell_zone_any; auto. eapply Forall_impl; [|exact Hn]. simpl. lia. Qed.

Lemma inner_zone g loc c : inner g loc c -> zone g loc c = repeat 0 (length loc).
Proof.
  revert c. induction loc as [|n loc IH]; intros c H; unfold inner in H; simpl in H; inversion H; subst; simpl; auto.
  unfold zone. simpl. f_equal; [|apply IH; auto]. unfold zone1.
  destruct (Z.ltb_spec c0 g); try lia. destruct (Z.ltb_spec c0 (g + n)); lia.
Qed.

Lemma zone_inner g loc c : inb (ghosted g loc) c -> Forall (fun z => z = 0) (zone g loc c) -> inner g loc c.
Proof.
  revert c. induction loc as [|n loc IH]; intros c H Hz; inversion H; subst; [constructor|].
  unfold zone in Hz. simpl in Hz. inversion Hz as [|? ? Hz1 Hz2]; subst.
  unfold inner. simpl. constructor; [|apply IH; auto].
  unfold zone1 in Hz1. destruct (Z.ltb_spec c0 g); try discriminate.
  destruct (Z.ltb_spec c0 (g + n)); try discriminate. lia.
Qed.

Lemma zone_is_dir g loc c : length c = length loc -> is_dir loc (zone g loc c).
Proof.
  intros Hl. split; [unfold zone; rewrite map2_length; auto|].
  revert c Hl. induction loc as [|n loc IH]; intros [|a c] Hl; simpl in *; try discriminate; constructor.
  - unfold zone1. destruct (a <? g); auto. destruct (a <? g + n); auto.
  - apply IH. lia.
Qed.

(** The cell that zone z = zone I of the receiver comes from. *)
Lemma zone_source_any g loc I : 0 <= g -> Forall (fun n => 0 <= n) loc -> inb (ghosted g loc) I ->
  let dv := vneg (zone g loc I) in
  let c := vadd I (vmul dv loc) in
  is_dir loc dv /\ in_box (send_start g loc dv) (lens g loc dv) c /\ vadd c (disp dv loc) = I.
Proof.
  intros Hg Hn HI. simpl.
  assert (Hdir : is_dir loc (vneg (zone g loc I))).
  { assert (HlI : length I = length loc).
    { apply inb_length in HI. unfold ghosted in HI. now rewrite map_length in HI. }
    destruct (zone_is_dir g loc I HlI) as [H1 H2]. split; [now rewrite vneg_length|].
    apply Forall_map. eapply Forall_impl; [|exact H2]. simpl. intros; lia. }
  split; auto. clear Hdir.
  revert I HI. induction Hn as [|n loc H Hn IH]; intros I HI; simpl in HI; inversion HI; subst.
  - simpl. split; [constructor|reflexivity].
  - specialize (IH cs H4). destruct IH as [IH1 IH2].
    unfold zone, send_start, lens, disp in *. simpl.
    split.
    + constructor; [|exact IH1].
      unfold zone1, send_start1, len1. destruct (Z.ltb_spec c g); [cmp|].
      destruct (Z.ltb_spec c (g + n)); cmp.
    + rewrite IH2. f_equal. lia.
Qed.
Lemma zone_source g loc I : 0 <= g -> Forall (fun n => g <= n) loc -> inb (ghosted g loc) I ->
  let dv := vneg (zone g loc I) in
  let c := vadd I (vmul dv loc) in
  is_dir loc dv /\ in_box (send_start g loc dv) (lens g loc dv) c /\ vadd c (disp dv loc) = I.
Proof. intros Hg Hn. apply zone_source_any; auto. eapply Forall_impl; [|exact Hn]. simpl. lia. Qed.

Lemma vneg_eq a b : vneg a = b <-> a = vneg b.
Proof. split; intros E; subst; now rewrite vneg_involutive. Qed.

Section Exchange.
Context {T : Type}.
Variables (per : bool) (dims loc : list Z) (g : Z).
Hypothesis Hok : grid_ok dims loc.
Hypothesis Hg : 0 <= g.
Hypothesis Hgn : Forall (fun n => g <= n) loc.
Variables (D : list (list Z)) (F : list nat).
Hypothesis HD : forall dv, In dv D -> is_dir loc dv /\ nonzero dv.

Let sizes := ghosted g loc.
Let nranks := zprod dims.
Let prog := steps_prog (nbr per dims) (gsteps g loc D F).

Lemma gsteps_In st : In st (gsteps g loc D F) <-> exists f dv, In f F /\ In dv D /\ st = gstep g loc f dv.
Proof.
  unfold gsteps. rewrite in_flat_map. split.
  - intros (f & Hf & H). apply in_map_iff in H as (dv & <- & Hdv). eauto.
  - intros (f & dv & Hf & Hdv & ->). exists f. split; auto. apply in_map_iff. eauto.
Qed.

Lemma gpeers_ok : peers_ok (nbr per dims) nranks (gsteps g loc D F).
Proof.
  intros a b st Hst Ha Hb. apply gsteps_In in Hst as (f & dv & Hf & Hdv & ->). simpl.
  destruct Hok as [H1 H2 H3]. apply nbr_inverse; auto. destruct (HD dv Hdv) as [[Hl _] _]. lia.
Qed.

Lemma gmatched : all_matched nranks prog.
Proof.
  apply all_matched_steps; [apply gpeers_ok|]. apply Forall_forall. intros st Hst.
  apply gsteps_In in Hst as (f & dv & Hf & Hdv & ->). simpl. unfold gdata. rewrite !map_length.
  destruct (HD dv Hdv) as [[Hl _] _].
  apply box_length_eq; unfold send_start, recv_start, lens; rewrite !map2_length; lia.
Qed.

Lemma gcopies_In s d : In (s, d) (all_copies nranks prog) <->
  exists f dv c, In f F /\ In dv D /\ 0 <= fst s < nranks /\ 0 <= fst d < nranks /\
    nbr per dims (fst s) dv = Some (fst d) /\
    in_box (send_start g loc dv) (lens g loc dv) c /\
    snd s = (f, ravel sizes c) /\ snd d = (f, ravel sizes (vadd c (disp dv loc))).
Proof.
  unfold prog. rewrite (all_copies_steps _ _ _ gpeers_ok). split.
  - intros (st & Hst & H1 & H2 & H3 & H4). apply gsteps_In in Hst as (f & dv & Hf & Hdv & ->).
    apply gcopies in H4 as (c & Hc & E1 & E2); [|apply HD; auto].
    exists f, dv, c. repeat split; auto; lia.
  - intros (f & dv & c & Hf & Hdv & H1 & H2 & H3 & Hc & E1 & E2).
    exists (gstep g loc f dv). split; [apply gsteps_In; eauto|].
    repeat split; auto; try lia. apply gcopies; [apply HD; auto|]. eauto.
Qed.

Lemma gno_read_write E : schedule nranks prog E -> no_read_write E.
Proof.
  intros HE [s d] [s' d'] Hx Hy Heq. simpl in Heq.
  apply (Permutation_in _ HE) in Hx, Hy.
  apply gcopies_In in Hx as (f & dv & c & Hf & Hdv & H1 & H2 & H3 & Hc & E1 & E2).
  apply gcopies_In in Hy as (f' & dv' & c' & Hf' & Hdv' & H1' & H2' & H3' & Hc' & E1' & E2').
  subst d'. rewrite E1 in E2'. injection E2' as _ Er.
  destruct (HD dv Hdv) as [Hd _]. destruct (HD dv' Hdv') as [Hd' Hnz].
  assert (Hin : inner g loc c) by (apply (send_cell_inner g loc dv c); assumption).
  apply ravel_inj in Er; [|now apply inner_inb | now apply recv_cell_inb].
  apply inner_zone in Hin. rewrite Er in Hin. rewrite recv_cell_zone in Hin by auto.
  apply vneg_eq in Hin. subst dv'.
  assert (F0 : Forall (fun d => d = 0) (vneg (repeat 0 (length loc)))).
  { apply Forall_map. apply Forall_forall. intros z Hz. apply repeat_spec in Hz. lia. }
  apply Exists_exists in Hnz as (z & Hz & Hnz). rewrite Forall_forall in F0. apply F0 in Hz. contradiction.
Qed.

Lemma gsingle_source E : schedule nranks prog E -> single_source E.
Proof.
  intros HE s s' d Hx Hy. apply (Permutation_in _ HE) in Hx, Hy.
  apply gcopies_In in Hx as (f & dv & c & Hf & Hdv & H1 & H2 & H3 & Hc & E1 & E2).
  apply gcopies_In in Hy as (f' & dv' & c' & Hf' & Hdv' & H1' & H2' & H3' & Hc' & E1' & E2').
  rewrite E2 in E2'. injection E2' as Ef Er.
  destruct (HD dv Hdv) as [Hd _]. destruct (HD dv' Hdv') as [Hd' _].
  apply ravel_inj in Er; try (now apply recv_cell_inb).
  assert (Ez : vneg dv = vneg dv').
  { transitivity (zone g loc (vadd c (disp dv loc))); [symmetry; now apply recv_cell_zone | rewrite Er; now apply recv_cell_zone]. }
  apply vneg_eq in Ez. rewrite vneg_involutive in Ez. subst dv'.
  assert (c = c').
  { pose proof (in_box_length _ _ _ Hc). pose proof (in_box_length _ _ _ Hc').
    assert (length (disp dv loc) = length (lens g loc dv)).
    { destruct Hd as [Hl _]. unfold disp, lens. rewrite vneg_length, vmul_length, map2_length; lia. }
    eapply vadd_inj; [| |exact Er]; lia. }
  subst c'. destruct s as [r x], s' as [r' x']. simpl in *. rewrite <- Ef in E1'. rewrite <- E1 in E1'. subst x'.
  f_equal. destruct Hok as [K1 K2 K3]. destruct Hd as [Hl _].
  apply nbr_back in H3; auto; [|lia]. apply nbr_back in H3'; auto; [|lia]. congruence.
Qed.

Theorem ghost_generic (m : mem T) E r f I :
  schedule nranks prog E -> 0 <= r < nranks -> inb sizes I ->
  run_copies E m (r, (f, ravel sizes I)) =
  if in_dec Nat.eq_dec f F then
    if in_dec (list_eq_dec Z.eq_dec) (vneg (zone g loc I)) D then
      match nbr per dims r (zone g loc I) with
      | Some s => m (s, (f, ravel sizes (vsub I (vmul (zone g loc I) loc))))
      | None => m (r, (f, ravel sizes I))
      end
    else m (r, (f, ravel sizes I))
  else m (r, (f, ravel sizes I)).
Proof.
  intros HE Hr HI.
  pose proof (run_copies_spec E (gno_read_write E HE) (gsingle_source E HE) m (r, (f, ravel sizes I))) as [S1 S2].
  assert (Hany : forall s, In (s, (r, (f, ravel sizes I))) E ->
     In f F /\ In (vneg (zone g loc I)) D /\ nbr per dims r (zone g loc I) = Some (fst s)).
  { intros s Hs. apply (Permutation_in _ HE) in Hs.
    apply gcopies_In in Hs as (f' & dv & c & Hf & Hdv & H1 & H2 & H3 & Hc & E1 & E2). simpl in *.
    injection E2 as Ef Er. subst f'. destruct (HD dv Hdv) as [Hd _].
    apply ravel_inj in Er; [|auto|now apply recv_cell_inb].
    assert (Ez : zone g loc I = vneg dv) by (rewrite Er; now apply recv_cell_zone).
    rewrite Ez, vneg_involutive. repeat split; auto.
    destruct Hok as [K1 K2 K3]. apply nbr_back; auto. destruct Hd; lia. }
  destruct (in_dec Nat.eq_dec f F) as [Hf|Hf];
    [|apply S2; intros s Hs; apply Hany in Hs; tauto].
  destruct (in_dec (list_eq_dec Z.eq_dec) (vneg (zone g loc I)) D) as [HzD|HzD];
    [|apply S2; intros s Hs; apply Hany in Hs; tauto].
  destruct (nbr per dims r (zone g loc I)) as [s|] eqn:En;
    [|apply S2; intros s Hs; apply Hany in Hs; destruct Hs as (_ & _ & ?); discriminate].
  destruct (zone_source g loc I Hg Hgn HI) as (Hd & Hb & Hv).
  assert (Hc : vsub I (vmul (zone g loc I) loc) = vadd I (vmul (vneg (zone g loc I)) loc)).
  { clear. generalize (zone g loc I). intros z. revert loc I. induction z as [|a z IH]; intros [|n l] [|i I]; simpl; auto.
    f_equal; [lia|apply IH]. }
  rewrite Hc.
  apply (S1 (s, (f, ravel sizes (vadd I (vmul (vneg (zone g loc I)) loc))))).
  apply (Permutation_in _ (Permutation_sym HE)). apply gcopies_In.
  destruct Hok as [K1 K2 K3].
  assert (Hlz : length (zone g loc I) = length dims).
  { destruct Hd as [Hd _]. rewrite vneg_length in Hd. lia. }
  exists f, (vneg (zone g loc I)), (vadd I (vmul (vneg (zone g loc I)) loc)). simpl.
  repeat split; auto; try lia.
  - apply nbr_range in En; auto. lia.
  - apply nbr_range in En; auto. unfold nranks. lia.
  - now apply nbr_back.
  - rewrite Hv. reflexivity.
Qed.

(** Frame at every intermediate moment: inner cells and fields not exchanged
    keep their values while messages are in flight. *)
Theorem ghost_frame (m : mem T) E E1 E2 r f I :
  schedule nranks prog E -> E = E1 ++ E2 -> inner g loc I ->
  run_copies E1 m (r, (f, ravel sizes I)) = m (r, (f, ravel sizes I)).
Proof.
  intros HE -> Hin. apply run_copies_frame. intros s Hs.
  assert (Hs' : In (s, (r, (f, ravel sizes I))) (E1 ++ E2)) by (apply in_or_app; auto).
  apply (Permutation_in _ HE) in Hs'.
  apply gcopies_In in Hs' as (f' & dv & c & Hf & Hdv & H1 & H2 & H3 & Hc & Ea & Eb). simpl in *.
  injection Eb as Ef Er. destruct (HD dv Hdv) as [Hd Hnz].
  apply ravel_inj in Er; [|now apply inner_inb|now apply recv_cell_inb].
  apply inner_zone in Hin. rewrite Er, recv_cell_zone in Hin by auto.
  apply vneg_eq in Hin. subst dv. apply Exists_exists in Hnz as (z & Hz & Hnz).
  apply in_map_iff in Hz as (y & <- & Hy). apply repeat_spec in Hy. lia.
Qed.

End Exchange.

(** ** Relation with the specification's [owner]. *)
Lemma wrap_block per d n c y : 1 <= d -> 1 <= n -> 0 <= y < n ->
  wrap per (d * n) (c * n + y) = option_map (fun q => q * n + y) (wrap per d c).
Proof.
  intros Hd Hn Hy. unfold wrap. destruct per; simpl.
  - f_equal. pose proof (Z.mod_pos_bound c d ltac:(lia)) as B. pose proof (Z.div_mod c d ltac:(lia)) as E.
    symmetry. apply Z.mod_unique with (q := c / d); [left; nia|]. nia.
  - destruct (Z.leb_spec 0 c); destruct (Z.ltb_spec c d); destruct (Z.leb_spec 0 (c * n + y));
      destruct (Z.ltb_spec (c * n + y) (d * n)); simpl; auto; nia.
Qed.

Lemma wrapv_block per dims loc c y : positive dims -> length loc = length dims -> length c = length dims -> inb loc y ->
  wrapv per (vmul dims loc) (vadd (vmul c loc) y) =
  option_map (fun q => vadd (vmul q loc) y) (wrapv per dims c).
Proof.
  intros Hd. revert loc c y. induction Hd as [|d dims H Hd IH]; intros [|n loc] [|a c] y Hl Hc Hy; simpl in *; try discriminate.
  - reflexivity.
  - inversion Hy as [|? ? y1 ys Hy1 Hy2]; subst. simpl. rewrite wrap_block by lia.
    rewrite IH by (auto; lia). destruct (wrap per d a); simpl; auto. now destruct (wrapv per dims c).
Qed.

Lemma owner_block per dims loc c y : grid_ok dims loc -> length c = length dims -> inb loc y ->
  owner per dims loc (vadd (vmul c loc) y) =
  option_map (fun q => (ravel dims q, y)) (wrapv per dims c).
Proof.
  intros [Hl Hd Hn] Hc Hy. unfold owner, global_size. rewrite wrapv_block by auto.
  destruct (wrapv per dims c) as [q|] eqn:E; simpl; auto.
  apply wrapv_inb in E; auto. apply inb_length in E.
  destruct (vdivmod_unique loc q y) as [-> ->]; auto. lia.
Qed.

Lemma ghost_pos_split g dims loc r I : 0 <= g -> length loc = length dims -> Forall (fun n => g <= n) loc ->
  inb (ghosted g loc) I ->
  let z := zone g loc I in
  let y := map (fun i => i - g) (vsub I (vmul z loc)) in
  ghost_pos dims loc g r I = vadd (vmul (vadd (unravel dims r) z) loc) y /\ inb loc y.
Proof.
  intros Hg0 Hl Hgn HI. simpl. unfold ghost_pos, block_start.
  assert (Hlu : length (unravel dims r) = length loc) by (rewrite unravel_length; lia).
  generalize dependent (unravel dims r). clear Hl. intros u Hlu. revert u I Hlu HI.
  induction Hgn as [|n loc H Hgn IH]; intros [|a u] I Hlu HI; simpl in *; try discriminate.
  - inversion HI; subst. split; [reflexivity|constructor].
  - inversion HI as [|? ? i Is Hi HIs]; subst. destruct (IH u Is ltac:(lia) HIs) as [E1 E2].
    unfold zone in *. simpl. rewrite E1. split.
    + f_equal. nia.
    + constructor; auto. unfold zone1. destruct (Z.ltb_spec i g); [lia|]. destruct (Z.ltb_spec i (g + n)); lia.
Qed.

Lemma owner_ghost_pos per dims loc g r I : grid_ok dims loc -> 0 <= g -> Forall (fun n => g <= n) loc ->
  inb (ghosted g loc) I ->
  owner per dims loc (ghost_pos dims loc g r I) =
  option_map (fun s => (s, map (fun i => i - g) (vsub I (vmul (zone g loc I) loc)))) (nbr per dims r (zone g loc I)).
Proof.
  intros Hok Hg0 Hgn HI. pose proof Hok as [Hl Hd Hn].
  destruct (ghost_pos_split g dims loc r I Hg0 Hl Hgn HI) as [E1 E2]. rewrite E1.
  assert (HlI : length I = length loc).
  { apply inb_length in HI. unfold ghosted in HI. now rewrite map_length in HI. }
  rewrite owner_block; auto.
  - unfold nbr. now destruct (wrapv _ _ _).
  - rewrite vadd_length; rewrite unravel_length; auto. unfold zone. rewrite map2_length; lia.
Qed.

(** Adding the ghost offset back. *)
Lemma add_sub_g g x : map (fun i => i + g) (map (fun i => i - g) x) = x.
Proof. rewrite map_map. rewrite <- (map_id x) at 2. apply map_ext. intros; lia. Qed.

Lemma nbr_zero per dims r n : positive dims -> 0 <= r < zprod dims -> length dims = n -> nbr per dims r (repeat 0 n) = Some r.
Proof.
  intros Hd Hr Hn. unfold nbr. rewrite vadd_zero by (now rewrite unravel_length).
  rewrite wrapv_in by (now apply unravel_inb). simpl. f_equal. now apply ravel_unravel.
Qed.
