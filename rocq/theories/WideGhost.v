(** Ghost layers wider than the block: the exchange goes wrong. *)
From Verif Require Import Base SpecGrid SpecGhost Cart CartFacts Comm GhostGeo Ghost2D Ghost3D GhostProofs.
Arguments place_dec : simpl never.

Lemma run_const (E : list (place * place)) s d : s <> d -> (forall c, In c E -> c = (s, d)) -> forall m : mem Z, m s = run_copies E m s /\ (E <> [] -> run_copies E m d = m s).
Proof.
  intros Hsd. induction E as [|c E IH]; intros H m; [split; [reflexivity|congruence]|].
  rewrite (H c (or_introl eq_refl)). cbn [run_copies fold_left]. destruct (IH (fun c Hc => H c (or_intror Hc)) (copy1 m (s, d))) as [A B].
  assert (Es : copy1 m (s, d) s = m s) by (unfold copy1; cbn [fst snd]; destruct (place_dec s d); congruence).
  assert (Ed : copy1 m (s, d) d = m s) by (unfold copy1; cbn [fst snd]; destruct (place_dec d d); congruence).
  fold (run_copies E (copy1 m (s, d))). split; [congruence|]. intros _. destruct E as [|c' E]; [exact Ed|]. rewrite B by discriminate. exact Es.
Qed.

(** The copy along axis a, from the first cell of the sending zone. *)
Lemma repeat0_map2 g (loc : list Z) : map2 (send_start1 g) loc (repeat 0 (length loc)) = map (fun _ => g) loc.
Proof. induction loc as [|n loc IH]; [reflexivity|]. cbn [length repeat map2 map]. f_equal. exact IH. Qed.
Lemma cell_facts g : 1 <= g -> forall loc a n, positive loc -> nth_error loc a = Some n -> n < g ->
  let dv := uvec (length loc) a 1 in let c := map2 (send_start1 g) loc dv in
  in_box (send_start g loc dv) (lens g loc dv) c /\ inb (ghosted g loc) c /\ ~ inner g loc c /\ vadd c (disp dv loc) <> c /\ ghost_axes g loc (vadd c (disp dv loc)) = 1%nat.
Proof.
  intros Hg. assert (Z0 : forall loc, positive loc -> let dv := repeat 0 (length loc) in let c := map2 (send_start1 g) loc dv in
    in_box (send_start g loc dv) (lens g loc dv) c /\ inb (ghosted g loc) c /\ vadd c (disp dv loc) = c /\ ghost_axes g loc c = 0%nat).
  { induction loc as [|n loc IH]; intros Hp; [repeat split; constructor|]. inversion Hp; subst. destruct (IH ltac:(auto)) as (A & B & C & D0). cbn [length repeat map2].
    change (send_start1 g n 0) with g. repeat split.
    - unfold send_start, lens in *. cbn [map2]. constructor; [unfold send_start1, len1; cbn [Z.eqb]; lia|exact A].
    - cbn [ghosted map]. constructor; [lia|exact B].
    - unfold disp in *. cbn [vmul vneg map2 map vadd] in *. f_equal; [lia|exact C].
    - cbn [ghost_axes]. rewrite D0. destruct (Z.ltb_spec g g); [lia|]. destruct (Z.leb_spec (g + n) g); [lia|]. reflexivity. }
  induction loc as [|n' loc IH]; intros a n Hp Ha Hn; [destruct a; discriminate|]. inversion Hp as [|? ? Hn' Hp']; subst.
  destruct a as [|a]; cbn in Ha.
  - injection Ha as ->. destruct (Z0 loc Hp') as (A & B & C & D0). cbn [length uvec map2]. change (send_start1 g n 1) with n. repeat split.
    + unfold send_start, lens in *. cbn [map2]. constructor; [unfold send_start1, len1; change (1 =? 1) with true; change (1 =? 0) with false; cbv iota; lia|exact A].
    + cbn [ghosted map]. constructor; [lia|exact B].
    + intros H. unfold inner in H. inversion H; subst. lia.
    + unfold disp. cbn. intros H. injection H as H _. lia.
    + match goal with |- ghost_axes _ _ ?l = _ => change l with ((n + - (1 * n)) :: vadd (map2 (send_start1 g) loc (repeat 0 (length loc))) (disp (repeat 0 (length loc)) loc)) end. rewrite C. cbn [ghost_axes]. rewrite D0. destruct (Z.ltb_spec (n + - (1 * n)) g); [reflexivity|lia].
  - destruct (IH a n Hp' Ha Hn) as (A & B & C & D0 & E0). cbn [length uvec map2]. change (send_start1 g n' 0) with g. repeat split.
    + unfold send_start, lens in *. cbn [map2]. constructor; [unfold send_start1, len1; cbn [Z.eqb]; lia|exact A].
    + cbn [ghosted map]. constructor; [lia|exact B].
    + intros H. unfold inner in H. cbn [map] in H. inversion H; subst. apply C. assumption.
    + unfold disp in *. cbn. intros H. injection H as _ H. apply D0. exact H.
    + match goal with |- ghost_axes _ _ ?l = _ => change l with ((g + - (0 * n')) :: vadd (map2 (send_start1 g) loc (uvec (length loc) a 1)) (disp (uvec (length loc) a 1) loc)) end. cbn [ghost_axes]. rewrite E0. destruct (Z.ltb_spec (g + - (0 * n')) g); [lia|]. destruct (Z.leb_spec (g + n') (g + - (0 * n'))); [lia|]. reflexivity.
Qed.

Section W.
Variables (per : bool) (dims loc : list Z) (g : Z).
Hypothesis Hok : grid_ok dims loc.
Hypothesis Hg : 1 <= g.
Variables (D : list (list Z)) (F : list nat).
Hypothesis HD : forall dv, In dv D -> is_dir loc dv /\ nonzero dv.
Let sizes := ghosted g loc.
Let nranks := zprod dims.
Let prog := steps_prog (nbr per dims) (gsteps g loc D F).
Let Hn0 : Forall (fun n => 0 <= n) loc.
Proof. destruct Hok as [_ _ H]. eapply Forall_impl; [|exact H]. simpl. lia. Qed.

Lemma single_source_any s s' d : In (s, d) (all_copies nranks prog) -> In (s', d) (all_copies nranks prog) -> s = s'.
Proof.
  intros Hx Hy.
  apply (gcopies_In per dims loc g Hok D F HD) in Hx as (f & dv & c & Hf & Hdv & H1 & H2 & H3 & Hc & E1 & E2).
  apply (gcopies_In per dims loc g Hok D F HD) in Hy as (f' & dv' & c' & Hf' & Hdv' & H1' & H2' & H3' & Hc' & E1' & E2').
  rewrite E2 in E2'. injection E2' as Ef Er.
  destruct (HD dv Hdv) as [Hd _]. destruct (HD dv' Hdv') as [Hd' _].
  apply ravel_inj in Er; try (apply recv_cell_inb_any; auto; lia).
  assert (Ez : vneg dv = vneg dv').
  { transitivity (zone g loc (vadd c (disp dv loc))); [symmetry; apply recv_cell_zone_any; auto; lia | rewrite Er; apply recv_cell_zone_any; auto; lia]. }
  apply vneg_eq in Ez. rewrite vneg_involutive in Ez. subst dv'.
  assert (c = c').
  { pose proof (in_box_length _ _ _ Hc). pose proof (in_box_length _ _ _ Hc').
    assert (length (disp dv loc) = length (lens g loc dv)).
    { destruct Hd as [Hl _]. unfold disp, lens. rewrite vneg_length, vmul_length, map2_length; lia. }
    eapply vadd_inj; [| |exact Er]; lia. }
  subst c'. destruct s as [r x], s' as [r' x']. simpl in *. rewrite <- Ef in E1'. rewrite <- E1 in E1'. subst x'.
  f_equal. destruct Hok as [K1 K2 K3]. destruct Hd as [Hl _].
  apply nbr_back in H3; auto; [|lia]. apply nbr_back in H3'; auto; [|lia]. congruence.
Qed.

(** ** Every axis wide enough, or without neighbours *)
Definition roomy1 (P n : Z) := g <= n \/ (per = false /\ P = 1).

Lemma roomy_source r z : Forall2 roomy1 dims loc -> 0 <= r < nranks -> is_dir loc z ->
  (exists s, nbr per dims r z = Some s) -> Forall2 (fun n d => g <= n \/ d = 0) loc z.
Proof.
  intros HR Hr [Hl Hd] [s Hs]. pose proof Hok as [K1 K2 K3]. unfold nbr in Hs. destruct (wrapv per dims (vadd (unravel dims r) z)) as [q|] eqn:E; [|discriminate]. clear Hs s.
  assert (Hu : inb dims (unravel dims r)) by (apply unravel_inb; auto). clear Hr. generalize dependent (unravel dims r). intros u E Hu.
  clear Hok Hn0 K3. clear HD sizes nranks prog. revert loc z q u K1 Hl Hd E Hu HR. induction K2 as [|P ds HP K2 IH]; intros [|n l] [|d z] q u K1 Hl Hd E Hu HR; cbn in *; try discriminate; constructor.
  - inversion HR; subst. inversion Hu; subst. inversion Hd; subst. cbn in E. match goal with H : roomy1 _ _ |- _ => destruct H as [H|[-> ->]]; [now left|] end. right.
    unfold wrap in E. destruct (Z.leb_spec 0 (c + d)); destruct (Z.ltb_spec (c + d) 1); cbn in E; try discriminate. lia.
  - inversion HR; subst. inversion Hu; subst. inversion Hd; subst. cbn in E. destruct (wrap per P (c + d)); [|discriminate]. destruct (wrapv per ds (vadd cs z)) eqn:E'; [|discriminate].
    eapply (IH l z); eauto.
Qed.

Lemma send_cell_inner_dir dv c : is_dir loc dv -> Forall2 (fun n d => g <= n \/ d = 0) loc dv ->
  in_box (send_start g loc dv) (lens g loc dv) c -> inner g loc c.
Proof.
  intros [Hl Hd] H. clear Hok Hn0 HD sizes nranks prog. revert c Hd. clear Hl. induction H as [|n d loc' dv H Hn IH]; intros c Hd Hc.
  - inversion Hc. constructor.
  - unfold send_start, lens in Hc. simpl in Hc. inversion Hc as [|? ? ? ? a cs Ha Hcs]; subst.
    inversion Hd as [|? ? Hd1 Hd2]; subst. unfold inner. simpl. constructor.
    + unfold send_start1, len1 in Ha. destruct H as [H| ->]; [destruct Hd1 as [-> | [-> | -> ]]|]; cmp.
    + apply (IH cs); auto.
Qed.

Section Roomy.
Hypothesis HR : Forall2 roomy1 dims loc.

Lemma roomy_no_read_write E : schedule nranks prog E -> no_read_write E.
Proof.
  intros HE [s d] [s' d'] Hx Hy Heq. simpl in Heq.
  apply (Permutation_in _ HE) in Hx, Hy.
  apply (gcopies_In per dims loc g Hok D F HD) in Hx as (f & dv & c & Hf & Hdv & H1 & H2 & H3 & Hc & E1 & E2).
  apply (gcopies_In per dims loc g Hok D F HD) in Hy as (f' & dv' & c' & Hf' & Hdv' & H1' & H2' & H3' & Hc' & E1' & E2').
  subst d'. rewrite E1 in E2'. injection E2' as _ Er.
  destruct (HD dv Hdv) as [Hd _]. destruct (HD dv' Hdv') as [Hd' Hnz].
  assert (Hin : inner g loc c). { apply (send_cell_inner_dir dv c); auto. eapply roomy_source; eauto. }
  apply ravel_inj in Er; [|apply inner_inb; auto; lia | apply recv_cell_inb_any; auto; lia].
  apply inner_zone in Hin. rewrite Er in Hin. rewrite recv_cell_zone_any in Hin by (auto; lia).
  apply vneg_eq in Hin. subst dv'.
  assert (F0 : Forall (fun d => d = 0) (vneg (repeat 0 (length loc)))).
  { apply Forall_map. apply Forall_forall. intros z Hz. apply repeat_spec in Hz. lia. }
  apply Exists_exists in Hnz as (z & Hz & Hnz). rewrite Forall_forall in F0. apply F0 in Hz. contradiction.
Qed.

Context {T : Type}.
Theorem roomy_generic (m : mem T) E r f I :
  schedule nranks prog E -> 0 <= r < nranks -> inb sizes I ->
  run_copies E m (r, (f, ravel sizes I)) =
  if in_dec Nat.eq_dec f F then
    if in_dec (list_eq_dec Z.eq_dec) (vneg (zone g loc I)) D then
      match nbr per dims r (zone g loc I) with
      | Some s => m (s, (f, ravel sizes (vsub I (vmul (zone g loc I) loc))))
      | None => m (r, (f, ravel sizes I))
      end
    else m (r, (f, ravel sizes I))
  else m (r, (f, ravel sizes I)).
Proof.
  intros HE Hr HI.
  assert (SS : single_source E). { intros s s' d Hx Hy. apply (Permutation_in _ HE) in Hx, Hy. eapply single_source_any; eauto. }
  pose proof (run_copies_spec E (roomy_no_read_write E HE) SS m (r, (f, ravel sizes I))) as [S1 S2].
  assert (Hany : forall s, In (s, (r, (f, ravel sizes I))) E ->
     In f F /\ In (vneg (zone g loc I)) D /\ nbr per dims r (zone g loc I) = Some (fst s)).
  { intros s Hs. apply (Permutation_in _ HE) in Hs.
    apply (gcopies_In per dims loc g Hok D F HD) in Hs as (f' & dv & c & Hf & Hdv & H1 & H2 & H3 & Hc & E1 & E2). simpl in *.
    injection E2 as Ef Er. subst f'. destruct (HD dv Hdv) as [Hd _].
    apply ravel_inj in Er; [|auto|apply recv_cell_inb_any; auto; lia].
    assert (Ez : zone g loc I = vneg dv) by (rewrite Er; apply recv_cell_zone_any; auto; lia).
    rewrite Ez, vneg_involutive. repeat split; auto.
    destruct Hok as [K1 K2 K3]. apply nbr_back; auto. destruct Hd; lia. }
  destruct (in_dec Nat.eq_dec f F) as [Hf|Hf];
    [|apply S2; intros s Hs; apply Hany in Hs; tauto].
  destruct (in_dec (list_eq_dec Z.eq_dec) (vneg (zone g loc I)) D) as [HzD|HzD];
    [|apply S2; intros s Hs; apply Hany in Hs; tauto].
  destruct (nbr per dims r (zone g loc I)) as [s|] eqn:En;
    [|apply S2; intros s Hs; apply Hany in Hs; destruct Hs as (_ & _ & ?); discriminate].
  destruct (zone_source_any g loc I ltac:(lia) Hn0 HI) as (Hd & Hb & Hv).
  assert (Hc : vsub I (vmul (zone g loc I) loc) = vadd I (vmul (vneg (zone g loc I)) loc)).
  { clear. generalize (zone g loc I). intros z. revert loc I. induction z as [|a z IH]; intros [|n l] [|i I]; simpl; auto.
    f_equal; [lia|apply IH]. }
  rewrite Hc.
  apply (S1 (s, (f, ravel sizes (vadd I (vmul (vneg (zone g loc I)) loc))))).
  apply (Permutation_in _ (Permutation_sym HE)). apply (gcopies_In per dims loc g Hok D F HD).
  destruct Hok as [K1 K2 K3].
  assert (Hlz : length (zone g loc I) = length dims).
  { destruct Hd as [Hd _]. rewrite vneg_length in Hd. lia. }
  exists f, (vneg (zone g loc I)), (vadd I (vmul (vneg (zone g loc I)) loc)). simpl.
  repeat split; auto; try lia.
  - apply nbr_range in En; auto. lia.
  - apply nbr_range in En; auto. unfold nranks. lia.
  - now apply nbr_back.
  - rewrite Hv. reflexivity.
Qed.

Lemma roomy_owner r I : 0 <= r < nranks -> inb sizes I ->
  owner per dims loc (ghost_pos dims loc g r I) =
  option_map (fun s => (s, map (fun i => i - g) (vsub I (vmul (zone g loc I) loc)))) (nbr per dims r (zone g loc I)).
Proof.
  intros Hr HI. pose proof Hok as [K1 K2 K3].
  assert (HlI : length I = length loc) by (apply inb_length in HI; unfold sizes, ghosted in HI; now rewrite map_length in HI).
  pose proof (zone_is_dir g loc I HlI) as Hz. assert (Lz : length (zone g loc I) = length dims) by (destruct Hz; lia).
  assert (Hu : inb dims (unravel dims r)) by (apply unravel_inb; auto).
  destruct (nbr per dims r (zone g loc I)) as [s|] eqn:En.
  - pose proof (roomy_source r (zone g loc I) HR Hr Hz (ex_intro _ s En)) as HS.
    assert (X : ghost_pos dims loc g r I = vadd (vmul (vadd (unravel dims r) (zone g loc I)) loc) (map (fun i => i - g) (vsub I (vmul (zone g loc I) loc))) /\
                inb loc (map (fun i => i - g) (vsub I (vmul (zone g loc I) loc)))).
    { unfold ghost_pos, block_start. assert (Hlu : length (unravel dims r) = length loc) by (rewrite unravel_length; lia).
      generalize dependent (unravel dims r). intros u _ Hlu. clear Lz Hz HlI En Hr. clear Hok K1 K2 HR. unfold sizes in HI. clear sizes nranks prog HD. clear Hn0.
      revert u I Hlu HI HS. induction K3 as [|n l Hn K3 IH]; intros [|a u] I Hlu HI HS; cbn in *; try discriminate.
      - inversion HI; subst. split; [reflexivity|constructor].
      - inversion HI as [|? ? i Is Hi HIs]; subst. unfold zone in HS |- *. cbn in HS |- *. inversion HS; subst. fold (zone g l Is) in *. destruct (IH u Is ltac:(lia) HIs ltac:(assumption)) as [E1 E2].
        rewrite E1. split; [f_equal; nia|]. constructor; [|exact E2]. unfold zone1 in *. destruct (Z.ltb_spec i g); [lia|]. destruct (Z.ltb_spec i (g + n)); lia. }
    destruct X as [E1 E2]. rewrite E1, owner_block; auto; [|rewrite vadd_length; rewrite unravel_length; auto].
    unfold nbr in En. destruct (wrapv per dims (vadd (unravel dims r) (zone g loc I))); [|discriminate]. injection En as <-. reflexivity.
  - apply nbr_none in En; auto. destruct En as [Ep En]. unfold owner. destruct (wrapv per (global_size dims loc) (ghost_pos dims loc g r I)) as [q|] eqn:E; [|reflexivity].
    exfalso. apply En. clear En. rewrite Ep in E. unfold ghost_pos, block_start, global_size in E. generalize dependent (unravel dims r). intros u Hu E.
    clear Lz Hz Hr. clear HR. unfold sizes in HI. clear sizes nranks prog HD. clear Hn0 Hok.
    revert loc K1 K3 I HlI HI q u Hu E. induction K2 as [|P ds HP K2 IH]; intros [|n l] K1 K3 I HlI HI q u Hu E; cbn in *; try discriminate.
    + inversion Hu; subst. inversion HI; subst. constructor.
    + inversion HI as [|? ? i Is Hi HIs]; subst. inversion Hu as [|? ? c us Hc Hus]; subst. inversion K3; subst. unfold zone. change (wrapv false (P * n :: vmul ds l) (c * n + (i - g) :: vadd (vmul us l) (map (fun i0 => i0 - g) Is)) = Some q) in E. cbn [wrapv] in E. cbn [map2 vadd]. destruct (wrap false (P * n) (c * n + (i - g))) as [q1|] eqn:E1; [|discriminate].
      destruct (wrapv false (vmul ds l) (vadd (vmul us l) (map (fun i0 => i0 - g) Is))) as [q2|] eqn:E2; [|discriminate].
      constructor; [|eapply (IH l ltac:(lia) ltac:(assumption) Is); eauto; cbn in HlI; lia].
      apply wrap_some in E1; [|nia]. unfold zone1. destruct (Z.ltb_spec i g); [nia|]. destruct (Z.ltb_spec i (g + n)); nia.
Qed.

Lemma roomy_refreshed (m : mem T) E r f I : schedule nranks prog E -> 0 <= r < nranks -> inb sizes I -> In f F ->
  In (vneg (zone g loc I)) D \/ zone g loc I = repeat 0 (length loc) ->
  field (run_copies E m) sizes r f I = refreshed m per dims loc g r f I.
Proof.
  intros HE Hr HI Hf Hz. unfold field, refreshed. rewrite (roomy_generic m E r f I HE Hr HI), (roomy_owner r I Hr HI).
  destruct (in_dec Nat.eq_dec f F) as [_|]; [|contradiction].
  destruct (in_dec (list_eq_dec Z.eq_dec) (vneg (zone g loc I)) D) as [HzD|HzD].
  - destruct (nbr per dims r (zone g loc I)); simpl; auto. unfold field. now rewrite add_sub_g.
  - destruct Hz as [Hz|Hz]; [contradiction|]. destruct Hok as [K1 K2 K3].
    assert (HlI : length I = length loc) by (apply inb_length in HI; unfold sizes, ghosted in HI; now rewrite map_length in HI).
    rewrite Hz. rewrite nbr_zero by (auto; lia). simpl. unfold field. rewrite add_sub_g.
    f_equal. f_equal. f_equal. f_equal. clear - HlI. revert I HlI.
    induction loc as [|n l IH]; intros [|i I] Hl; simpl in *; try discriminate; auto.
    rewrite <- IH by lia. f_equal. lia.
Qed.
Lemma roomy_unchanged (m : mem T) E r f I : schedule nranks prog E -> 0 <= r < nranks -> inb sizes I -> ~ In f F \/ ~ In (vneg (zone g loc I)) D ->
  field (run_copies E m) sizes r f I = field m sizes r f I.
Proof.
  intros HE Hr HI Hn. unfold field. rewrite (roomy_generic m E r f I HE Hr HI).
  destruct (in_dec Nat.eq_dec f F) as [Hf|]; [|auto].
  destruct (in_dec (list_eq_dec Z.eq_dec) (vneg (zone g loc I)) D) as [HzD|HzD]; [tauto|auto].
Qed.
End Roomy.

(** A copy whose source is not an inner cell: some order of the copies leaves a
    value in its destination that is neither the owner's nor the old one. *)
Lemma wide_fails s b f dv c : In f F -> In dv D -> 0 <= s < nranks -> nbr per dims s dv = Some b -> in_box (send_start g loc dv) (lens g loc dv) c ->
  inb sizes c -> ~ inner g loc c -> vadd c (disp dv loc) <> c ->
  exists E (m : mem Z), schedule nranks prog E /\ 0 <= b < nranks /\
    field (run_copies E m) sizes b f (vadd c (disp dv loc)) <> refreshed m per dims loc g b f (vadd c (disp dv loc)).
Proof.
  intros Hf Hdv Hs Hb Hc Hci Hni Hne. destruct (HD dv Hdv) as [Hd _]. destruct Hok as [K1 K2 K3].
  assert (Hbr : 0 <= b < nranks). { assert (length dv = length dims) by (destruct Hd; lia). apply nbr_range in Hb; auto. }
  set (I := vadd c (disp dv loc)) in *. assert (HI : inb sizes I) by (apply recv_cell_inb_any; auto; lia).
  set (src := (s, (f, ravel sizes c)) : place). set (dst := (b, (f, ravel sizes I)) : place).
  assert (Hin : In (src, dst) (all_copies nranks prog)).
  { apply (gcopies_In per dims loc g Hok D F HD). exists f, dv, c. unfold src, dst. cbn [fst snd]. unfold nranks in *. repeat split; auto; try lia. }
  assert (Hsd : src <> dst). { unfold src, dst. intros E. injection E as E1 E2. apply ravel_inj in E2; auto. }
  set (p := fun cp : place * place => if place_dec (snd cp) dst then true else false).
  set (C := all_copies nranks prog) in *. set (E := filter p C ++ filter (fun x => negb (p x)) C).
  exists E, (fun l => if place_dec l src then 1 else 0). split; [|split; [exact Hbr|]].
  - unfold schedule. fold C. unfold E. clear. induction C as [|x C IH]; [constructor|]. cbn [filter]. destruct (p x); cbn [negb app]; [now constructor|].
    apply Permutation_sym, Permutation_cons_app, Permutation_sym, IH.
  - set (m := fun l => if place_dec l src then 1 else 0).
    assert (V : run_copies E m dst = 1).
    { unfold E. unfold run_copies. rewrite fold_left_app. fold (run_copies (filter p C) m). fold (run_copies (filter (fun x => negb (p x)) C) (run_copies (filter p C) m)).
      rewrite run_copies_frame.
      - destruct (run_const (filter p C) src dst Hsd) with (m := m) as [_ A].
        + intros [s' d'] Hcp. apply filter_In in Hcp as [Hcp Hp]. unfold p in Hp. cbn [snd] in Hp. destruct (place_dec d' dst) as [->|]; [|discriminate].
          f_equal. eapply single_source_any; eauto.
        + rewrite A; [unfold m; destruct (place_dec src src); congruence|]. intros X.
          assert (In (src, dst) (filter p C)) by (apply filter_In; split; [exact Hin|]; unfold p; cbn [snd]; destruct (place_dec dst dst); congruence). rewrite X in H. contradiction.
      - intros s' Hs'. apply filter_In in Hs' as [_ Hp]. unfold p in Hp. cbn [snd] in Hp. destruct (place_dec dst dst); [discriminate|congruence]. }
    unfold field at 1. change (b, (f, ravel sizes I)) with dst. rewrite V. unfold refreshed.
    destruct (owner per dims loc (ghost_pos dims loc g b I)) as [[s' y]|] eqn:Eo.
    + unfold field, m. destruct (place_dec _ src) as [Ep|]; [|discriminate]. exfalso. unfold src in Ep. injection Ep as E1 E2.
      assert (Hy : inb loc y).
      { unfold owner in Eo. destruct (wrapv per (global_size dims loc) (ghost_pos dims loc g b I)) as [q|] eqn:Eq; [|discriminate]. injection Eo as _ <-.
        apply wrapv_inb in Eq.
        - destruct (vdivmod_inb dims loc q) as [_ H]; auto.
        - unfold global_size, positive in *. clear -K1 K2 K3. revert loc K1 K3. induction K2 as [|d ds Hd1 K2 IH]; intros [|n l'] K1 K3; cbn in *; try discriminate; constructor; inversion K3; subst; [nia|]. apply IH; auto.
        - unfold ghost_pos, global_size. pose proof (inb_length _ _ HI) as L. unfold sizes, ghosted in L. rewrite map_length in L.
          unfold block_start. assert (length (unravel dims b) = length dims) by apply unravel_length. rewrite (vmul_length dims) by lia. rewrite vadd_length; rewrite vmul_length; rewrite ?map_length; lia. }
      assert (HIn : inner g loc (map (fun i => i + g) y)). { clear -Hy. unfold inner. induction Hy; simpl; constructor; auto; lia. }
      apply ravel_inj in E2; [|apply inner_inb; auto; lia|exact Hci]. rewrite E2 in HIn. contradiction.
    + unfold field, m. change (b, (f, ravel (ghosted g loc) I)) with dst. destruct (place_dec dst src); congruence.
Qed.

(** The witness cell along axis a. *)
Section Axis.
Variables (a : nat) (n P : Z).
Hypothesis (Hn : nth_error loc a = Some n) (HP : nth_error dims a = Some P).
Hypothesis (Hw : n < g) (HN : per = true \/ 2 <= P).
Let dv := uvec (length dims) a 1.
Hypothesis Hdv : In dv D.
Let c := map2 (send_start1 g) loc dv.

Lemma axis_fails f : In f F -> exists b I E (m : mem Z), schedule nranks prog E /\ 0 <= b < nranks /\ inb sizes I /\ ghost_axes g loc I = 1%nat /\
  field (run_copies E m) sizes b f I <> refreshed m per dims loc g b f I.
Proof.
  intros Hf. pose proof Hok as [K1 K2 K3]. assert (Ha : (a < length dims)%nat) by (apply nth_error_Some; congruence).
  destruct (cell_facts g Hg loc a n K3 Hn Hw) as (A & B & C & D0 & E0). rewrite K1 in A, B, C, D0, E0. fold dv in A, B, C, D0, E0. fold c in A, B, C, D0, E0.
  set (s0 := ravel dims (repeat 0 (length dims))).
  assert (Hz : inb dims (repeat 0 (length dims))) by (clear -K2; induction K2; cbn; constructor; auto; lia).
  assert (Hr0 : 0 <= s0 < nranks) by (now apply ravel_bound).
  assert (X : exists b, nbr per dims s0 dv = Some b).
  { destruct (nbr per dims s0 dv) as [b|] eqn:Eb; [eauto|]. exfalso. apply nbr_none in Eb; auto; [|unfold dv; apply uvec_length].
    destruct Eb as [Ep Eb]. destruct HN as [HN1|HN1]; [congruence|]. apply Eb. unfold dv, s0. rewrite unravel_ravel by exact Hz. apply inb_uvec; auto.
    rewrite nth_repeat. rewrite (nth_error_nth _ _ 0 HP). lia. }
  destruct X as [b Hb].
  destruct (wide_fails s0 b f dv c Hf Hdv Hr0 Hb A B C D0) as (E & m & H1 & H2 & H3).
  exists b, (vadd c (disp dv loc)), E, m. split; [exact H1|]. split; [exact H2|]. split; [|split; [exact E0|exact H3]].
  apply recv_cell_inb_any; auto; [lia|]. apply HD. exact Hdv.
Qed.
End Axis.
End W.

(** ** The two communicators *)
Lemma D2_axes full : In [1; 0] (D2 full) /\ In [0; 1] (D2 full).
Proof. destruct full; cbn; tauto. Qed.
Lemma D3_axes full : In [1; 0; 0] (D3 full) /\ In [0; 1; 0] (D3 full) /\ In [0; 0; 1] (D3 full).
Proof. destruct full; cbn; tauto. Qed.

Section Two.
Variables (per : bool) (py px ny nx g : Z).
Hypotheses (Hp : 1 <= py /\ 1 <= px) (Hn : 1 <= ny /\ 1 <= nx) (Hg : 1 <= g).
Let okw2 : grid_ok [py; px] [ny; nx].
Proof. constructor; [reflexivity| |]; repeat constructor; lia. Qed.
Lemma schedule_steps2 full F E : schedule (zprod [py; px]) (exchange2 per py px ny nx g full F) E <->
  schedule (zprod [py; px]) (steps_prog (nbr per [py; px]) (gsteps g [ny; nx] (D2 full) F)) E.
Proof.
  unfold schedule. erewrite (all_copies_ext _ (exchange2 per py px ny nx g full F)); [reflexivity|].
  intros r Hr. apply exchange2_steps_any; auto; lia.
Qed.
Lemma wide2 full f F : In f F ->
  (ny < g /\ (per = true \/ 2 <= py)) \/ (nx < g /\ (per = true \/ 2 <= px)) ->
  exists r I E (m : mem Z), schedule (zprod [py; px]) (exchange2 per py px ny nx g full F) E /\ 0 <= r < zprod [py; px] /\
    inb (ghosted g [ny; nx]) I /\ ghost_axes g [ny; nx] I = 1%nat /\
    field (run_copies E m) (ghosted g [ny; nx]) r f I <> refreshed m per [py; px] [ny; nx] g r f I.
Proof.
  intros Hf H.
  assert (X : exists r I E (m : mem Z), schedule (zprod [py; px]) (steps_prog (nbr per [py; px]) (gsteps g [ny; nx] (D2 full) F)) E /\ 0 <= r < zprod [py; px] /\
    inb (ghosted g [ny; nx]) I /\ ghost_axes g [ny; nx] I = 1%nat /\
    field (run_copies E m) (ghosted g [ny; nx]) r f I <> refreshed m per [py; px] [ny; nx] g r f I).
  { destruct H as [[H1 H2]|[H1 H2]].
    - apply (axis_fails per [py; px] [ny; nx] g okw2 Hg (D2 full) F (fun dv => D2_dirs full ny nx dv) 0%nat ny py); auto. apply (D2_axes full).
    - apply (axis_fails per [py; px] [ny; nx] g okw2 Hg (D2 full) F (fun dv => D2_dirs full ny nx dv) 1%nat nx px); auto. apply (D2_axes full). }
  destruct X as (r & I & E & m & A & B). exists r, I, E, m. split; [apply schedule_steps2; exact A|exact B].
Qed.

Lemma full2_roomy {T} F E (m : mem T) : (g <= ny \/ per = false /\ py = 1) -> (g <= nx \/ per = false /\ px = 1) ->
  schedule (zprod [py; px]) (exchange2 per py px ny nx g true F) E -> full_exchanged per [py; px] [ny; nx] g F m (run_copies E m).
Proof.
  intros R1 R2 HE r f I Hr HI. apply schedule_steps2 in HE.
  assert (HR : Forall2 (roomy1 per g) [py; px] [ny; nx]) by exact (Forall2_cons _ _ R1 (Forall2_cons _ _ R2 (Forall2_nil _))).
  destruct (in_dec Nat.eq_dec f F) as [Hf|Hf].
  - apply (roomy_refreshed per _ _ g okw2 Hg (D2 true) F (fun dv => D2_dirs true ny nx dv) HR); auto. now apply zone2_full.
  - apply (roomy_unchanged per _ _ g okw2 Hg (D2 true) F (fun dv => D2_dirs true ny nx dv) HR); auto.
Qed.
Lemma edges2_roomy {T} F E (m : mem T) : (g <= ny \/ per = false /\ py = 1) -> (g <= nx \/ per = false /\ px = 1) ->
  schedule (zprod [py; px]) (exchange2 per py px ny nx g false F) E -> face_exchanged per [py; px] [ny; nx] g F m (run_copies E m).
Proof.
  intros R1 R2 HE r f I Hr HI. apply schedule_steps2 in HE.
  assert (HR : Forall2 (roomy1 per g) [py; px] [ny; nx]) by exact (Forall2_cons _ _ R1 (Forall2_cons _ _ R2 (Forall2_nil _))).
  destruct (in_dec Nat.eq_dec f F) as [Hf|Hf].
  - pose proof (zone2_edges g ny nx I ltac:(lia) ltac:(lia) HI) as Hz. destruct (ghost_axes g [ny; nx] I <=? 1)%nat.
    + apply (roomy_refreshed per _ _ g okw2 Hg (D2 false) F (fun dv => D2_dirs false ny nx dv) HR); auto.
    + apply (roomy_unchanged per _ _ g okw2 Hg (D2 false) F (fun dv => D2_dirs false ny nx dv) HR); auto.
  - apply (roomy_unchanged per _ _ g okw2 Hg (D2 false) F (fun dv => D2_dirs false ny nx dv) HR); auto.
Qed.
End Two.

Section Three.
Variables (per : bool) (pz py px n0 n1 n2 g : Z).
Hypotheses (Hp : 1 <= pz /\ 1 <= py /\ 1 <= px) (Hn : 1 <= n0 /\ 1 <= n1 /\ 1 <= n2) (Hg : 1 <= g).
Let okw3 : grid_ok [pz; py; px] [n0; n1; n2].
Proof. constructor; [reflexivity| |]; repeat constructor; lia. Qed.
Lemma schedule_steps3 full F E : schedule (zprod [pz; py; px]) (exchange3 per pz py px n0 n1 n2 g full F) E <->
  schedule (zprod [pz; py; px]) (steps_prog (nbr per [pz; py; px]) (gsteps g [n0; n1; n2] (D3 full) F)) E.
Proof.
  unfold schedule. erewrite (all_copies_ext _ (exchange3 per pz py px n0 n1 n2 g full F)); [reflexivity|].
  intros r Hr. apply exchange3_steps; auto; lia.
Qed.
Lemma wide3 full f F : In f F ->
  (n0 < g /\ (per = true \/ 2 <= pz)) \/ (n1 < g /\ (per = true \/ 2 <= py)) \/ (n2 < g /\ (per = true \/ 2 <= px)) ->
  exists r I E (m : mem Z), schedule (zprod [pz; py; px]) (exchange3 per pz py px n0 n1 n2 g full F) E /\ 0 <= r < zprod [pz; py; px] /\
    inb (ghosted g [n0; n1; n2]) I /\ ghost_axes g [n0; n1; n2] I = 1%nat /\
    field (run_copies E m) (ghosted g [n0; n1; n2]) r f I <> refreshed m per [pz; py; px] [n0; n1; n2] g r f I.
Proof.
  intros Hf H. destruct (D3_axes full) as (A0 & A1 & A2).
  assert (X : exists r I E (m : mem Z), schedule (zprod [pz; py; px]) (steps_prog (nbr per [pz; py; px]) (gsteps g [n0; n1; n2] (D3 full) F)) E /\ 0 <= r < zprod [pz; py; px] /\
    inb (ghosted g [n0; n1; n2]) I /\ ghost_axes g [n0; n1; n2] I = 1%nat /\
    field (run_copies E m) (ghosted g [n0; n1; n2]) r f I <> refreshed m per [pz; py; px] [n0; n1; n2] g r f I).
  { destruct H as [[H1 H2]|[[H1 H2]|[H1 H2]]].
    - apply (axis_fails per [pz; py; px] [n0; n1; n2] g okw3 Hg (D3 full) F (fun dv => D3_dirs full n0 n1 n2 dv) 0%nat n0 pz); auto.
    - apply (axis_fails per [pz; py; px] [n0; n1; n2] g okw3 Hg (D3 full) F (fun dv => D3_dirs full n0 n1 n2 dv) 1%nat n1 py); auto.
    - apply (axis_fails per [pz; py; px] [n0; n1; n2] g okw3 Hg (D3 full) F (fun dv => D3_dirs full n0 n1 n2 dv) 2%nat n2 px); auto. }
  destruct X as (r & I & E & m & A & B). exists r, I, E, m. split; [apply schedule_steps3; exact A|exact B].
Qed.
Lemma full3_roomy {T} F E (m : mem T) : (g <= n0 \/ per = false /\ pz = 1) -> (g <= n1 \/ per = false /\ py = 1) -> (g <= n2 \/ per = false /\ px = 1) ->
  schedule (zprod [pz; py; px]) (exchange3 per pz py px n0 n1 n2 g true F) E -> full_exchanged per [pz; py; px] [n0; n1; n2] g F m (run_copies E m).
Proof.
  intros R0 R1 R2 HE r f I Hr HI. apply schedule_steps3 in HE.
  assert (HR : Forall2 (roomy1 per g) [pz; py; px] [n0; n1; n2]) by exact (Forall2_cons _ _ R0 (Forall2_cons _ _ R1 (Forall2_cons _ _ R2 (Forall2_nil _)))).
  destruct (in_dec Nat.eq_dec f F) as [Hf|Hf].
  - apply (roomy_refreshed per _ _ g okw3 Hg (D3 true) F (fun dv => D3_dirs true n0 n1 n2 dv) HR); auto. now apply zone3_full.
  - apply (roomy_unchanged per _ _ g okw3 Hg (D3 true) F (fun dv => D3_dirs true n0 n1 n2 dv) HR); auto.
Qed.
Lemma faces3_roomy {T} F E (m : mem T) : (g <= n0 \/ per = false /\ pz = 1) -> (g <= n1 \/ per = false /\ py = 1) -> (g <= n2 \/ per = false /\ px = 1) ->
  schedule (zprod [pz; py; px]) (exchange3 per pz py px n0 n1 n2 g false F) E -> face_exchanged per [pz; py; px] [n0; n1; n2] g F m (run_copies E m).
Proof.
  intros R0 R1 R2 HE r f I Hr HI. apply schedule_steps3 in HE.
  assert (HR : Forall2 (roomy1 per g) [pz; py; px] [n0; n1; n2]) by exact (Forall2_cons _ _ R0 (Forall2_cons _ _ R1 (Forall2_cons _ _ R2 (Forall2_nil _)))).
  destruct (in_dec Nat.eq_dec f F) as [Hf|Hf].
  - pose proof (zone3_faces g n0 n1 n2 I ltac:(lia) ltac:(lia) ltac:(lia) HI) as Hz. destruct (ghost_axes g [n0; n1; n2] I <=? 1)%nat.
    + apply (roomy_refreshed per _ _ g okw3 Hg (D3 false) F (fun dv => D3_dirs false n0 n1 n2 dv) HR); auto.
    + apply (roomy_unchanged per _ _ g okw3 Hg (D3 false) F (fun dv => D3_dirs false n0 n1 n2 dv) HR); auto.
  - apply (roomy_unchanged per _ _ g okw3 Hg (D3 false) F (fun dv => D3_dirs false n0 n1 n2 dv) HR); auto.
Qed.
End Three.

(** ** Exactly when the exchange is correct *)
Lemma exact2 per py px ny nx g f F : 1 <= py /\ 1 <= px -> 1 <= ny /\ 1 <= nx -> 1 <= g -> In f F ->
  ((forall E (m : mem Z), schedule (zprod [py; px]) (exchange2 per py px ny nx g true F) E -> full_exchanged per [py; px] [ny; nx] g F m (run_copies E m)) <->
   (g <= ny \/ per = false /\ py = 1) /\ (g <= nx \/ per = false /\ px = 1)).
Proof.
  intros Hp Hn Hg Hf. split.
  - intros H. assert (K : ~ ((ny < g /\ (per = true \/ 2 <= py)) \/ (nx < g /\ (per = true \/ 2 <= px)))).
    { intros K. destruct (wide2 per py px ny nx g Hp Hn Hg true f F Hf K) as (r & I & E & m & A & B & C & _ & D). apply D.
      specialize (H E m A r f I B C). destruct (in_dec Nat.eq_dec f F); [exact H|contradiction]. }
    destruct per; split; try (left; lia); destruct (Z.leb_spec g ny), (Z.leb_spec g nx); try (now left); right; split; auto; lia.
  - intros [R1 R2] E m HE. now apply full2_roomy.
Qed.
Lemma exact2e per py px ny nx g f F : 1 <= py /\ 1 <= px -> 1 <= ny /\ 1 <= nx -> 1 <= g -> In f F ->
  ((forall E (m : mem Z), schedule (zprod [py; px]) (exchange2 per py px ny nx g false F) E -> face_exchanged per [py; px] [ny; nx] g F m (run_copies E m)) <->
   (g <= ny \/ per = false /\ py = 1) /\ (g <= nx \/ per = false /\ px = 1)).
Proof.
  intros Hp Hn Hg Hf. split.
  - intros H. assert (K : ~ ((ny < g /\ (per = true \/ 2 <= py)) \/ (nx < g /\ (per = true \/ 2 <= px)))).
    { intros K. destruct (wide2 per py px ny nx g Hp Hn Hg false f F Hf K) as (r & I & E & m & A & B & C & C1 & D). apply D.
      specialize (H E m A r f I B C). rewrite C1 in H. destruct (in_dec Nat.eq_dec f F); [exact H|contradiction]. }
    destruct per; split; try (left; lia); destruct (Z.leb_spec g ny), (Z.leb_spec g nx); try (now left); right; split; auto; lia.
  - intros [R1 R2] E m HE. now apply edges2_roomy.
Qed.
Lemma exact3 per pz py px n0 n1 n2 g f F : 1 <= pz /\ 1 <= py /\ 1 <= px -> 1 <= n0 /\ 1 <= n1 /\ 1 <= n2 -> 1 <= g -> In f F ->
  ((forall E (m : mem Z), schedule (zprod [pz; py; px]) (exchange3 per pz py px n0 n1 n2 g true F) E -> full_exchanged per [pz; py; px] [n0; n1; n2] g F m (run_copies E m)) <->
   (g <= n0 \/ per = false /\ pz = 1) /\ (g <= n1 \/ per = false /\ py = 1) /\ (g <= n2 \/ per = false /\ px = 1)).
Proof.
  intros Hp Hn Hg Hf. split.
  - intros H. assert (K : ~ ((n0 < g /\ (per = true \/ 2 <= pz)) \/ (n1 < g /\ (per = true \/ 2 <= py)) \/ (n2 < g /\ (per = true \/ 2 <= px)))).
    { intros K. destruct (wide3 per pz py px n0 n1 n2 g Hp Hn Hg true f F Hf K) as (r & I & E & m & A & B & C & _ & D). apply D.
      specialize (H E m A r f I B C). destruct (in_dec Nat.eq_dec f F); [exact H|contradiction]. }
    destruct per; repeat split; try (left; lia); destruct (Z.leb_spec g n0), (Z.leb_spec g n1), (Z.leb_spec g n2); try (now left); right; split; auto; lia.
  - intros (R0 & R1 & R2) E m HE. now apply full3_roomy.
Qed.
Lemma exact3f per pz py px n0 n1 n2 g f F : 1 <= pz /\ 1 <= py /\ 1 <= px -> 1 <= n0 /\ 1 <= n1 /\ 1 <= n2 -> 1 <= g -> In f F ->
  ((forall E (m : mem Z), schedule (zprod [pz; py; px]) (exchange3 per pz py px n0 n1 n2 g false F) E -> face_exchanged per [pz; py; px] [n0; n1; n2] g F m (run_copies E m)) <->
   (g <= n0 \/ per = false /\ pz = 1) /\ (g <= n1 \/ per = false /\ py = 1) /\ (g <= n2 \/ per = false /\ px = 1)).
Proof.
  intros Hp Hn Hg Hf. split.
  - intros H. assert (K : ~ ((n0 < g /\ (per = true \/ 2 <= pz)) \/ (n1 < g /\ (per = true \/ 2 <= py)) \/ (n2 < g /\ (per = true \/ 2 <= px)))).
    { intros K. destruct (wide3 per pz py px n0 n1 n2 g Hp Hn Hg false f F Hf K) as (r & I & E & m & A & B & C & C1 & D). apply D.
      specialize (H E m A r f I B C). rewrite C1 in H. destruct (in_dec Nat.eq_dec f F); [exact H|contradiction]. }
    destruct per; repeat split; try (left; lia); destruct (Z.leb_spec g n0), (Z.leb_spec g n1), (Z.leb_spec g n2); try (now left); right; split; auto; lia.
  - intros (R0 & R1 & R2) E m HE. now apply faces3_roomy.
Qed.
