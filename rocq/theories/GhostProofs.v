(** The 2D and 3D ghost communicators meet the exchange specification. *)
From Verif Require Import Base SpecGrid SpecGhost Cart CartFacts Comm GhostGeo Ghost2D Ghost3D.

Lemma all_copies_ext nranks p q : (forall r, 0 <= r < nranks -> p r = q r) ->
  all_copies nranks p = all_copies nranks q.
Proof.
  intros H. unfold all_copies. apply flat_map_ext'. intros a Ha. apply flat_map_ext'. intros b Hb.
  apply zrange_In in Ha, Hb. now rewrite (H a), (H b) by lia.
Qed.

Lemma all_matched_ext nranks p q : (forall r, 0 <= r < nranks -> p r = q r) ->
  all_matched nranks q -> all_matched nranks p.
Proof. intros H Hq a b Ha Hb. rewrite (H a), (H b) by lia. now apply Hq. Qed.

Section Generic.
Context {T : Type}.
Variables (per : bool) (dims loc : list Z) (g : Z).
Hypothesis Hok : grid_ok dims loc.
Hypothesis Hg : 0 <= g.
Hypothesis Hgn : Forall (fun n => g <= n) loc.

Lemma generic_refreshed (D : list (list Z)) (F : list nat) (m : mem T) E r f I :
  (forall dv, In dv D -> is_dir loc dv /\ nonzero dv) ->
  schedule (zprod dims) (steps_prog (nbr per dims) (gsteps g loc D F)) E ->
  0 <= r < zprod dims -> inb (ghosted g loc) I -> In f F ->
  In (vneg (zone g loc I)) D \/ zone g loc I = repeat 0 (length loc) ->
  field (run_copies E m) (ghosted g loc) r f I = refreshed m per dims loc g r f I.
Proof.
  intros HD HE Hr HI Hf Hz. unfold field, refreshed.
  rewrite (ghost_generic per dims loc g Hok Hg Hgn D F HD m E r f I HE Hr HI).
  rewrite (owner_ghost_pos per dims loc g r I Hok Hg Hgn HI).
  destruct (in_dec Nat.eq_dec f F) as [_|]; [|contradiction].
  destruct (in_dec (list_eq_dec Z.eq_dec) (vneg (zone g loc I)) D) as [HzD|HzD].
  - destruct (nbr per dims r (zone g loc I)); simpl; auto. unfold field. now rewrite add_sub_g.
  - destruct Hz as [Hz|Hz]; [contradiction|]. destruct Hok as [K1 K2 K3].
    assert (HlI : length I = length loc).
    { apply inb_length in HI. unfold ghosted in HI. now rewrite map_length in HI. }
    rewrite Hz. rewrite nbr_zero by (auto; lia). simpl. unfold field. rewrite add_sub_g.
    f_equal. f_equal. f_equal. f_equal. clear - HlI. revert I HlI.
    induction loc as [|n l IH]; intros [|i I] Hl; simpl in *; try discriminate; auto.
    rewrite <- IH by lia. f_equal. lia.
Qed.

Lemma generic_unchanged (D : list (list Z)) (F : list nat) (m : mem T) E r f I :
  (forall dv, In dv D -> is_dir loc dv /\ nonzero dv) ->
  schedule (zprod dims) (steps_prog (nbr per dims) (gsteps g loc D F)) E ->
  0 <= r < zprod dims -> inb (ghosted g loc) I -> ~ In f F \/ ~ In (vneg (zone g loc I)) D ->
  field (run_copies E m) (ghosted g loc) r f I = field m (ghosted g loc) r f I.
Proof.
  intros HD HE Hr HI Hn. unfold field.
  rewrite (ghost_generic per dims loc g Hok Hg Hgn D F HD m E r f I HE Hr HI).
  destruct (in_dec Nat.eq_dec f F) as [Hf|]; [|auto].
  destruct (in_dec (list_eq_dec Z.eq_dec) (vneg (zone g loc I)) D) as [HzD|HzD]; [tauto|auto].
Qed.
End Generic.

(** ** Two dimensions *)
Definition D2_edges : list (list Z) := [[-1; 0]; [1; 0]; [0; -1]; [0; 1]].
Definition D2_vertices : list (list Z) := [[-1; -1]; [1; 1]; [-1; 1]; [1; -1]].
Definition D2 (full : bool) := if full then D2_edges ++ D2_vertices else D2_edges.

Lemma vector_box cnt bl W i0 j0 f :
  map (fun o => (f : nat, i0 * W + j0 + o)) (mpi_vector cnt bl W) =
  map (fun c => (f, ravel [0; W] c)) (box [i0; j0] [cnt; bl]).
Proof.
  assert (Z0 : forall a l, zrange a l = map (fun x => x + a) (zrange 0 l)).
  { intros a l. rewrite <- zrange_shift. f_equal. }
  unfold mpi_vector, box. rewrite !map_flat_map'.
  rewrite (Z0 i0 cnt), (Z0 j0 bl), flat_map_map'.
  apply flat_map_ext'. intros i _. rewrite flat_map_map', !map_map, map_flat_map'. simpl.
  induction (zrange 0 bl) as [|j l IH]; simpl; auto. rewrite IH. do 2 f_equal. lia.
Qed.

Lemma ravel2 H H' W a b : ravel [H; W] [a; b] = ravel [H'; W] [a; b].
Proof. reflexivity. Qed.

Lemma buf2_box ny nx g f k cnt bl i0 j0 :
  py_start ((ny + 2 * g) * (nx + 2 * g)) k = i0 * (nx + 2 * g) + j0 ->
  buf2 ny nx g f k (mpi_vector cnt bl (nx + 2 * g)) = gdata f (ghosted g [ny; nx]) [i0; j0] [cnt; bl].
Proof.
  intros E. unfold buf2, shape0, shape1, gdata. rewrite E, vector_box. apply map_ext.
  intros c. reflexivity.
Qed.

Lemma py_start_pos L k : 0 <= k <= L -> py_start L k = k.
Proof. unfold py_start. intros. destruct (Z.ltb_spec k 0); lia. Qed.
Lemma py_start_neg L k : - L <= k < 0 -> py_start L k = L + k.
Proof. unfold py_start. intros. destruct (Z.ltb_spec k 0); lia. Qed.

Lemma exchange2_steps_any per py px ny nx g full F r :
  1 <= py -> 1 <= px -> 1 <= g -> 0 <= ny -> 0 <= nx -> 0 <= r < zprod [py; px] ->
  exchange2 per py px ny nx g full F r =
  steps_prog (nbr per [py; px]) (gsteps g [ny; nx] (D2 full) F) r.
Proof.
  intros Hpy Hpx Hg Hny Hnx Hr. unfold exchange2, steps_prog, gsteps.
  rewrite flat_map_concat_map, (flat_map_concat_map _ (flat_map _ _)).
  assert (Hp : positive [py; px]) by (repeat constructor; lia).
  assert (E : forall f, exchange_scalar_field_init2 per py px ny nx g full r f =
     flat_map (step_ops (nbr per [py; px]) r) (map (gstep g [ny; nx] f) (D2 full))).
  { intros f.
    assert (Ee : edges_init2 per py px ny nx g r f =
       flat_map (step_ops (nbr per [py; px]) r) (map (gstep g [ny; nx] f) D2_edges)).
    { unfold edges_init2, D2_edges, prev2, next2, previous_grid_along, next_grid_along, topo2, y_axis2, x_axis2,
        ghost_rows_offset, shape1, row_type, column_type.
      rewrite !cart_shift_nbr by (auto; simpl; lia).
      cbn [map flat_map app step_ops gstep sdir sdata rdata uvec length repeat vneg Z.opp].
      unfold send_start, recv_start, lens, send_start1, recv_start1, len1. cbn [map2 Z.eqb Pos.eqb].
      repeat (apply f_equal2; [apply f_equal|]); try reflexivity; apply buf2_box.
      - rewrite py_start_pos; nia.
      - rewrite py_start_neg; nia.
      - rewrite py_start_neg; nia.
      - rewrite py_start_pos; nia.
      - rewrite py_start_pos; nia.
      - rewrite py_start_pos; nia.
      - rewrite py_start_pos; nia.
      - rewrite py_start_pos; nia. }
    assert (Ev : vertices_init2 per py px ny nx g r f =
       flat_map (step_ops (nbr per [py; px]) r) (map (gstep g [ny; nx] f) D2_vertices)).
    { unfold vertices_init2, D2_vertices, diag2, topo2, ghost_rows_offset, shape1, corner_type.
      rewrite !diagonal_nbr by reflexivity.
      cbn [map flat_map app step_ops gstep sdir sdata rdata vneg Z.opp].
      unfold send_start, recv_start, lens, send_start1, recv_start1, len1. cbn [map2 Z.eqb Pos.eqb].
      repeat (apply f_equal2; [apply f_equal|]); try reflexivity; apply buf2_box.
      - rewrite py_start_pos; nia.
      - rewrite py_start_neg; nia.
      - rewrite py_start_neg; nia.
      - rewrite py_start_pos; nia.
      - rewrite py_start_pos; nia.
      - rewrite py_start_neg; nia.
      - rewrite py_start_neg; nia.
      - rewrite py_start_pos; nia. }
    unfold exchange_scalar_field_init2, D2. destruct full; [|exact Ee].
    rewrite map_app, flat_map_app, Ee, Ev. reflexivity. }
  rewrite <- !flat_map_concat_map.
  induction F as [|f F IH]; simpl; auto. rewrite flat_map_app, E, IH. reflexivity.
Qed.
Lemma exchange2_steps per py px ny nx g full F r :
  1 <= py -> 1 <= px -> 1 <= g -> g <= ny -> g <= nx -> 0 <= r < zprod [py; px] ->
  exchange2 per py px ny nx g full F r =
  steps_prog (nbr per [py; px]) (gsteps g [ny; nx] (D2 full) F) r.
Proof. intros. apply exchange2_steps_any; auto; lia. Qed.

Lemma D2_dirs full ny nx dv : In dv (D2 full) -> is_dir [ny; nx] dv /\ nonzero dv.
Proof.
  intros H. assert (H' : In dv (D2 true)) by (destruct full; auto; unfold D2; apply in_or_app; auto).
  simpl in H'. repeat (destruct H' as [<-|H']; [split; [split; [reflexivity|repeat constructor; lia]|
    (apply Exists_cons_hd; lia) || (apply Exists_cons_tl; apply Exists_cons_hd; lia)]|]). destruct H'.
Qed.

Lemma zone1_cases g n i : 0 <= n -> 
  (zone1 g n i = -1 /\ i < g) \/ (zone1 g n i = 0 /\ g <= i < g + n) \/ (zone1 g n i = 1 /\ g + n <= i).
Proof. intros. unfold zone1. cmp. Qed.

Lemma zone2_full g ny nx I : inb (ghosted g [ny; nx]) I ->
  In (vneg (zone g [ny; nx] I)) (D2 true) \/ zone g [ny; nx] I = repeat 0 2.
Proof.
  intros H. inversion H as [|? ? i ? Hi H1]; subst. inversion H1 as [|? ? j ? Hj H2]; subst. inversion H2; subst.
  unfold zone. simpl map2. unfold zone1.
  destruct (i <? g), (i <? g + ny), (j <? g), (j <? g + nx); simpl; tauto.
Qed.

Lemma zone2_edges g ny nx I : 0 <= ny -> 0 <= nx -> inb (ghosted g [ny; nx]) I ->
  if (ghost_axes g [ny; nx] I <=? 1)%nat then
    In (vneg (zone g [ny; nx] I)) (D2 false) \/ zone g [ny; nx] I = repeat 0 2
  else ~ In (vneg (zone g [ny; nx] I)) (D2 false).
Proof.
  intros Hy Hx H. inversion H as [|? ? i ? Hi H1]; subst. inversion H1 as [|? ? j ? Hj H2]; subst. inversion H2; subst.
  unfold zone. simpl map2. simpl ghost_axes. unfold zone1.
  destruct (Z.ltb_spec i g), (Z.ltb_spec i (g + ny)), (Z.leb_spec (g + ny) i),
   (Z.ltb_spec j g), (Z.ltb_spec j (g + nx)), (Z.leb_spec (g + nx) j); simpl; try lia; try tauto;
   intros K; repeat (destruct K as [K|K]; [discriminate|]); exact K.
Qed.

Section Two.
Context {T : Type}.
Variables (per : bool) (py px ny nx g : Z).
Hypothesis Hp : 1 <= py /\ 1 <= px.
Hypothesis Hg : 1 <= g.
Hypothesis Hn : g <= ny /\ g <= nx.

Lemma ok2 : grid_ok [py; px] [ny; nx].
Proof. split; [reflexivity| |]; repeat constructor; lia. Qed.
Lemma gn2 : Forall (fun n => g <= n) [ny; nx].
Proof. repeat constructor; lia. Qed.

Lemma schedule2 full F E : schedule (zprod [py; px]) (exchange2 per py px ny nx g full F) E ->
  schedule (zprod [py; px]) (steps_prog (nbr per [py; px]) (gsteps g [ny; nx] (D2 full) F)) E.
Proof.
  unfold schedule. intros H. erewrite all_copies_ext in H; [exact H|].
  intros r Hr. apply exchange2_steps; auto; lia.
Qed.

Lemma matched2 full F : all_matched (zprod [py; px]) (exchange2 per py px ny nx g full F).
Proof.
  eapply all_matched_ext; [intros r Hr; apply exchange2_steps; auto; lia|].
  apply (gmatched per [py; px] [ny; nx] g ok2). intros dv. apply D2_dirs.
Qed.

Lemma full2 F E (m : mem T) : schedule (zprod [py; px]) (exchange2 per py px ny nx g true F) E ->
  full_exchanged per [py; px] [ny; nx] g F m (run_copies E m).
Proof.
  intros HE r f I Hr HI. apply schedule2 in HE.
  destruct (in_dec Nat.eq_dec f F) as [Hf|Hf].
  - apply (generic_refreshed per _ _ g ok2 ltac:(lia) gn2 (D2 true) F); auto. intros dv; apply D2_dirs.
    now apply zone2_full.
  - apply (generic_unchanged per _ _ g ok2 ltac:(lia) gn2 (D2 true) F); auto. intros dv; apply D2_dirs.
Qed.

Lemma edges2 F E (m : mem T) : schedule (zprod [py; px]) (exchange2 per py px ny nx g false F) E ->
  face_exchanged per [py; px] [ny; nx] g F m (run_copies E m).
Proof.
  intros HE r f I Hr HI. apply schedule2 in HE.
  destruct (in_dec Nat.eq_dec f F) as [Hf|Hf].
  - pose proof (zone2_edges g ny nx I ltac:(lia) ltac:(lia) HI) as Hz.
    destruct (ghost_axes g [ny; nx] I <=? 1)%nat.
    + apply (generic_refreshed per _ _ g ok2 ltac:(lia) gn2 (D2 false) F); auto. intros dv; apply D2_dirs.
    + apply (generic_unchanged per _ _ g ok2 ltac:(lia) gn2 (D2 false) F); auto. intros dv; apply D2_dirs.
  - apply (generic_unchanged per _ _ g ok2 ltac:(lia) gn2 (D2 false) F); auto. intros dv; apply D2_dirs.
Qed.

Lemma frame2 full F E E1 E2 (m : mem T) r f I :
  schedule (zprod [py; px]) (exchange2 per py px ny nx g full F) E -> E = E1 ++ E2 -> inner g [ny; nx] I ->
  field (run_copies E1 m) (ghosted g [ny; nx]) r f I = field m (ghosted g [ny; nx]) r f I.
Proof.
  intros HE HE12 HI. apply schedule2 in HE. unfold field.
  eapply (ghost_frame per [py; px] [ny; nx] g ok2 ltac:(lia) gn2 (D2 full) F); eauto.
  intros dv; apply D2_dirs.
Qed.
End Two.

(** ** Three dimensions *)
Definition D3_faces : list (list Z) := [[0;0;1]; [0;0;-1]; [0;1;0]; [0;-1;0]; [1;0;0]; [-1;0;0]].
Definition D3_edges : list (list Z) :=
  [[0;1;1]; [0;-1;1]; [0;1;-1]; [0;-1;-1]; [1;0;1]; [-1;0;1]; [1;0;-1]; [-1;0;-1];
   [1;1;0]; [-1;1;0]; [1;-1;0]; [-1;-1;0]].
Definition D3_vertices : list (list Z) :=
  [[1;1;1]; [-1;1;1]; [1;-1;1]; [1;1;-1]; [-1;-1;1]; [-1;1;-1]; [1;-1;-1]; [-1;-1;-1]].
Definition D3 (full : bool) := if full then D3_faces ++ D3_edges ++ D3_vertices else D3_faces.

Lemma buf3_box n0 n1 n2 g f st ln st' ln' : st = st' -> ln = ln' ->
  buf3 f (mpi_subarray [s0 n0 g; s1 n1 g; s2 n2 g] ln st) = gdata f (ghosted g [n0; n1; n2]) st' ln'.
Proof. intros -> ->. unfold buf3, mpi_subarray, gdata. rewrite map_map. reflexivity. Qed.

Ltac dir3 := cbn [map flat_map app step_ops gstep sdir sdata rdata uvec length repeat vneg Z.opp];
  unfold send_start, recv_start, lens, send_start1, recv_start1, len1; cbn [map2 Z.eqb Pos.eqb];
  repeat (apply f_equal2; [apply f_equal|]); try reflexivity;
  apply buf3_box; unfold s0, s1, s2; try reflexivity; repeat (apply f_equal2; [lia|]); reflexivity.

Lemma exchange3_steps per pz py px n0 n1 n2 g full F r :
  1 <= pz -> 1 <= py -> 1 <= px -> 0 <= r < zprod [pz; py; px] ->
  exchange3 per pz py px n0 n1 n2 g full F r =
  steps_prog (nbr per [pz; py; px]) (gsteps g [n0; n1; n2] (D3 full) F) r.
Proof.
  intros Hpz Hpy Hpx Hr. unfold exchange3, steps_prog, gsteps.
  assert (Hp : positive [pz; py; px]) by (repeat constructor; lia).
  assert (E : forall f, exchange_scalar_field_init3 per pz py px n0 n1 n2 g full r f =
     flat_map (step_ops (nbr per [pz; py; px]) r) (map (gstep g [n0; n1; n2] f) (D3 full))).
  { intros f.
    assert (Ef : faces_init3 per pz py px n0 n1 n2 g r f =
       flat_map (step_ops (nbr per [pz; py; px]) r) (map (gstep g [n0; n1; n2] f) D3_faces)).
    { unfold faces_init3, D3_faces, prev3, next3, previous_grid_along, next_grid_along, topo3, z_axis3, y_axis3, x_axis3.
      rewrite !cart_shift_nbr by (auto; simpl; lia). dir3. }
    assert (Ee : edges_init3 per pz py px n0 n1 n2 g r f =
       flat_map (step_ops (nbr per [pz; py; px]) r) (map (gstep g [n0; n1; n2] f) D3_edges)).
    { unfold edges_init3, D3_edges, diag3, topo3. rewrite !diagonal_nbr by reflexivity. dir3. }
    assert (Ev : vertices_init3 per pz py px n0 n1 n2 g r f =
       flat_map (step_ops (nbr per [pz; py; px]) r) (map (gstep g [n0; n1; n2] f) D3_vertices)).
    { unfold vertices_init3, D3_vertices, diag3, topo3. rewrite !diagonal_nbr by reflexivity. dir3. }
    unfold exchange_scalar_field_init3, D3. destruct full; [|exact Ef].
    rewrite !map_app, !flat_map_app, Ef, Ee, Ev. reflexivity. }
  induction F as [|f F IH]; simpl; auto. rewrite flat_map_app, E, IH. reflexivity.
Qed.

Lemma D3_dirs full n0 n1 n2 dv : In dv (D3 full) -> is_dir [n0; n1; n2] dv /\ nonzero dv.
Proof.
  intros H. assert (H' : In dv (D3 true)) by (destruct full; auto; unfold D3; apply in_or_app; auto).
  simpl in H'. repeat (destruct H' as [<-|H']; [split; [split; [reflexivity|repeat constructor; lia]|
    (apply Exists_cons_hd; lia) || (apply Exists_cons_tl; apply Exists_cons_hd; lia) ||
    (apply Exists_cons_tl; apply Exists_cons_tl; apply Exists_cons_hd; lia)]|]). destruct H'.
Qed.

Lemma zone3_full g n0 n1 n2 I : inb (ghosted g [n0; n1; n2]) I ->
  In (vneg (zone g [n0; n1; n2] I)) (D3 true) \/ zone g [n0; n1; n2] I = repeat 0 3.
Proof.
  intros H. inversion H as [|? ? i ? Hi H1]; subst. inversion H1 as [|? ? j ? Hj H2]; subst.
  inversion H2 as [|? ? k ? Hk H3]; subst. inversion H3; subst.
  unfold zone. simpl map2. unfold zone1.
  destruct (i <? g), (i <? g + n0), (j <? g), (j <? g + n1), (k <? g), (k <? g + n2); simpl; tauto.
Qed.

Lemma zone3_faces g n0 n1 n2 I : 0 <= n0 -> 0 <= n1 -> 0 <= n2 -> inb (ghosted g [n0; n1; n2]) I ->
  if (ghost_axes g [n0; n1; n2] I <=? 1)%nat then
    In (vneg (zone g [n0; n1; n2] I)) (D3 false) \/ zone g [n0; n1; n2] I = repeat 0 3
  else ~ In (vneg (zone g [n0; n1; n2] I)) (D3 false).
Proof.
  intros Hn0 Hn1 Hn2 H. inversion H as [|? ? i ? Hi H1]; subst. inversion H1 as [|? ? j ? Hj H2]; subst.
  inversion H2 as [|? ? k ? Hk H3]; subst. inversion H3; subst.
  unfold zone. simpl map2. simpl ghost_axes.
  assert (G : forall n a, 0 <= n -> ((a <? g) || (g + n <=? a)) = negb (zone1 g n a =? 0)).
  { intros n a Hna. unfold zone1. destruct (Z.ltb_spec a g); simpl; auto.
    destruct (Z.ltb_spec a (g + n)); destruct (Z.leb_spec (g + n) a); simpl; auto; lia. }
  rewrite !G by auto.
  destruct (zone1_cases g n0 i Hn0) as [[-> _]|[[-> _]|[-> _]]];
  destruct (zone1_cases g n1 j Hn1) as [[-> _]|[[-> _]|[-> _]]];
  destruct (zone1_cases g n2 k Hn2) as [[-> _]|[[-> _]|[-> _]]]; simpl; try tauto;
   intros K; repeat (destruct K as [K|K]; [discriminate|]); exact K.
Qed.

Section Three.
Context {T : Type}.
Variables (per : bool) (pz py px n0 n1 n2 g : Z).
Hypothesis Hp : 1 <= pz /\ 1 <= py /\ 1 <= px.
Hypothesis Hg : 1 <= g.
Hypothesis Hn : g <= n0 /\ g <= n1 /\ g <= n2.
Let dims := [pz; py; px].
Let loc := [n0; n1; n2].

Lemma ok3 : grid_ok dims loc.
Proof. split; [reflexivity| |]; repeat constructor; lia. Qed.
Lemma gn3 : Forall (fun n => g <= n) loc.
Proof. repeat constructor; lia. Qed.

Lemma schedule3 full F E : schedule (zprod dims) (exchange3 per pz py px n0 n1 n2 g full F) E ->
  schedule (zprod dims) (steps_prog (nbr per dims) (gsteps g loc (D3 full) F)) E.
Proof.
  unfold schedule. intros H. erewrite all_copies_ext in H; [exact H|].
  intros r Hr. apply exchange3_steps; auto; lia.
Qed.

Lemma matched3 full F : all_matched (zprod dims) (exchange3 per pz py px n0 n1 n2 g full F).
Proof.
  eapply all_matched_ext; [intros r Hr; apply exchange3_steps; auto; lia|].
  apply (gmatched per dims loc g ok3). intros dv. apply D3_dirs.
Qed.

Lemma full3 F E (m : mem T) : schedule (zprod dims) (exchange3 per pz py px n0 n1 n2 g true F) E ->
  full_exchanged per dims loc g F m (run_copies E m).
Proof.
  intros HE r f I Hr HI. apply schedule3 in HE.
  destruct (in_dec Nat.eq_dec f F) as [Hf|Hf].
  - apply (generic_refreshed per _ _ g ok3 ltac:(lia) gn3 (D3 true) F); auto. intros dv; apply D3_dirs.
    now apply zone3_full.
  - apply (generic_unchanged per _ _ g ok3 ltac:(lia) gn3 (D3 true) F); auto. intros dv; apply D3_dirs.
Qed.

Lemma faces3 F E (m : mem T) : schedule (zprod dims) (exchange3 per pz py px n0 n1 n2 g false F) E ->
  face_exchanged per dims loc g F m (run_copies E m).
Proof.
  intros HE r f I Hr HI. apply schedule3 in HE.
  destruct (in_dec Nat.eq_dec f F) as [Hf|Hf].
  - pose proof (zone3_faces g n0 n1 n2 I ltac:(lia) ltac:(lia) ltac:(lia) HI) as Hz.
    fold loc in Hz. destruct (ghost_axes g loc I <=? 1)%nat.
    + apply (generic_refreshed per _ _ g ok3 ltac:(lia) gn3 (D3 false) F); auto. intros dv; apply D3_dirs.
    + apply (generic_unchanged per _ _ g ok3 ltac:(lia) gn3 (D3 false) F); auto. intros dv; apply D3_dirs.
  - apply (generic_unchanged per _ _ g ok3 ltac:(lia) gn3 (D3 false) F); auto. intros dv; apply D3_dirs.
Qed.

Lemma frame3 full F E E1 E2 (m : mem T) r f I :
  schedule (zprod dims) (exchange3 per pz py px n0 n1 n2 g full F) E -> E = E1 ++ E2 -> inner g loc I ->
  field (run_copies E1 m) (ghosted g loc) r f I = field m (ghosted g loc) r f I.
Proof.
  intros HE HE12 HI. apply schedule3 in HE. unfold field.
  eapply (ghost_frame per dims loc g ok3 ltac:(lia) gn3 (D3 full) F); eauto.
  intros dv; apply D3_dirs.
Qed.
End Three.

(** ** Schedule independence on every place of memory *)
Lemma confluent {T} nranks prog E E' (m : mem T) :
  schedule nranks prog E -> schedule nranks prog E' ->
  (forall X, schedule nranks prog X -> no_read_write X) ->
  (forall X, schedule nranks prog X -> single_source X) ->
  forall l, run_copies E m l = run_copies E' m l.
Proof.
  intros HE HE' H1 H2 l.
  destruct (run_copies_spec E (H1 E HE) (H2 E HE) m l) as [A B].
  destruct (run_copies_spec E' (H1 E' HE') (H2 E' HE') m l) as [A' B'].
  destruct (in_dec place_dec l (map snd E)) as [Hin|Hnin].
  - apply in_map_iff in Hin as ([s d] & Hd & Hin). simpl in Hd. subst d.
    assert (Hin' : In (s, l) E').
    { apply (Permutation_in _ (Permutation_sym HE')). now apply (Permutation_in _ HE). }
    now rewrite (A s Hin), (A' s Hin').
  - rewrite B, B'; auto.
    + intros s Hs. apply Hnin. apply in_map_iff. exists (s, l). split; auto.
      apply (Permutation_in _ (Permutation_sym HE)). now apply (Permutation_in _ HE').
    + intros s Hs. apply Hnin. apply in_map_iff. now exists (s, l).
Qed.

Lemma confluent2 {T} per py px ny nx g full F E E' (m : mem T) :
  1 <= py /\ 1 <= px -> 1 <= g -> g <= ny /\ g <= nx ->
  schedule (zprod [py; px]) (exchange2 per py px ny nx g full F) E ->
  schedule (zprod [py; px]) (exchange2 per py px ny nx g full F) E' ->
  forall l, run_copies E m l = run_copies E' m l.
Proof.
  intros Hp Hg Hn HE HE'. apply (confluent _ _ E E' m HE HE'); intros X HX; apply schedule2 in HX; auto.
  - eapply gno_read_write; [| | | |exact HX]; [now apply (ok2 py px ny nx g)|lia|now apply gn2|intros dv; apply D2_dirs].
  - eapply gsingle_source; [| | | |exact HX]; [now apply (ok2 py px ny nx g)|lia|now apply gn2|intros dv; apply D2_dirs].
Qed.

Lemma confluent3 {T} per pz py px n0 n1 n2 g full F E E' (m : mem T) :
  1 <= pz /\ 1 <= py /\ 1 <= px -> 1 <= g -> g <= n0 /\ g <= n1 /\ g <= n2 ->
  schedule (zprod [pz; py; px]) (exchange3 per pz py px n0 n1 n2 g full F) E ->
  schedule (zprod [pz; py; px]) (exchange3 per pz py px n0 n1 n2 g full F) E' ->
  forall l, run_copies E m l = run_copies E' m l.
Proof.
  intros Hp Hg Hn HE HE'. apply (confluent _ _ E E' m HE HE'); intros X HX; apply schedule3 in HX; auto.
  - eapply gno_read_write; [| | | |exact HX]; [now apply (ok3 pz py px n0 n1 n2 g)|lia|now apply gn3|intros dv; apply D3_dirs].
  - eapply gsingle_source; [| | | |exact HX]; [now apply (ok3 pz py px n0 n1 n2 g)|lia|now apply gn3|intros dv; apply D3_dirs].
Qed.

(** Versions with all arguments explicit and in the order of the theorems. *)
Lemma full2' : forall (T : Type) per py px ny nx g F E (m : mem T),
    1 <= py /\ 1 <= px -> 1 <= g -> g <= ny /\ g <= nx ->
    schedule (zprod [py; px]) (exchange2 per py px ny nx g true F) E ->
    full_exchanged per [py; px] [ny; nx] g F m (run_copies E m).
Proof. intros; now apply full2. Qed.
Lemma edges2' : forall (T : Type) per py px ny nx g F E (m : mem T),
    1 <= py /\ 1 <= px -> 1 <= g -> g <= ny /\ g <= nx ->
    schedule (zprod [py; px]) (exchange2 per py px ny nx g false F) E ->
    face_exchanged per [py; px] [ny; nx] g F m (run_copies E m).
Proof. intros; now apply edges2. Qed.
Lemma vector2' : forall (T : Type) per py px ny nx g full fx fy E (m : mem T),
    1 <= py /\ 1 <= px -> 1 <= g -> g <= ny /\ g <= nx ->
    schedule (zprod [py; px]) (exchange_vector2 per py px ny nx g full fx fy) E ->
    if full then full_exchanged per [py; px] [ny; nx] g [fx; fy] m (run_copies E m) else face_exchanged per [py; px] [ny; nx] g [fx; fy] m (run_copies E m).
Proof.
  intros T per py px ny nx g full fx fy E m Hp Hg Hn HE.
  assert (X : schedule (zprod [py; px]) (exchange2 per py px ny nx g full [fx; fy]) E).
  { unfold schedule in *. rewrite (all_copies_ext _ _ (exchange_vector2 per py px ny nx g full fx fy)); [exact HE|].
    intros r _. unfold exchange2, exchange_vector2. cbn [flat_map]. now rewrite app_nil_r. }
  destruct full; [apply full2|apply edges2]; assumption.
Qed.
Lemma full3' : forall (T : Type) per pz py px n0 n1 n2 g F E (m : mem T),
    1 <= pz /\ 1 <= py /\ 1 <= px -> 1 <= g -> g <= n0 /\ g <= n1 /\ g <= n2 ->
    schedule (zprod [pz; py; px]) (exchange3 per pz py px n0 n1 n2 g true F) E ->
    full_exchanged per [pz; py; px] [n0; n1; n2] g F m (run_copies E m).
Proof. intros; now apply full3. Qed.
Lemma faces3' : forall (T : Type) per pz py px n0 n1 n2 g F E (m : mem T),
    1 <= pz /\ 1 <= py /\ 1 <= px -> 1 <= g -> g <= n0 /\ g <= n1 /\ g <= n2 ->
    schedule (zprod [pz; py; px]) (exchange3 per pz py px n0 n1 n2 g false F) E ->
    face_exchanged per [pz; py; px] [n0; n1; n2] g F m (run_copies E m).
Proof. intros; now apply faces3. Qed.
Lemma frame2' : forall (T : Type) per py px ny nx g full F E E1 E2 (m : mem T) r f I,
    1 <= py /\ 1 <= px -> 1 <= g -> g <= ny /\ g <= nx ->
    schedule (zprod [py; px]) (exchange2 per py px ny nx g full F) E -> E = E1 ++ E2 ->
    inner g [ny; nx] I ->
    field (run_copies E1 m) (ghosted g [ny; nx]) r f I = field m (ghosted g [ny; nx]) r f I.
Proof. intros; eapply frame2; eauto. Qed.
Lemma frame3' : forall (T : Type) per pz py px n0 n1 n2 g full F E E1 E2 (m : mem T) r f I,
    1 <= pz /\ 1 <= py /\ 1 <= px -> 1 <= g -> g <= n0 /\ g <= n1 /\ g <= n2 ->
    schedule (zprod [pz; py; px]) (exchange3 per pz py px n0 n1 n2 g full F) E -> E = E1 ++ E2 ->
    inner g [n0; n1; n2] I ->
    field (run_copies E1 m) (ghosted g [n0; n1; n2]) r f I = field m (ghosted g [n0; n1; n2]) r f I.
Proof. intros; eapply frame3; eauto. Qed.
Lemma vector3' : forall (T : Type) per pz py px n0 n1 n2 g full fx fy fz E (m : mem T),
    1 <= pz /\ 1 <= py /\ 1 <= px -> 1 <= g -> g <= n0 /\ g <= n1 /\ g <= n2 ->
    schedule (zprod [pz; py; px]) (exchange_vector3 per pz py px n0 n1 n2 g full fx fy fz) E ->
    if full then full_exchanged per [pz; py; px] [n0; n1; n2] g [fx; fy; fz] m (run_copies E m) else face_exchanged per [pz; py; px] [n0; n1; n2] g [fx; fy; fz] m (run_copies E m).
Proof.
  intros T per pz py px n0 n1 n2 g full fx fy fz E m Hp Hg Hn HE.
  assert (X : schedule (zprod [pz; py; px]) (exchange3 per pz py px n0 n1 n2 g full [fx; fy; fz]) E).
  { unfold schedule in *. rewrite (all_copies_ext _ _ (exchange_vector3 per pz py px n0 n1 n2 g full fx fy fz)); [exact HE|].
    intros r _. unfold exchange3, exchange_vector3. cbn [flat_map]. now rewrite app_nil_r. }
  destruct full; [apply full3'|apply faces3']; assumption.
Qed.
