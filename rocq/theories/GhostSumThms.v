(** ghost_sum in 2D and 3D: assembling the stages. *)
From Coq Require Import FunctionalExtensionality Permutation.
From Verif Require Import DoublingProofs.
From Verif Require Import Base SpecGrid SpecPenalise SpecGhostSum Cart CartFacts Comm Blocking SpecBlocking BlockFacts Spmd Ghost2D Ghost3D Stencil GhostGeo KernelList Penalise PenaliseProofs StageRun LagComm GhostSum GhostSumProofs GhostSumHops.
Arguments run_lops : simpl never.
Arguments addr_eq : simpl never.
Arguments place_dec : simpl never.

Section Gen.
Context {T : Type}.
Variables (add : T -> T -> T) (z : T) (dims loc : list Z) (g : Z) (f : nat) (buf : nat -> nat).
Hypothesis Hm : comm_monoid add z.
Hypothesis Hg : grid_ok dims loc.
Hypothesis Hg0 : 1 <= g.
Hypothesis Hgn : Forall (fun n => g <= n) loc.
Hypothesis Hbf : forall a, (a < length loc)%nat -> buf a <> f.
Hypothesis Hbb : forall a b, (a < length loc)%nat -> (b < length loc)%nat -> a <> b -> buf a <> buf b.
Notation gst := (gst add z dims loc g f buf).
Notation hop := (hop add z dims loc g).
Notation Rel := (Rel z dims loc g f buf).
Definition gs_stages (l : list (nat * Z)) : list (@stage T) := map (fun p => gst (fst p) (snd p)) l.

Lemma hops_rel l : Forall (fun p : nat * Z => (fst p < length loc)%nat /\ (snd p = 1 \/ snd p = -1)) l -> forall m V, Rel m V ->
  Rel (fold_left (fun m st => stage_mem (zprod dims) st m) (gs_stages l) m) (fold_left (fun V p => hop (fst p) (snd p) V) l V) /\
  forall r x, fst x <> f -> (forall a, (a < length loc)%nat -> fst x <> buf a) -> fold_left (fun m st => stage_mem (zprod dims) st m) (gs_stages l) m r x = m r x.
Proof.
  unfold gs_stages. induction 1 as [|[a s] l [Ha Hs] H IH]; intros m V HR; cbn [map fold_left fst snd] in *; [split; auto|].
  destruct (hop_rel add z dims loc g f buf Hg Hg0 Hgn Hbf Hbb a s m V Ha Hs HR) as [R1 F1]. destruct (IH _ _ R1) as [R2 F2]. split; [exact R2|].
  intros r x X1 X2. rewrite F2 by auto. apply F1; auto.
Qed.

(** Clearing cells. *)
Definition clr (I : list Z) : @lop T := {| la := (f, ravel (ghosted g loc) I); lf := fun _ => z |}.
Lemma run_clr C : forall m, (forall I, In I C -> inb (ghosted g loc) I) ->
  (forall I, inb (ghosted g loc) I -> In I C -> run_lops (map clr C) m (f, ravel (ghosted g loc) I) = z) /\
  (forall I, inb (ghosted g loc) I -> ~ In I C -> run_lops (map clr C) m (f, ravel (ghosted g loc) I) = m (f, ravel (ghosted g loc) I)) /\
  (forall x, fst x <> f -> run_lops (map clr C) m x = m x).
Proof.
  induction C as [|J C IH]; intros m HC; [cbn; tauto|].
  destruct (IH (lop1 m (clr J))) as (I1 & I2 & I3); [intros; apply HC; now right|]. unfold run_lops in *. cbn [map fold_left].
  assert (HJ : inb (ghosted g loc) J) by (apply HC; now left). split; [|split].
  - intros I HI HIn. destruct (in_dec (list_eq_dec Z.eq_dec) I C) as [Hi|Hi]; [now apply I1|]. rewrite I2 by auto. destruct HIn as [-> |]; [|contradiction].
    unfold lop1, clr. cbn [la lf]. destruct (addr_eq _ _); congruence.
  - intros I HI HIn. cbn [In] in HIn. rewrite I2 by tauto. unfold lop1, clr. cbn [la lf]. destruct (addr_eq _ _) as [E|]; [|reflexivity]. exfalso. injection E as E. apply HIn. left. symmetry. exact (ravel_inj _ _ _ HI HJ E).
  - intros x Hx. rewrite I3 by auto. unfold lop1, clr. cbn [la lf]. destruct (addr_eq _ _) as [E|]; [|reflexivity]. exfalso. apply Hx. now rewrite E.
Qed.

Lemma ghost_sum_gen l C prog m :
  Forall (fun p : nat * Z => (fst p < length loc)%nat /\ (snd p = 1 \/ snd p = -1)) l ->
  (forall V, fold_left (fun V p => hop (fst p) (snd p) V) l V = pairs add z dims loc g (seq 0 (length loc)) V) ->
  (forall I, In I C <-> inb (ghosted g loc) I /\ ~ inner g loc I) ->
  (forall r, prog r = flat_map (fun st => stage_prog st r) (gs_stages l) ++ [BLocal (run_lops (map clr C))]) ->
  (forall a r K, (a < length loc)%nat -> 0 <= r < zprod dims -> inb (setn (ghosted g loc) a g) K -> m r (buf a, ravel (setn (ghosted g loc) a g) K) = z) ->
  exists m', runs_to (zprod dims) prog m m' /\
    (forall r I, 0 <= r < zprod dims -> inner g loc I -> m' r (f, ravel (ghosted g loc) I) =
        total add z (map (fun rI => m (fst rI) (f, ravel (ghosted g loc) (snd rI))) (copies_of dims loc g (ghost_pos dims loc g r I)))) /\
    (forall r I, 0 <= r < zprod dims -> inb (ghosted g loc) I -> ~ inner g loc I -> m' r (f, ravel (ghosted g loc) I) = z) /\
    (forall a r K, (a < length loc)%nat -> 0 <= r < zprod dims -> inb (setn (ghosted g loc) a g) K -> m' r (buf a, ravel (setn (ghosted g loc) a g) K) = z) /\
    (forall r x, fst x <> f -> (forall a, (a < length loc)%nat -> fst x <> buf a) -> m' r x = m r x).
Proof.
  intros Hl Hp HC Hprog Hz. assert (Hd : positive dims) by apply Hg.
  set (V0 := fun cs I => m (ravel dims cs) (f, ravel (ghosted g loc) I)).
  assert (R0 : Rel m V0). { split; [|exact Hz]. intros r I Hr HI. unfold V0. now rewrite ravel_unravel. }
  destruct (hops_rel l Hl m V0 R0) as [[RV RB] RF]. set (m1 := fold_left (fun (m : Z -> lmem) st => stage_mem (zprod dims) st m) (gs_stages l) m) in *.
  exists (local_mem (zprod dims) (run_lops (map clr C)) m1).
  assert (Hok : Forall (stage_ok (zprod dims)) (gs_stages l)).
  { unfold gs_stages. apply Forall_map. eapply Forall_impl; [|exact Hl]. intros [a s] [H1 H2]. apply gstage_ok; auto. }
  assert (HCi : forall I, In I C -> inb (ghosted g loc) I) by (intros I HI; now apply HC in HI).
  assert (Hin : forall r, 0 <= r < zprod dims -> local_mem (zprod dims) (run_lops (map clr C)) m1 r = run_lops (map clr C) (m1 r)).
  { intros r Hr. unfold local_mem. now rewrite (proj2 (andb_true_iff _ _)) by (rewrite Z.leb_le, Z.ltb_lt; lia). }
  split; [|split; [|split; [|split]]].
  - assert (E : prog = fun r => flat_map (fun st => stage_prog st r) (gs_stages l) ++ [BLocal (run_lops (map clr C))]) by (apply functional_extensionality; exact Hprog).
    rewrite E. now apply stages_run.
  - intros r I Hr HI. assert (HI' : inb (ghosted g loc) I) by (apply inner_inb; auto; lia). rewrite Hin by auto.
    rewrite (proj1 (proj2 (run_clr C (m1 r) HCi))); auto; [|intros X; apply HC in X; tauto]. rewrite RV by auto. rewrite Hp.
    rewrite (pairs_copies add z dims loc g Hm Hg Hg0 Hgn) by auto. f_equal. apply map_ext_in. intros [q J] Hq. unfold V0. cbn [fst snd].
    unfold copies_of in Hq. apply filter_In in Hq as [Hq _]. apply in_prod_iff in Hq as [Hq _]. apply zrange_In in Hq. now rewrite ravel_unravel by (auto; lia).
  - intros r I Hr HI Hn. rewrite Hin by auto. apply (proj1 (run_clr C (m1 r) HCi)); auto. now apply HC.
  - intros a r K Ha Hr HK. rewrite Hin by auto. rewrite (proj2 (proj2 (run_clr C (m1 r) HCi))) by (cbn [fst]; auto). now apply RB.
  - intros r x X1 X2. unfold local_mem. destruct (_ && _); [|now apply RF]. rewrite (proj2 (proj2 (run_clr C (m1 r) HCi))) by auto. now apply RF.
Qed.

Lemma gact_eq a s v w : view_starts (ghosted g loc) v = setn (zeros loc) a (lo1 loc g a s) -> view_lens (ghosted g loc) v = bsz loc g a ->
  view_starts (bsz loc g a) w = zeros loc -> view_lens (bsz loc g a) w = bsz loc g a ->
  add_buffer add (ghosted g loc) f v (buf a) ++ clear (fun _ => z) (bsz loc g a) (buf a) w = gact add z loc g f buf a s.
Proof. intros E1 E2 E3 E4. unfold add_buffer, clear, view_cells, gact. now rewrite E1, E2, E3, E4. Qed.

(** Regrouping the hops. *)
Lemma regroup2 V : length loc = 2%nat -> fold_left (fun V p => hop (fst p) (snd p) V) [(0%nat, 1); (1%nat, 1); (0%nat, -1); (1%nat, -1)] V = pairs add z dims loc g (seq 0 (length loc)) V.
Proof.
  intros ->. cbn [fold_left fst snd seq pairs fold_right].
  rewrite (hop_comm add z dims loc g Hm 1 (-1) 0 (-1)) by discriminate. rewrite (hop_comm add z dims loc g Hm 1 1 0 1) by discriminate.
  now rewrite (hop_comm add z dims loc g Hm 1 (-1) 0 1) by discriminate.
Qed.
Lemma regroup3 V : length loc = 3%nat -> fold_left (fun V p => hop (fst p) (snd p) V) [(0%nat, 1); (1%nat, 1); (2%nat, 1); (0%nat, -1); (1%nat, -1); (2%nat, -1)] V = pairs add z dims loc g (seq 0 (length loc)) V.
Proof.
  intros ->. cbn [fold_left fst snd seq pairs fold_right]. pose proof (hop_comm add z dims loc g Hm) as C.
  rewrite (C 1%nat (-1) 0%nat (-1)), (C 2%nat (-1) 0%nat (-1)), (C 1%nat 1 0%nat 1), (C 2%nat 1 0%nat 1), (C 1%nat (-1) 0%nat 1), (C 2%nat (-1) 0%nat 1), (C 2%nat (-1) 1%nat (-1)), (C 2%nat 1 1%nat 1), (C 2%nat (-1) 1%nat 1) by discriminate.
  reflexivity.
Qed.
End Gen.

(** *** The programs *)
Lemma py_start_neg len k : 0 < k <= len -> py_start len (- k) = len - k.
Proof. intros H. unfold py_start. destruct (Z.ltb_spec (- k) 0); lia. Qed.
Lemma py_start_pos len k : 0 <= k <= len -> py_start len k = k.
Proof. intros H. unfold py_start. destruct (Z.ltb_spec k 0); lia. Qed.

Lemma box2_eq a b l k : box [a; b] [l; k] = flat_map (fun i => map (fun j => [i; j]) (zrange b k)) (zrange a l).
Proof.
  cbn [box]. apply flat_map_ext'. intros i _. rewrite map_flat_map'. generalize (zrange b k). intros L. induction L as [|j L IH]; [reflexivity|]. cbn [flat_map]. rewrite IH. reflexivity.
Qed.
Lemma zrange_from k l : zrange k l = map (fun x => x + k) (zrange 0 l).
Proof. rewrite <- zrange_shift. f_equal. Qed.
Lemma row_gdata f s0 s1 k g : 0 <= g -> 0 <= s1 -> map (fun o => (f, k * s1 + o)) (mpi_contiguous (g * s1)) = gdata f [s0; s1] [k; 0] [g; s1].
Proof.
  intros Hg Hs. unfold mpi_contiguous, gdata. rewrite box2_eq. rewrite <- (zrange_flat s1 g) by auto. rewrite !map_flat_map'.
  rewrite (zrange_from k g), flat_map_map'. apply flat_map_ext'. intros i _. rewrite !map_map. apply map_ext. intros j. cbn [ravel zprod]. f_equal. lia.
Qed.
Lemma col_gdata f s0 s1 k g : map (fun o => (f, k + o)) (mpi_vector s0 g s1) = gdata f [s0; s1] [0; k] [s0; g].
Proof.
  unfold mpi_vector, gdata. rewrite box2_eq, !map_flat_map'. apply flat_map_ext'. intros i _. rewrite (zrange_from k g), !map_map. apply map_ext. intros j. cbn [ravel zprod]. f_equal. lia.
Qed.

Ltac stage_eq l b a s := apply f_equal2; [cbn [dst sd gst]; f_equal|apply f_equal2; [cbn [src rd gst]; f_equal|apply f_equal2; [cbn [act gst]; f_equal; f_equal; apply (gact_eq _ _ l _ _ b a s)|]]].
Ltac slices := cbn [view_starts view_lens slice_start slice_stop]; rewrite ?py_start_neg, ?py_start_pos by lia.

Section D2.
Context {T : Type}.
Variables (add : T -> T -> T) (z : T) (py px ny nx g : Z) (f rb cb : nat).
Hypothesis Hgr : grid2 py px ny nx g.
Hypothesis Hd : NoDup [f; rb; cb].
Notation dims := [py; px].
Notation loc := [ny; nx].
Definition buf2 (a : nat) : nat := match a with O => rb | _ => cb end.
Definition clr_cells2 : list (list Z) :=
  box [0; 0] [g; nx + 2 * g] ++ box [ny + g; 0] [g; nx + 2 * g] ++ box [0; 0] [ny + 2 * g; g] ++ box [0; nx + g] [ny + 2 * g; g].

Lemma clear_eq2 : clear_ghost_cells2 (fun _ => z) ny nx g f = map (clr z loc g f) clr_cells2.
Proof.
  destruct Hgr as (H1 & H2 & H3 & H4 & H5). unfold clear_ghost_cells2, clear, view_cells, clr_cells2. rewrite !map_app. slices. unfold clr. cbn [ghosted map].
  repeat (f_equal; try lia; [repeat (f_equal; try lia)|]); repeat (f_equal; try lia).
Qed.

Lemma gs2_stages r : ghost_sum2 add (fun _ => z) false py px ny nx g f rb cb r =
  flat_map (fun st => stage_prog st r) (gs_stages add z dims loc g f buf2 [(0%nat, 1); (1%nat, 1); (0%nat, -1); (1%nat, -1)]) ++ [BLocal (run_lops (map (clr z loc g f) clr_cells2))].
Proof.
  destruct Hgr as (H1 & H2 & H3 & H4 & H5). unfold gs_stages. cbn [map flat_map app stage_prog fst snd]. unfold stage_prog. cbn [app]. rewrite <- clear_eq2.
  unfold ghost_sum2, gs_next, gs_prev, next_grid_along, previous_grid_along, from_row, from_offset, gs_row_type, gs_column_type.
  rewrite !whole_gdata by (repeat constructor; lia). cbn [map]. rewrite !(row_gdata f (ny + 2 * g)) by lia. rewrite !col_gdata.
  stage_eq [ny; nx] buf2 0%nat 1; [ .. |stage_eq [ny; nx] buf2 1%nat 1; [ .. |stage_eq [ny; nx] buf2 0%nat (-1); [ .. |stage_eq [ny; nx] buf2 1%nat (-1); [ .. |reflexivity]]]];
    try reflexivity; unfold lo1, bsz, zeros, so1; cbn [ghosted map setn nth view_starts view_lens slice_start slice_stop];
    repeat match goal with |- context [?k =? 1] => let b := eval compute in (k =? 1) in change (k =? 1) with b; cbn iota end;
    rewrite ?py_start_neg, ?py_start_pos by nia; try (replace (-2 * g) with (- (2 * g)) by lia); rewrite ?py_start_neg, ?py_start_pos by nia; repeat (f_equal; try lia).
Qed.

Lemma clr_cells2_spec I : In I clr_cells2 <-> inb (ghosted g loc) I /\ ~ inner g loc I.
Proof.
  destruct Hgr as (H1 & H2 & H3 & H4 & H5). unfold clr_cells2, inner. rewrite !in_app_iff, !box_In by reflexivity. cbn [ghosted map].
  assert (B : forall a b l k J, in_box [a; b] [l; k] J <-> exists i j, J = [i; j] /\ a <= i < a + l /\ b <= j < b + k).
  { intros. split; [intros X; inversion X as [|? ? ? ? i ? Hi X']; subst; inversion X' as [|? ? ? ? j ? Hj X'']; subst; inversion X''; subst; exists i, j; auto|intros (i & j & -> & Hi & Hj); repeat constructor; lia]. }
  assert (C : forall l k J, inb [l; k] J <-> exists i j, J = [i; j] /\ 0 <= i < l /\ 0 <= j < k).
  { intros. split; [intros X; inversion X as [|? ? i ? Hi X']; subst; inversion X' as [|? ? j ? Hj X'']; subst; inversion X''; subst; exists i, j; auto|intros (i & j & -> & Hi & Hj); repeat constructor; lia]. }
  rewrite !B, C. split.
  - intros [H|[H|[H|H]]]; destruct H as (i & j & -> & Hi & Hj); (split; [exists i, j; repeat split; lia|]); intros (i' & j' & E & Hi' & Hj'); injection E as <- <-; lia.
  - intros [(i & j & -> & Hi & Hj) Hn]. destruct (Z_lt_dec i g); [left; exists i, j; repeat split; lia|]. destruct (Z_le_dec (ny + g) i); [right; left; exists i, j; repeat split; lia|].
    destruct (Z_lt_dec j g); [right; right; left; exists i, j; repeat split; lia|]. destruct (Z_le_dec (nx + g) j); [right; right; right; exists i, j; repeat split; lia|].
    exfalso. apply Hn. exists i, j. repeat split; lia.
Qed.

Lemma ghost_sum2_correct (Hm : comm_monoid add z) times0 (m : Z -> @lmemT T) : (forall x, times0 x = z) ->
  (forall r K, 0 <= r < py * px -> inb [g; nx + 2 * g] K -> m r (rb, ravel [g; nx + 2 * g] K) = z) ->
  (forall r K, 0 <= r < py * px -> inb [ny + 2 * g; g] K -> m r (cb, ravel [ny + 2 * g; g] K) = z) ->
  exists m', runs_to (py * px) (ghost_sum2 add times0 false py px ny nx g f rb cb) m m' /\
    (forall r I, 0 <= r < py * px -> inner g loc I -> m' r (f, ravel (ghosted g loc) I) =
        total add z (map (fun rI => m (fst rI) (f, ravel (ghosted g loc) (snd rI))) (copies_of dims loc g (ghost_pos dims loc g r I)))) /\
    (forall r I, 0 <= r < py * px -> inb (ghosted g loc) I -> ~ inner g loc I -> m' r (f, ravel (ghosted g loc) I) = z) /\
    (forall r K, 0 <= r < py * px -> inb [g; nx + 2 * g] K -> m' r (rb, ravel [g; nx + 2 * g] K) = z) /\
    (forall r K, 0 <= r < py * px -> inb [ny + 2 * g; g] K -> m' r (cb, ravel [ny + 2 * g; g] K) = z) /\
    (forall r x, fst x <> f -> fst x <> rb -> fst x <> cb -> m' r x = m r x).
Proof.
  intros Ht Hz1 Hz2. assert (times0 = fun _ => z) as -> by (apply functional_extensionality; exact Ht). pose proof Hgr as (H1 & H2 & H3 & H4 & H5).
  assert (En : py * px = zprod dims) by (cbn [zprod]; lia). rewrite En in *.
  assert (D : f <> rb /\ f <> cb /\ rb <> cb). { inversion Hd as [|? ? N1 Hd']; subst. inversion Hd' as [|? ? N2 Hd'']; subst. cbn [In] in *. repeat split; intros ->; tauto. }
  destruct (ghost_sum_gen add z dims loc g f buf2 Hm) with (l := [(0%nat, 1); (1%nat, 1); (0%nat, -1); (1%nat, -1)]) (C := clr_cells2) (prog := ghost_sum2 add (fun _ => z) false py px ny nx g f rb cb) (m := m) as (m' & R1 & R2 & R3 & R4 & R5).
  - constructor; [reflexivity|repeat constructor; lia|repeat constructor; lia].
  - lia.
  - repeat constructor; lia.
  - intros [|[|a]] Ha; cbn [length buf2] in *; try lia; intros X; symmetry in X; tauto.
  - intros [|[|a]] [|[|b]] Ha Hb Hab; cbn [length buf2] in *; try lia; intros X; try symmetry in X; tauto.
  - repeat constructor; cbn [fst snd length]; lia.
  - intros V. now apply regroup2.
  - apply clr_cells2_spec.
  - intros r. apply gs2_stages.
  - intros [|[|a]] r K Ha Hr HK; cbn [length buf2 setn ghosted map] in *; try lia; auto.
  - exists m'. split; [exact R1|]. split; [exact R2|]. split; [exact R3|]. split; [exact (R4 0%nat) | split; [exact (R4 1%nat)|]] || (split; [intros r K Hr HK; apply (R4 0%nat r K); cbn [length]; auto; lia|split; [intros r K Hr HK; apply (R4 1%nat r K); cbn [length]; auto; lia|]]).
    intros r x X1 X2 X3. apply R5; auto. intros [|[|a]] Ha; cbn [length buf2] in *; auto; lia.
Qed.
End D2.

Section D3.
Context {T : Type}.
Variables (add : T -> T -> T) (z : T) (pz py px n0 n1 n2 g : Z) (f bz by_ bx : nat).
Hypothesis Hgr : grid3 pz py px n0 n1 n2 g.
Hypothesis Hd : NoDup [f; bz; by_; bx].
Notation dims := [pz; py; px].
Notation loc := [n0; n1; n2].
Definition buf3d (a : nat) : nat := match a with O => bz | S O => by_ | _ => bx end.
Definition clr_cells3 : list (list Z) :=
  let s0 := n0 + 2 * g in let s1 := n1 + 2 * g in let s2 := n2 + 2 * g in
  box [0; 0; 0] [g; s1; s2] ++ box [n0 + g; 0; 0] [g; s1; s2] ++ box [0; 0; 0] [s0; g; s2] ++ box [0; n1 + g; 0] [s0; g; s2] ++
  box [0; 0; 0] [s0; s1; g] ++ box [0; 0; n2 + g] [s0; s1; g].

Lemma clear_eq3 : clear_ghost_cells3 (fun _ => z) n0 n1 n2 g f = map (clr z loc g f) clr_cells3.
Proof.
  destruct Hgr as (H1 & H2 & H3 & H4 & H5 & H6 & H7). unfold clear_ghost_cells3, clear, view_cells, clr_cells3. rewrite !map_app. slices. unfold clr. cbn [ghosted map].
  repeat (f_equal; try lia; [repeat (f_equal; try lia)|]); repeat (f_equal; try lia).
Qed.

Lemma gs3_stages r : ghost_sum3 add (fun _ => z) false pz py px n0 n1 n2 g f bz by_ bx r =
  flat_map (fun st => stage_prog st r) (gs_stages add z dims loc g f buf3d [(0%nat, 1); (1%nat, 1); (2%nat, 1); (0%nat, -1); (1%nat, -1); (2%nat, -1)]) ++ [BLocal (run_lops (map (clr z loc g f) clr_cells3))].
Proof.
  destruct Hgr as (H1 & H2 & H3 & H4 & H5 & H6 & H7). unfold gs_stages. cbn [map flat_map app stage_prog fst snd]. unfold stage_prog. cbn [app]. rewrite <- clear_eq3.
  unfold ghost_sum3, gs_next3, gs_prev3, next_grid_along, previous_grid_along, send_next_along_x, send_next_along_y, send_next_along_z, send_previous_along_x, send_previous_along_y, send_previous_along_z.
  rewrite !whole_gdata by (repeat constructor; lia). cbn [map]. rewrite !buf_gdata.
  stage_eq [n0; n1; n2] buf3d 0%nat 1; [ .. |stage_eq [n0; n1; n2] buf3d 1%nat 1; [ .. |stage_eq [n0; n1; n2] buf3d 2%nat 1; [ .. |
    stage_eq [n0; n1; n2] buf3d 0%nat (-1); [ .. |stage_eq [n0; n1; n2] buf3d 1%nat (-1); [ .. |stage_eq [n0; n1; n2] buf3d 2%nat (-1); [ .. |reflexivity]]]]]];
    try reflexivity; unfold lo1, bsz, zeros, so1; cbn [ghosted map setn nth view_starts view_lens slice_start slice_stop];
    repeat match goal with |- context [?k =? 1] => let b := eval compute in (k =? 1) in change (k =? 1) with b; cbn iota end;
    rewrite ?py_start_neg, ?py_start_pos by lia; try (replace (-2 * g) with (- (2 * g)) by lia); rewrite ?py_start_neg, ?py_start_pos by lia; repeat (f_equal; try lia).
Qed.

Lemma clr_cells3_spec I : In I clr_cells3 <-> inb (ghosted g loc) I /\ ~ inner g loc I.
Proof.
  destruct Hgr as (H1 & H2 & H3 & H4 & H5 & H6 & H7). unfold clr_cells3, inner. cbn zeta. rewrite !in_app_iff, !box_In by reflexivity. cbn [ghosted map].
  assert (B : forall a b c l k h J, in_box [a; b; c] [l; k; h] J <-> exists i j q, J = [i; j; q] /\ a <= i < a + l /\ b <= j < b + k /\ c <= q < c + h).
  { intros. split; [intros X; inversion X as [|? ? ? ? i ? Hi X']; subst; inversion X' as [|? ? ? ? j ? Hj X'']; subst; inversion X'' as [|? ? ? ? q ? Hq X''']; subst; inversion X'''; subst; exists i, j, q; auto|intros (i & j & q & -> & Hi & Hj & Hq); repeat constructor; lia]. }
  assert (C : forall l k h J, inb [l; k; h] J <-> exists i j q, J = [i; j; q] /\ 0 <= i < l /\ 0 <= j < k /\ 0 <= q < h).
  { intros. split; [intros X; inversion X as [|? ? i ? Hi X']; subst; inversion X' as [|? ? j ? Hj X'']; subst; inversion X'' as [|? ? q ? Hq X''']; subst; inversion X'''; subst; exists i, j, q; auto|intros (i & j & q & -> & Hi & Hj & Hq); repeat constructor; lia]. }
  rewrite !B, C. split.
  - intros [H|[H|[H|[H|[H|H]]]]]; destruct H as (i & j & q & -> & Hi & Hj & Hq); (split; [exists i, j, q; repeat split; lia|]); intros (i' & j' & q' & E & Hi' & Hj' & Hq'); injection E as <- <- <-; lia.
  - intros [(i & j & q & -> & Hi & Hj & Hq) Hn].
    destruct (Z_lt_dec i g); [left; exists i, j, q; repeat split; lia|]. destruct (Z_le_dec (n0 + g) i); [right; left; exists i, j, q; repeat split; lia|].
    destruct (Z_lt_dec j g); [do 2 right; left; exists i, j, q; repeat split; lia|]. destruct (Z_le_dec (n1 + g) j); [do 3 right; left; exists i, j, q; repeat split; lia|].
    destruct (Z_lt_dec q g); [do 4 right; left; exists i, j, q; repeat split; lia|]. destruct (Z_le_dec (n2 + g) q); [do 5 right; exists i, j, q; repeat split; lia|].
    exfalso. apply Hn. exists i, j, q. repeat split; lia.
Qed.

Lemma ghost_sum3_correct (Hm : comm_monoid add z) times0 (m : Z -> @lmemT T) : (forall x, times0 x = z) ->
  (forall r K, 0 <= r < pz * py * px -> inb [g; n1 + 2 * g; n2 + 2 * g] K -> m r (bz, ravel [g; n1 + 2 * g; n2 + 2 * g] K) = z) ->
  (forall r K, 0 <= r < pz * py * px -> inb [n0 + 2 * g; g; n2 + 2 * g] K -> m r (by_, ravel [n0 + 2 * g; g; n2 + 2 * g] K) = z) ->
  (forall r K, 0 <= r < pz * py * px -> inb [n0 + 2 * g; n1 + 2 * g; g] K -> m r (bx, ravel [n0 + 2 * g; n1 + 2 * g; g] K) = z) ->
  exists m', runs_to (pz * py * px) (ghost_sum3 add times0 false pz py px n0 n1 n2 g f bz by_ bx) m m' /\
    (forall r I, 0 <= r < pz * py * px -> inner g loc I -> m' r (f, ravel (ghosted g loc) I) =
        total add z (map (fun rI => m (fst rI) (f, ravel (ghosted g loc) (snd rI))) (copies_of dims loc g (ghost_pos dims loc g r I)))) /\
    (forall r I, 0 <= r < pz * py * px -> inb (ghosted g loc) I -> ~ inner g loc I -> m' r (f, ravel (ghosted g loc) I) = z) /\
    (forall r K, 0 <= r < pz * py * px -> inb [g; n1 + 2 * g; n2 + 2 * g] K -> m' r (bz, ravel [g; n1 + 2 * g; n2 + 2 * g] K) = z) /\
    (forall r K, 0 <= r < pz * py * px -> inb [n0 + 2 * g; g; n2 + 2 * g] K -> m' r (by_, ravel [n0 + 2 * g; g; n2 + 2 * g] K) = z) /\
    (forall r K, 0 <= r < pz * py * px -> inb [n0 + 2 * g; n1 + 2 * g; g] K -> m' r (bx, ravel [n0 + 2 * g; n1 + 2 * g; g] K) = z) /\
    (forall r x, fst x <> f -> fst x <> bz -> fst x <> by_ -> fst x <> bx -> m' r x = m r x).
Proof.
  intros Ht Hz0 Hz1 Hz2. assert (times0 = fun _ => z) as -> by (apply functional_extensionality; exact Ht). pose proof Hgr as (H1 & H2 & H3 & H4 & H5 & H6 & H7).
  assert (En : pz * py * px = zprod dims) by (cbn [zprod]; lia). rewrite En in *.
  assert (D : f <> bz /\ f <> by_ /\ f <> bx /\ bz <> by_ /\ bz <> bx /\ by_ <> bx).
  { inversion Hd as [|? ? N1 Hd']; subst. inversion Hd' as [|? ? N2 Hd'']; subst. inversion Hd'' as [|? ? N3 Hd''']; subst. cbn [In] in *. repeat split; intros ->; tauto. }
  destruct (ghost_sum_gen add z dims loc g f buf3d Hm) with (l := [(0%nat, 1); (1%nat, 1); (2%nat, 1); (0%nat, -1); (1%nat, -1); (2%nat, -1)]) (C := clr_cells3) (prog := ghost_sum3 add (fun _ => z) false pz py px n0 n1 n2 g f bz by_ bx) (m := m) as (m' & R1 & R2 & R3 & R4 & R5).
  - constructor; [reflexivity|repeat constructor; lia|repeat constructor; lia].
  - lia.
  - repeat constructor; lia.
  - intros [|[|[|a]]] Ha; cbn [length buf3d] in *; try lia; intros X; symmetry in X; tauto.
  - intros [|[|[|a]]] [|[|[|b]]] Ha Hb Hab; cbn [length buf3d] in *; try lia; intros X; try symmetry in X; tauto.
  - repeat constructor; cbn [fst snd length]; lia.
  - intros V. now apply regroup3.
  - apply clr_cells3_spec.
  - intros r. apply gs3_stages.
  - intros [|[|[|a]]] r K Ha Hr HK; cbn [length buf3d setn ghosted map] in *; try lia; auto.
  - exists m'. split; [exact R1|]. split; [exact R2|]. split; [exact R3|].
    split; [intros r K Hr HK; apply (R4 0%nat r K); cbn [length]; auto; lia|]. split; [intros r K Hr HK; apply (R4 1%nat r K); cbn [length]; auto; lia|]. split; [intros r K Hr HK; apply (R4 2%nat r K); cbn [length]; auto; lia|].
    intros r x X1 X2 X3 X4. apply R5; auto. intros [|[|[|a]]] Ha; cbn [length buf3d] in *; auto; lia.
Qed.
End D3.

(** *** Periodic axes *)
Section Periodic.
Context {T : Type}.
Lemma periodic_next dims r a d : positive dims -> 0 <= r < zprod dims -> (a < length dims)%nat -> exists b, cart_shift_dest true dims r a d = Some b /\ 0 <= b < zprod dims.
Proof.
  intros Hd Hr Ha. rewrite cart_shift_nbr by auto. destruct (nbr true dims r (uvec (length dims) a d)) as [b|] eqn:E.
  - exists b. split; auto. exact (nbr_range true dims r _ b Hd (uvec_length _ _ _) E).
  - apply nbr_none in E; auto; [destruct E; discriminate|apply uvec_length].
Qed.
Lemma all_sending n (prog : Z -> list (@bop T)) (m : Z -> lmem) : (forall r, 0 <= r < n -> exists b d p, prog r = BSend (Some b) d :: p /\ 0 <= b < n) ->
  forall c, ~ bstep false (start n prog m) c.
Proof.
  intros H c St.
  assert (P : forall r x p, pr (start n prog m) r = x :: p -> exists b d, x = BSend (Some b) d /\ 0 <= b < n).
  { intros r x p E. unfold start in E. cbn [pr] in E. destruct ((0 <=? r) && (r <? n)) eqn:Er; [|discriminate]. apply andb_true_iff in Er. rewrite Z.leb_le, Z.ltb_lt in Er.
    destruct (H r Er) as (b & d & q & Eq & Hb). rewrite Eq in E. injection E as <- _. eauto. }
  inversion St; subst; try discriminate;
    match goal with E : pr (start n prog m) ?r = BLocal _ :: _ |- _ => destruct (P _ _ _ E) as (? & ? & X & _); discriminate
                  | E : pr (start n prog m) ?r = BSend None _ :: _ |- _ => destruct (P _ _ _ E) as (? & ? & X & _); discriminate
                  | E : pr (start n prog m) ?r = BRecv _ _ :: _ |- _ => destruct (P _ _ _ E) as (? & ? & X & _); discriminate end.
Qed.
Lemma not_finished n (prog : Z -> list (@bop T)) (m : Z -> lmem) : 1 <= n -> (forall r, 0 <= r < n -> exists b d p, prog r = BSend (Some b) d :: p /\ 0 <= b < n) -> ~ finished (start n prog m).
Proof.
  intros Hn H F. specialize (F 0). unfold start in F. cbn [pr] in F. rewrite (proj2 (andb_true_iff _ _)) in F by (rewrite Z.leb_le, Z.ltb_lt; lia).
  destruct (H 0) as (b & d & p & E & _); [lia|]. rewrite E in F. discriminate.
Qed.
Lemma periodic_deadlock2 add times0 py px ny nx g f rb cb (m : Z -> @lmemT T) : 1 <= py -> 1 <= px ->
  ~ finished (start (py * px) (ghost_sum2 add times0 true py px ny nx g f rb cb) m) /\ forall c, ~ bstep false (start (py * px) (ghost_sum2 add times0 true py px ny nx g f rb cb) m) c.
Proof.
  intros H1 H2. assert (E : py * px = zprod [py; px]) by (cbn [zprod]; lia).
  assert (H : forall r, 0 <= r < py * px -> exists b d p, ghost_sum2 add times0 true py px ny nx g f rb cb r = BSend (Some b) d :: p /\ 0 <= b < py * px).
  { intros r Hr. destruct (periodic_next [py; px] r 0 1) as (b & Eb & Hb); [repeat constructor; lia|lia|cbn; lia|]. unfold ghost_sum2, gs_next, next_grid_along. rewrite Eb. exists b. rewrite E. do 2 eexists. split; [reflexivity|auto]. }
  split; [apply not_finished; auto; nia|now apply all_sending].
Qed.
Lemma periodic_deadlock3 add times0 pz py px n0 n1 n2 g f bz by_ bx (m : Z -> @lmemT T) : 1 <= pz -> 1 <= py -> 1 <= px ->
  ~ finished (start (pz * py * px) (ghost_sum3 add times0 true pz py px n0 n1 n2 g f bz by_ bx) m) /\ forall c, ~ bstep false (start (pz * py * px) (ghost_sum3 add times0 true pz py px n0 n1 n2 g f bz by_ bx) m) c.
Proof.
  intros H0 H1 H2. assert (E : pz * py * px = zprod [pz; py; px]) by (cbn [zprod]; lia).
  assert (H : forall r, 0 <= r < pz * py * px -> exists b d p, ghost_sum3 add times0 true pz py px n0 n1 n2 g f bz by_ bx r = BSend (Some b) d :: p /\ 0 <= b < pz * py * px).
  { intros r Hr. destruct (periodic_next [pz; py; px] r 0 1) as (b & Eb & Hb); [repeat constructor; lia|lia|cbn; lia|]. unfold ghost_sum3, gs_next3, next_grid_along. rewrite Eb. exists b. rewrite E. do 2 eexists. split; [reflexivity|auto]. }
  assert (1 <= pz * py) by nia. split; [apply not_finished; auto; nia|now apply all_sending].
Qed.
End Periodic.
