(** Proofs about the Green's function and the convolution. *)
From Coq Require Import Reals Lra FunctionalExtensionality.
From Coquelicot Require Import Complex.
From Verif Require Import Base SpecGrid SpecFourier SpecDouble SpecStep SpecGreens FourierThms Greens GhostGeo.
From Verif Require StepProofs PoissonProofs CartFacts.
Open Scope Z_scope.

(** ** The real transform pair *)
Lemma cis_neg_conj t : Cconj (cis t) = cis (- t).
Proof. unfold Cconj, cis. cbn [fst snd]. now rewrite cos_neg, sin_neg. Qed.
Lemma csum_conj {A} (f : A -> C) l : Cconj (csum f l) = csum (fun x => Cconj (f x)) l.
Proof.
  induction l as [|a l IH]. { rewrite !csum_nil. unfold Cconj, RtoC. cbn. f_equal. ring. }
  rewrite !csum_cons, <- IH. unfold Cconj, Cplus. cbn [fst snd]. f_equal. ring.
Qed.
Lemma conj_mult (a b : C) : Cconj (a * b)%C = (Cconj a * Cconj b)%C.
Proof. unfold Cconj, Cmult. cbn [fst snd]. f_equal; ring. Qed.
Lemma conj_R x : Cconj (RtoC x) = RtoC x.
Proof. unfold Cconj, RtoC. cbn. f_equal. ring. Qed.
Lemma conj_conj a : Cconj (Cconj a) = a.
Proof. destruct a as [x y]. unfold Cconj. cbn. f_equal. ring. Qed.

Lemma angle_mod M : Forall (fun m => 1 <= m) M -> forall K J, length K = length M -> cis (angle M (vmod K M) J) = cis (angle M K J).
Proof.
  induction M as [|m M IH]; intros HM K J HK; destruct K as [|k K]; try discriminate; [reflexivity|].
  inversion HM as [|? ? Hm HM']; subst. injection HK as HK. destruct J as [|j J]; [reflexivity|]. cbn [vmod angle].
  rewrite !cis_plus, IH by assumption. f_equal.
  assert (Mne : IZR m <> 0%R) by (apply not_0_IZR; lia).
  replace (2 * PI * IZR (k * j) / IZR m)%R with (2 * PI * IZR (k mod m * j) / IZR m + 2 * PI * IZR (k / m * j))%R.
  - rewrite cis_plus, cis_period. ring.
  - rewrite (Z.div_mod k m) at 3 by lia. rewrite !mult_IZR, plus_IZR, mult_IZR. field. exact Mne.
Qed.
Lemma angle_neg M : forall K J, length K = length M -> angle M (vneg K) J = (- angle M K J)%R.
Proof.
  induction M as [|m M IH]; intros K J HK; destruct K as [|k K]; try discriminate; cbn [vneg map angle]; [ring|].
  destruct J as [|j J]; [ring|]. injection HK as HK. change (map Z.opp K) with (vneg K). rewrite IH by assumption. rewrite Z.mul_opp_l, opp_IZR. unfold Rdiv. ring.
Qed.
Lemma vneg_len K : length (vneg K) = length K. Proof. apply map_length. Qed.
Lemma dft_negated M (a : list Z -> R) K : Forall (fun m => 1 <= m) M -> inb M K ->
  Cconj (dft M (fun P => RtoC (a P)) (negated M K)) = dft M (fun P => RtoC (a P)) K.
Proof.
  intros HM HK. unfold dft, negated. rewrite csum_conj. apply csum_ext. intros J HJ. rewrite conj_mult, conj_R. f_equal.
  rewrite cis_neg_conj, Ropp_involutive. apply inb_len in HK.
  rewrite angle_mod by (rewrite ?vneg_len; assumption). now rewrite angle_neg by assumption.
Qed.
Lemma negated_inb M K : Forall (fun m => 1 <= m) M -> inb M K -> inb M (negated M K).
Proof. intros HM HK. apply vmod_inb; [assumption|]. rewrite vneg_len. now apply inb_len. Qed.

Lemma idft_ext M A B P : (forall K, inb M K -> A K = B K) -> idft M A P = idft M B P.
Proof. intros H. unfold idft. f_equal. apply csum_ext. intros K HK. rewrite H; [reflexivity|]. now apply all_cells_In. Qed.

Theorem transform_convolution M kept fwd bwd G vol v P : Forall (fun m => 1 <= m) M -> half_spectrum M kept -> is_forward M kept fwd -> is_backward M kept bwd ->
  inb M P -> greens_convolution fwd bwd G vol v P = (vol * circular M v G P)%R.
Proof.
  intros HM HH HF HB HP. unfold greens_convolution. rewrite HB by assumption.
  set (va := fun Q => RtoC (v Q)). set (ga := fun Q => RtoC (G Q)).
  rewrite (idft_ext M _ (fun K => (dft M va K * (dft M ga K * RtoC vol))%C)).
  2:{ intros K HK. unfold hermitian. destruct (kept K) eqn:E.
      - now rewrite !HF by assumption.
      - destruct (HH K HK) as [X|X]; [congruence|]. pose proof (negated_inb M K HM HK).
        rewrite !HF by assumption. rewrite !conj_mult, conj_R. unfold va, ga. now rewrite !dft_negated by assumption. }
  assert (E : idft M (fun K => (dft M va K * (dft M ga K * RtoC vol))%C) P = (idft M (fun K => dft M va K * dft M ga K) P * RtoC vol)%C).
  { unfold idft. rewrite <- Cmult_assoc. f_equal. rewrite <- csum_scal_r. apply csum_ext. intros K _. ring. }
  rewrite E. unfold va, ga. rewrite dft_convolution by (try assumption; now apply inb_len). rewrite <- RtoC_mult. cbn. ring.
Qed.

(** The DFT formulas themselves, with all or about half of the frequencies stored, meet the contract. *)
Lemma forward_dft M kept : is_forward M kept (fun a => dft M (fun P => RtoC (a P))).
Proof. intros a K _ _. reflexivity. Qed.
Lemma backward_idft M kept : is_backward M kept (fun A P => Re (idft M (hermitian M kept A) P)).
Proof. intros A P _. reflexivity. Qed.

(** ** From the circular convolution to the free-space one *)
Lemma rsum_ext {A} (f g : A -> R) l : (forall x, In x l -> f x = g x) -> rsum f l = rsum g l.
Proof. induction l as [|a l IH]; intros H; [reflexivity|]. rewrite !rsum_cons, (H a), IH; auto with datatypes. Qed.
Lemma rsum_app {A} (f : A -> R) l k : rsum f (l ++ k) = (rsum f l + rsum f k)%R.
Proof. induction l as [|a l IH]; cbn [app]; [cbn; ring|]. rewrite !rsum_cons, IH. ring. Qed.
Lemma rsum_map {A B} (f : B -> R) (h : A -> B) l : rsum f (map h l) = rsum (fun x => f (h x)) l.
Proof. induction l as [|a l IH]; [reflexivity|]. cbn [map]. now rewrite !rsum_cons, IH. Qed.
Lemma rsum_zero {A} (l : list A) : rsum (fun _ => 0%R) l = 0%R.
Proof. induction l as [|a l IH]; [reflexivity|]. rewrite rsum_cons, IH. ring. Qed.
Lemma rsum_perm {A} (f : A -> R) l k : Permutation.Permutation l k -> rsum f l = rsum f k.
Proof. induction 1; rewrite ?rsum_cons; try lra; congruence. Qed.
Lemma rsum_filter {A} (f : A -> R) (p : A -> bool) l : rsum (fun x => if p x then f x else 0%R) l = rsum f (filter p l).
Proof. induction l as [|a l IH]; [reflexivity|]. cbn [filter]. rewrite rsum_cons, IH. destruct (p a); [reflexivity|ring]. Qed.

Definition twice (N : list Z) : list Z := map (Z.mul 2) N.
Lemma twice_inb N P : inb N P -> inb (twice N) P.
Proof. induction 1; cbn; constructor; auto; lia. Qed.

Lemma rsum_inside N (f : list Z -> R) : rsum (fun Q => if inbb N Q then f Q else 0%R) (all_cells (twice N)) = rsum f (all_cells N).
Proof.
  rewrite rsum_filter. apply rsum_perm. apply Permutation.NoDup_Permutation; [apply NoDup_filter, all_cells_NoDup|apply all_cells_NoDup|].
  intros Q. rewrite filter_In, !all_cells_In, StepProofs.inbb_spec. split; [tauto|]. intros H. split; [now apply twice_inb|exact H].
Qed.

(** The signed offset between two cells of the domain is, up to sign, the position on the doubled axis seen from its nearest end. *)
Lemma nearest_offset N : Forall (fun n => 1 <= n) N -> forall P Q, inb N P -> inb N Q ->
  nearest_end N (vmod (vsub P Q) (twice N)) = map Z.abs (vsub P Q).
Proof.
  induction N as [|n N IH]; intros HN P Q HP HQ; inversion HP as [|? ? p P' Hp HP']; inversion HQ as [|? ? q Q' Hq HQ']; subst; [reflexivity|].
  inversion HN; subst. cbn [twice vsub map vmod nearest_end]. change (map (Z.mul 2) N) with (twice N). rewrite IH by assumption. f_equal.
  destruct (Z.le_gt_cases q p).
  - rewrite Z.mod_small by lia. lia.
  - replace (p - q) with (p - q + 2 * n + (-1) * (2 * n)) at 1 2 by ring. rewrite Z.mod_add, Z.mod_small by lia. lia.
Qed.
Lemma twice_pos N : Forall (fun n => 1 <= n) N -> Forall (fun n => 1 <= n) (twice N).
Proof. intros H. apply Forall_map. eapply Forall_impl; [|exact H]. cbn. intros; lia. Qed.

Theorem circular_free N G green u P : Forall (fun n => 1 <= n) N -> inb N P ->
  (forall K, inb (twice N) K -> G K = green (nearest_end N K)) -> (forall D, green (map Z.abs D) = green D) ->
  circular (twice N) (pad N u (fun _ => 0%R)) G P = rsum (fun Q => (green (vsub P Q) * u Q)%R) (all_cells N).
Proof.
  intros HN HP HG HE. unfold circular. rewrite <- (rsum_inside N). apply rsum_ext. intros Q HQ. unfold pad.
  destruct (inbb N Q) eqn:E; [|ring]. apply StepProofs.inbb_spec in E.
  rewrite HG.
  - rewrite nearest_offset, HE by assumption. ring.
  - apply vmod_inb; [now apply twice_pos|]. rewrite vsub_length by (apply inb_len in HP, E; congruence). unfold twice. rewrite map_length. now apply inb_len.
Qed.

(** ** The local Green's function arrays *)
Lemma coord_value dx start len k : 2 <= len -> local_coord dx start len k = (IZR (start + k) * dx)%R.
Proof.
  intros H. unfold local_coord, linspace. rewrite !minus_IZR, !plus_IZR. field.
  assert (IZR len - 1 <> 0)%R; [|assumption]. rewrite <- minus_IZR. apply not_0_IZR. lia.
Qed.
Lemma reflect_value dx n p : (0 <= dx)%R -> even_reflection (IZR n * dx)%R (IZR p * dx)%R = (IZR (Z.min p (2 * n - p)) * dx)%R.
Proof.
  intros H. unfold even_reflection. replace (2 * (IZR n * dx) - IZR p * dx)%R with (IZR (2 * n - p) * dx)%R by (rewrite minus_IZR, mult_IZR; ring).
  destruct (Z.le_ge_cases p (2 * n - p)) as [L|L].
  - rewrite Z.min_l by lia. apply Rmin_left. apply Rmult_le_compat_r; [assumption|]. now apply IZR_le.
  - rewrite Z.min_r by lia. apply Rmin_right. apply Rmult_le_compat_r; [assumption|]. apply IZR_le. lia.
Qed.

Lemma abs_sum D : fold_right (fun d s => d * d + s) 0 (map Z.abs D) = fold_right (fun d s => d * d + s) 0 D.
Proof. induction D as [|d D IH]; cbn; [reflexivity|]. rewrite IH. lia. Qed.
Lemma abs_zero D : forallb (Z.eqb 0) (map Z.abs D) = forallb (Z.eqb 0) D.
Proof. induction D as [|d D IH]; [reflexivity|]. cbn [map forallb]. rewrite IH. f_equal. destruct (Z.eqb_spec 0 (Z.abs d)), (Z.eqb_spec 0 d); lia || reflexivity. Qed.
Lemma free_green_2d_even dx D : free_green_2d dx (map Z.abs D) = free_green_2d dx D.
Proof. unfold free_green_2d, offset_length. now rewrite abs_sum, abs_zero. Qed.
Lemma free_green_3d_even dx D : free_green_3d dx (map Z.abs D) = free_green_3d dx D.
Proof. unfold free_green_3d, offset_length. now rewrite abs_sum, abs_zero. Qed.

Lemma dist_value dx s : (0 <= dx)%R -> 0 <= s -> sqrt (IZR s * (dx * dx)) = (dx * sqrt (IZR s))%R.
Proof. intros H Hs. rewrite sqrt_mult, sqrt_square; [ring|assumption|now apply IZR_le|]. now apply Rmult_le_pos. Qed.
Lemma dist_pos dx s : (0 < dx)%R -> 0 < s -> (0 < dx * sqrt (IZR s))%R.
Proof. intros H Hs. apply Rmult_lt_0_compat; [assumption|]. apply sqrt_lt_R0. now apply IZR_lt. Qed.

Section TwoD.
Variables (x_range : R) (gny gnx sy sx ly lx i j : Z).
Hypotheses (Hx : (0 < x_range)%R) (Hny : 1 <= gny) (Hnx : 1 <= gnx) (Hly : 2 <= ly) (Hlx : 2 <= lx).
Hypotheses (Hsy : 0 <= sy) (Hsx : 0 <= sx) (Hi : 0 <= i) (Hj : 0 <= j) (Hey : sy + i < 2 * gny) (Hex : sx + j < 2 * gnx).
Let dx := (x_range / IZR gnx)%R.
Let gne : IZR gnx <> 0%R. Proof. apply not_0_IZR. lia. Qed.
Let dxp : (0 < dx)%R. Proof. apply Rdiv_lt_0_compat; [assumption|]. apply IZR_lt. lia. Qed.

Lemma greens_2d_value : greens_2d x_range gny gnx sy sx ly lx i j = Some (free_green_2d dx (nearest_end [gny; gnx] [sy + i; sx + j])).
Proof.
  unfold greens_2d. fold dx. cbn [nearest_end]. rewrite !coord_value by assumption.
  replace (x_range * (IZR gny / IZR gnx))%R with (IZR gny * dx)%R by (unfold dx; field; exact gne).
  replace x_range with (IZR gnx * dx)%R by (unfold dx; field; exact gne).
  rewrite !reflect_value by lra. unfold free_green_2d, offset_length. cbn [forallb fold_right].
  set (a := Z.min (sy + i) (2 * gny - (sy + i))). set (b := Z.min (sx + j) (2 * gnx - (sx + j))).
  replace (sqrt ((IZR b * dx) ^ 2 + (IZR a * dx) ^ 2)) with (dx * sqrt (IZR (a * a + (b * b + 0))))%R.
  2:{ rewrite <- dist_value by (try lra; nia). f_equal. rewrite !plus_IZR, !mult_IZR. ring. }
  destruct (Z.eqb_spec 0 a) as [Ea|Ea]; [destruct (Z.eqb_spec 0 b) as [Eb|Eb]|].
  - assert (sy = 0 /\ i = 0 /\ sx = 0 /\ j = 0) as [-> [-> [-> ->]]] by (unfold a, b in *; lia). reflexivity.
  - replace ((sy =? 0) && (sx =? 0) && ((i =? 0) && (j =? 0))) with false.
    2:{ symmetry. destruct (Z.eqb_spec sx 0), (Z.eqb_spec j 0); rewrite ?andb_false_r; try reflexivity. exfalso. unfold b in *. lia. }
    cbn [andb]. pose proof (dist_pos dx (a * a + (b * b + 0)) dxp ltac:(nia)). destruct (Req_EM_T _ 0); [lra|reflexivity].
  - replace ((sy =? 0) && (sx =? 0) && ((i =? 0) && (j =? 0))) with false.
    2:{ symmetry. destruct (Z.eqb_spec sy 0), (Z.eqb_spec i 0); rewrite ?andb_false_r; try reflexivity. exfalso. unfold a in *. lia. }
    cbn [andb]. pose proof (dist_pos dx (a * a + (b * b + 0)) dxp ltac:(nia)). destruct (Req_EM_T _ 0); [lra|reflexivity].
Qed.
End TwoD.

Section ThreeD.
Variables (x_range : R) (gnz gny gnx sz sy sx lz ly lx i j k : Z).
Hypotheses (Hx : (0 < x_range)%R) (Hnz : 1 <= gnz) (Hny : 1 <= gny) (Hnx : 1 <= gnx) (Hlz : 2 <= lz) (Hly : 2 <= ly) (Hlx : 2 <= lx).
Hypotheses (Hsz : 0 <= sz) (Hsy : 0 <= sy) (Hsx : 0 <= sx) (Hi : 0 <= i) (Hj : 0 <= j) (Hk : 0 <= k) (Hez : sz + i < 2 * gnz) (Hey : sy + j < 2 * gny) (Hex : sx + k < 2 * gnx).
Let dx := (x_range / IZR gnx)%R.
Let gne : IZR gnx <> 0%R. Proof. apply not_0_IZR. lia. Qed.
Let dxp : (0 < dx)%R. Proof. apply Rdiv_lt_0_compat; [assumption|]. apply IZR_lt. lia. Qed.

Lemma greens_3d_value : greens_3d x_range gnz gny gnx sz sy sx lz ly lx i j k = Some (free_green_3d dx (nearest_end [gnz; gny; gnx] [sz + i; sy + j; sx + k])).
Proof.
  unfold greens_3d. fold dx. cbn [nearest_end]. rewrite !coord_value by assumption.
  replace (x_range * (IZR gny / IZR gnx))%R with (IZR gny * dx)%R by (unfold dx; field; exact gne).
  replace (x_range * (IZR gnz / IZR gnx))%R with (IZR gnz * dx)%R by (unfold dx; field; exact gne).
  replace x_range with (IZR gnx * dx)%R by (unfold dx; field; exact gne).
  rewrite !reflect_value by lra. unfold free_green_3d, offset_length. cbn [forallb fold_right].
  set (a := Z.min (sz + i) (2 * gnz - (sz + i))). set (b := Z.min (sy + j) (2 * gny - (sy + j))). set (c := Z.min (sx + k) (2 * gnx - (sx + k))).
  replace (sqrt ((IZR c * dx) ^ 2 + (IZR b * dx) ^ 2 + (IZR a * dx) ^ 2)) with (dx * sqrt (IZR (a * a + (b * b + (c * c + 0)))))%R.
  2:{ rewrite <- dist_value by (try lra; nia). f_equal. rewrite !plus_IZR, !mult_IZR. ring. }
  set (at0 := (sz =? 0) && (sy =? 0) && (sx =? 0) && ((i =? 0) && (j =? 0) && (k =? 0))).
  assert (A0 : at0 = (0 =? a) && ((0 =? b) && ((0 =? c) && true))).
  { apply Bool.eq_iff_eq_true. unfold at0. rewrite !andb_true_iff, !Z.eqb_eq. unfold a, b, c. lia. }
  rewrite A0. destruct ((0 =? a) && ((0 =? b) && ((0 =? c) && true))) eqn:E; [reflexivity|].
  assert (NE : 0 < a * a + (b * b + (c * c + 0))).
  { rewrite !andb_false_iff, !Z.eqb_neq in E. assert (a <> 0 \/ b <> 0 \/ c <> 0) by (destruct E as [E|[E|[E|E]]]; [lia|lia|lia|discriminate]). nia. }
  pose proof (dist_pos dx _ dxp NE) as DP. destruct (Req_EM_T _ 0); [lra|].
  f_equal. field. pose proof PI_neq0. repeat split; try assumption; try lra; intros Z0; rewrite Z0 in DP; lra.
Qed.
End ThreeD.

(** ** All the ranks *)
Section Ranks.
Variables (py px ny nx : Z) (x_range : R).
Hypotheses (Hpy : 1 <= py) (Hpx : 1 <= px) (Hny : 1 <= ny) (Hnx : 1 <= nx) (Hx : (0 < x_range)%R).
Let dims := [py; px].
Let dl := doubled [ny; nx].
Let dx := (x_range / IZR (px * nx))%R.
Lemma rank_greens_2d_value r I : 0 <= r < py * px -> inb dl I ->
  rank_greens_2d x_range py px ny nx r I = Some (free_green_2d dx (nearest_end [py * ny; px * nx] (vadd (block_start dims dl r) I))).
Proof.
  intros Hr HI. unfold rank_greens_2d, block_start. fold dims. fold dl.
  assert (HU : inb dims (unravel dims r)). { apply unravel_inb; [repeat constructor; assumption|]. cbn [dims zprod]. lia. }
  set (U := unravel dims r) in *. clearbody U. unfold dl, doubled, dims in *. cbn [map] in *.
  inversion HU as [|? ? c0 U' H0 HU']; subst. inversion HU' as [|? ? c1 U'' H1 HU'']; subst. inversion HU''; subst. cbn [vmul vadd].
  inversion HI as [|? ? i I' Hi HI']; subst. inversion HI' as [|? ? j I'' Hj HI'']; subst. inversion HI''; subst.
  cbn [vadd]. apply greens_2d_value; try assumption; try lia; nia.
Qed.
Lemma distributed_2d P : inb (twice [py * ny; px * nx]) P ->
  distributed dims dl (rank_greens_2d x_range py px ny nx) P = free_green_2d dx (nearest_end [py * ny; px * nx] P).
Proof.
  intros HP.
  assert (OK : grid_ok dims dl) by (apply PoissonProofs.ok2; lia).
  assert (HP' : inb (vmul dims dl) P). { unfold dims, dl, doubled. cbn in *. replace (py * (2 * ny)) with (2 * (py * ny)) by ring. replace (px * (2 * nx)) with (2 * (px * nx)) by ring. exact HP. }
  assert (HD : inb dims (vdiv P dl) /\ inb dl (vmod P dl)) by (apply (CartFacts.vdivmod_inb dims dl P); [apply OK|apply OK|exact HP']).
  destruct HD as [HD HM]. unfold distributed. rewrite rank_greens_2d_value.
  - f_equal. f_equal. unfold block_start. rewrite unravel_ravel by exact HD.
    replace P with (vadd (vmul (vdiv P dl) dl) (vmod P dl)) at 3; [reflexivity|]. apply CartFacts.vdivmod_eq; [apply inb_len in HP'; exact HP'|apply OK].
  - pose proof (ravel_bound dims (vdiv P dl) HD). cbn [dims zprod] in *. lia.
  - exact HM.
Qed.
End Ranks.

Section Ranks3.
Variables (pz py px n0 n1 n2 : Z) (x_range : R).
Hypotheses (Hpz : 1 <= pz) (Hpy : 1 <= py) (Hpx : 1 <= px) (Hn0 : 1 <= n0) (Hn1 : 1 <= n1) (Hn2 : 1 <= n2) (Hx : (0 < x_range)%R).
Let dims := [pz; py; px].
Let dl := doubled [n0; n1; n2].
Let dx := (x_range / IZR (px * n2))%R.
Lemma rank_greens_3d_value r I : 0 <= r < zprod dims -> inb dl I ->
  rank_greens_3d x_range pz py px n0 n1 n2 r I = Some (free_green_3d dx (nearest_end [pz * n0; py * n1; px * n2] (vadd (block_start dims dl r) I))).
Proof.
  intros Hr HI. unfold rank_greens_3d, block_start. fold dims. fold dl.
  assert (HU : inb dims (unravel dims r)). { apply unravel_inb; [repeat constructor; assumption|exact Hr]. }
  set (U := unravel dims r) in *. clearbody U. unfold dl, doubled, dims in *. cbn [map] in *.
  inversion HU as [|? ? c0 U' H0 HU']; subst. inversion HU' as [|? ? c1 U'' H1 HU'']; subst. inversion HU'' as [|? ? c2 U3 H2 HU3]; subst. inversion HU3; subst. cbn [vmul vadd].
  inversion HI as [|? ? i I' Hi HI']; subst. inversion HI' as [|? ? j I'' Hj HI'']; subst. inversion HI'' as [|? ? k I3 Hk HI3]; subst. inversion HI3; subst.
  cbn [vadd]. apply greens_3d_value; try assumption; try lia; nia.
Qed.
Lemma distributed_3d P : inb (twice [pz * n0; py * n1; px * n2]) P ->
  distributed dims dl (rank_greens_3d x_range pz py px n0 n1 n2) P = free_green_3d dx (nearest_end [pz * n0; py * n1; px * n2] P).
Proof.
  intros HP.
  assert (OK : grid_ok dims dl) by (apply PoissonProofs.ok3; lia).
  assert (HP' : inb (vmul dims dl) P). { unfold dims, dl, doubled. cbn in *. replace (pz * (2 * n0)) with (2 * (pz * n0)) by ring. replace (py * (2 * n1)) with (2 * (py * n1)) by ring. replace (px * (2 * n2)) with (2 * (px * n2)) by ring. exact HP. }
  assert (HD : inb dims (vdiv P dl) /\ inb dl (vmod P dl)) by (apply (CartFacts.vdivmod_inb dims dl P); [apply OK|apply OK|exact HP']).
  destruct HD as [HD HM]. unfold distributed. rewrite rank_greens_3d_value.
  - f_equal. f_equal. unfold block_start. rewrite unravel_ravel by exact HD.
    replace P with (vadd (vmul (vdiv P dl) dl) (vmod P dl)) at 3; [reflexivity|]. apply CartFacts.vdivmod_eq; [apply inb_len in HP'; exact HP'|apply OK].
  - pose proof (ravel_bound dims (vdiv P dl) HD). assumption.
  - exact HM.
Qed.
End Ranks3.

(** ** The solver *)
Lemma solve_all_free N conv green vol solves (u : nat -> list Z -> R) :
  (forall v P, inb N P -> conv (pad N v (fun _ => 0%R)) P = free_space green vol N v P) ->
  solve_all conv 0%R N solves u = free_solves green vol N solves u.
Proof.
  intros H. revert u. induction solves as [|sr solves IH]; intros u; [reflexivity|].
  unfold solve_all, free_solves. cbn [fold_left].
  assert (E : solve_effect conv 0%R N u sr = free_solve green vol N u sr).
  { extensionality f. extensionality P. unfold solve_effect, free_solve. destruct (Nat.eqb f (fst sr)); [|reflexivity]. cbn [andb].
    unfold pad at 1. destruct (inbb N P) eqn:E; [|reflexivity]. unfold poisson. apply H. now apply StepProofs.inbb_spec. }
  rewrite E. apply IH.
Qed.

Lemma conv_2d fwd bwd kept x_range py px ny nx v P : 1 <= py -> 1 <= px -> 1 <= ny -> 1 <= nx -> (0 < x_range)%R ->
  let N := [py * ny; px * nx] in let M := doubled N in
  half_spectrum M kept -> is_forward M kept fwd -> is_backward M kept bwd -> inb N P ->
  poisson_convolution_2d fwd bwd x_range py px ny nx (pad N v (fun _ => 0%R)) P = free_space (free_green_2d (x_range / IZR (px * nx))) ((x_range / IZR (px * nx)) ^ 2) N v P.
Proof.
  intros Hpy Hpx Hny Hnx Hx N M HH HF HB HP. unfold poisson_convolution_2d.
  assert (HN : Forall (fun n => 1 <= n) N) by (repeat constructor; nia).
  rewrite (transform_convolution M kept); [|apply twice_pos; exact HN|assumption|assumption|assumption|apply twice_inb; exact HP].
  unfold free_space. f_equal. apply (circular_free N); [assumption|assumption| |apply free_green_2d_even].
  intros K HK. now apply distributed_2d.
Qed.
Lemma conv_3d fwd bwd kept x_range pz py px n0 n1 n2 v P : 1 <= pz -> 1 <= py -> 1 <= px -> 1 <= n0 -> 1 <= n1 -> 1 <= n2 -> (0 < x_range)%R ->
  let N := [pz * n0; py * n1; px * n2] in let M := doubled N in
  half_spectrum M kept -> is_forward M kept fwd -> is_backward M kept bwd -> inb N P ->
  poisson_convolution_3d fwd bwd x_range pz py px n0 n1 n2 (pad N v (fun _ => 0%R)) P = free_space (free_green_3d (x_range / IZR (px * n2))) ((x_range / IZR (px * n2)) ^ 3) N v P.
Proof.
  intros Hpz Hpy Hpx Hn0 Hn1 Hn2 Hx N M HH HF HB HP. unfold poisson_convolution_3d.
  assert (HN : Forall (fun n => 1 <= n) N) by (repeat constructor; nia).
  rewrite (transform_convolution M kept); [|apply twice_pos; exact HN|assumption|assumption|assumption|apply twice_inb; exact HP].
  unfold free_space. f_equal. apply (circular_free N); [assumption|assumption| |apply free_green_3d_even].
  intros K HK. now apply distributed_3d.
Qed.

(** Storing the frequencies 0..m/2 of one axis is enough. *)
Lemma nth_vmod : forall M K a, length K = length M -> (a < length M)%nat -> nth a (vmod K M) 0 = nth a K 0 mod nth a M 0.
Proof.
  induction M as [|m M IH]; intros [|k K] [|a] HK Ha; cbn in *; try discriminate; try lia; try reflexivity. apply IH; lia.
Qed.
Lemma nth_vneg K a : nth a (vneg K) 0 = - nth a K 0.
Proof. unfold vneg. change 0 with (- 0) at 1. now rewrite map_nth. Qed.
Lemma nth_inb M : forall K a, inb M K -> (a < length M)%nat -> 0 <= nth a K 0 < nth a M 0.
Proof. induction M as [|m M IH]; intros K [|a] HK Ha; inversion HK; subst; cbn in *; try lia. apply IH; [assumption|lia]. Qed.
Lemma half_axis M a : Forall (fun m => 1 <= m) M -> (a < length M)%nat -> half_spectrum M (fun K => nth a K 0 <=? nth a M 0 / 2).
Proof.
  intros HM Ha K HK. pose proof (nth_inb M K a HK Ha) as B. unfold negated. rewrite nth_vmod by (rewrite ?vneg_len; try assumption; now apply inb_len).
  rewrite nth_vneg. set (k := nth a K 0) in *. set (m := nth a M 0) in *. destruct (Z.leb_spec k (m / 2)) as [L|L]; [now left|right].
  apply Z.leb_le. assert (k <> 0). { intros ->. pose proof (Z.div_pos m 2). lia. }
  replace (- k) with (m - k + (-1) * m) by ring. rewrite Z.mod_add, Z.mod_small by lia.
  pose proof (Z.div_mod m 2 ltac:(lia)). pose proof (Z.mod_pos_bound m 2 ltac:(lia)). lia.
Qed.
