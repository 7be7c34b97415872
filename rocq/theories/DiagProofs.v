From Coq Require Import Reals Lra Permutation.
From Verif Require Import Base SpecGrid SpecGhost SpecGhostSum SpecStencil SpecReduce ReduceProofs Comm GhostGeo FieldProofs GhostSumHops SpecIO IoEulProofs Diagnostics SpecDiag.
Open Scope Z_scope.

Lemma ordered_R : ordered Rle Rmin Rmax.
Proof.
  split; intros.
  - apply Rle_refl.
  - lra.
  - lra.
  - lra.
  - unfold Rmin. destruct (Rle_dec a b); repeat split; auto; lra.
  - unfold Rmax. destruct (Rle_dec a b); repeat split; auto; lra.
Qed.

Section Amax.
Context {T : Type}.
Variables (le : T -> T -> Prop) (mn mx : T -> T -> T).
Hypothesis Ord : ordered le mn mx.
Lemma fold_mx_spec l : forall x, (fold_left mx l x = x \/ In (fold_left mx l x) l) /\ le x (fold_left mx l x) /\ (forall y, In y l -> le y (fold_left mx l x)).
Proof.
  destruct Ord as [R0 Tr As To Mn Mx].
  induction l as [|a l IH]; intros x; cbn [fold_left]; [repeat split; auto; intros ? []|]. destruct (IH (mx x a)) as (H1 & H2 & H3).
  destruct (Mx x a) as (E & L1 & L2). repeat split.
  - destruct H1 as [->|H1]; [|right; now right]. destruct E as [-> | -> ]; [now left|right; now left].
  - eapply Tr; [exact L1|exact H2].
  - intros y [<-|Hy]; [eapply Tr; [exact L2|exact H2]|auto].
Qed.
Lemma amax_spec l x : amax mx l = Some x -> In x l /\ (forall y, In y l -> le y x).
Proof.
  destruct l as [|a l]; [discriminate|]. cbn [amax]. intros [= <-]. destruct (fold_mx_spec l a) as (H1 & H2 & H3). split.
  - destruct H1 as [->|H1]; [now left|now right].
  - intros y [<-|Hy]; auto.
Qed.
Lemma amax_some l : l <> [] -> exists x, amax mx l = Some x.
Proof. destruct l; [contradiction|]. cbn [amax]. eauto. Qed.
End Amax.

Lemma slice_cells_eq loc g : 1 <= g -> positive loc -> slice_cells (ghosted g loc) g = box (map (fun _ => g) loc) loc.
Proof.
  intros Hg Hp. unfold slice_cells, ghosted. rewrite !map_map. f_equal. rewrite <- (map_id loc) at 2. unfold positive in Hp. rewrite Forall_forall in Hp. apply map_ext_in.
  intros n Hn. specialize (Hp n Hn). unfold py_slice. destruct (Z.eqb_spec g 0); [lia|]. cbn [snd]. lia.
Qed.
Lemma inner_box_eq loc g : box (map (fun _ => g) loc) loc = map (map (fun i => i + g)) (all_cells loc).
Proof.
  unfold all_cells. transitivity (box (vadd (map (fun _ => 0) loc) (map (fun _ => g) loc)) loc).
  - f_equal. rewrite vadd_zeros_l; auto. now rewrite map_length.
  - rewrite box_shift by (rewrite ?map_length; auto). apply map_ext_in. intros x Hx. apply inb_box_In in Hx. apply inb_length in Hx. now apply vadd_const.
Qed.
Lemma all_cells_nonempty loc : positive loc -> all_cells loc <> [].
Proof.
  intros H E. assert (In (map (fun _ => 0) loc) (all_cells loc)); [|rewrite E in *; contradiction].
  apply inb_box_In. clear E. induction H as [|n loc Hn H IH]; cbn [map]; constructor; auto; lia.
Qed.
Lemma slice_cells_zero loc : loc <> [] -> slice_cells (ghosted 0 loc) 0 = [].
Proof. destruct loc as [|n loc]; [contradiction|]. intros _. unfold slice_cells, ghosted. cbn [map box]. reflexivity. Qed.

Section P.
Variables (dims loc : list Z) (g : Z).
Hypothesis Hok : grid_ok dims loc.
Hypothesis Hg : 1 <= g.
Notation n := (zprod dims).
Notation sizes := (ghosted g loc).
Let Hlen : length loc = length dims. Proof. now destruct Hok. Qed.
Let Hloc : positive loc. Proof. now destruct Hok. Qed.

Lemma ranks_nonempty : 0 < n.
Proof. destruct Hok as [_ H _]. pose proof (zprod_pos dims H). lia. Qed.

(** a maximum over the cells of all blocks is a maximum over all cells *)
Lemma slice_map {A} (F : Z -> A) : map (fun I => F (ravel sizes I)) (slice_cells sizes g) = map (fun x => F (ravel sizes (map (fun i => i + g) x))) (all_cells loc).
Proof. rewrite slice_cells_eq by auto. rewrite inner_box_eq, map_map. reflexivity. Qed.

Lemma combines_exists {T} (op : T -> T -> T) v l : l <> [] -> exists x, combines op v l x.
Proof.
  induction l as [|r l IH]; [contradiction|]. intros _. destruct l as [|r' l]; [exists (v r); constructor|]. destruct IH as (t & Ht); [discriminate|].
  exists (op (v r) t). exact (comb_two _ _ [r] _ _ _ (comb_one _ _ r) Ht).
Qed.

Section Any.
Context {T W : Type}.
Variables (mag : list T -> T) (lim : T -> W) (pre : W -> W).
Variables (le : T -> T -> Prop) (mnT mx : T -> T -> T) (leW : W -> W -> Prop) (mn mxW : W -> W -> W).
Hypothesis OrdT : ordered le mnT mx.
Hypothesis OrdW : ordered leW mn mxW.
Hypothesis Anti : forall k l, le (mag k) (mag l) -> leW (lim (mag l)) (lim (mag k)).

Lemma mag_ok vel buf (m : mem T) u r x : represents dims loc g vel m u -> 0 <= r < n -> inb loc x ->
  store_magnitude loc g mag vel buf m (r, (buf, ravel sizes (map (fun i => i + g) x))) = speed mag u vel (vadd (block_start dims loc r) x).
Proof.
  intros Hu Hr Hx. unfold store_magnitude. rewrite Nat.eqb_refl.
  assert (B : 0 <= ravel sizes (map (fun i => i + g) x) < zprod sizes) by (apply ravel_bound, inner_inb; [lia|now apply add_g_inner]).
  replace (0 <=? _) with true by (symmetry; apply Z.leb_le; lia). replace (_ <? _) with true by (symmetry; apply Z.ltb_lt; lia). cbn [andb].
  unfold speed. f_equal. apply map_ext_in. intros f Hf. exact (Hu r f x Hr Hf Hx).
Qed.
Lemma store_frame vel buf (m : mem T) r f i : f <> buf -> store_magnitude loc g mag vel buf m (r, (f, i)) = m (r, (f, i)).
Proof. intros H. unfold store_magnitude. apply Nat.eqb_neq in H. now rewrite H. Qed.

Lemma min_sel v l x : combines mn v l x -> (exists r, In r l /\ x = v r) /\ (forall r, In r l -> leW x (v r)).
Proof.
  destruct OrdW as [R0 Tr As To Mn Mx]. apply combines_sel; auto; [intros a b; apply Mn|intros a b; apply Mn].
Qed.
Lemma max_sel v l x : combines mx v l x -> (exists r, In r l /\ x = v r) /\ (forall r, In r l -> le (v r) x).
Proof.
  destruct OrdT as [R0 Tr As To Mn Mx]. intros H. apply (combines_sel mx (fun a b => le b a)) in H; [exact H| | | |].
  - intros a b. apply Mx.
  - intros a b. destruct (Mx a b) as (_ & L). exact L.
  - intros a b c L1 L2. eapply Tr; eassumption.
  - exact R0.
Qed.

Lemma local_dt_spec vel buf (m : mem T) u r : represents dims loc g vel m u -> 0 <= r < n ->
  exists a, local_dt loc g mag mx lim vel buf m r = Some (lim a) /\ is_max le (inb loc) (fun x => speed mag u vel (vadd (block_start dims loc r) x)) a.
Proof.
  intros Hu Hr. unfold local_dt. rewrite (slice_map (fun i => store_magnitude loc g mag vel buf m (r, (buf, i)))).
  destruct (amax_some mx (map (fun x => store_magnitude loc g mag vel buf m (r, (buf, ravel sizes (map (fun i => i + g) x)))) (all_cells loc))) as (a & Ea).
  { intros E. apply map_eq_nil in E. now apply (all_cells_nonempty loc Hloc). }
  rewrite Ea. exists a. split; [reflexivity|]. apply (amax_spec le mnT mx OrdT) in Ea as [H1 H2]. split.
  - apply in_map_iff in H1 as (x & <- & Hx). apply inb_box_In in Hx. exists x. split; [exact Hx|]. now apply mag_ok.
  - intros x Hx. rewrite <- (mag_ok vel buf m u r x Hu Hr Hx). apply H2. apply in_map_iff. exists x. split; [reflexivity|now apply inb_box_In].
Qed.

Lemma top_exists vel u : exists U, is_max le (inb (global_size dims loc)) (speed mag u vel) U.
Proof.
  destruct (amax_some mx (map (speed mag u vel) (all_cells (global_size dims loc)))) as (b & Eb).
  { intros E. apply map_eq_nil in E. destruct Hok as [L P1 P2].
    assert (X : In (vadd (block_start dims loc 0) (map (fun _ => 0) loc)) (all_cells (global_size dims loc))).
    { apply inb_box_In. apply at_inb; [exact Hok|pose proof ranks_nonempty; lia|]. clear - P2. induction P2 as [|a l Ha P IH]; cbn [map]; constructor; auto; lia. }
    rewrite E in X. destruct X. }
  apply (amax_spec le mnT mx OrdT) in Eb as [B1 B2]. exists b. split.
  - apply in_map_iff in B1 as (p & <- & Hp). exists p. split; [now apply inb_box_In|reflexivity].
  - intros p Hp. apply B2. apply in_map_iff. exists p. split; [reflexivity|now apply inb_box_In].
Qed.
Lemma top_unique vel u a b : is_max le (inb (global_size dims loc)) (speed mag u vel) a -> is_max le (inb (global_size dims loc)) (speed mag u vel) b -> a = b.
Proof.
  intros ((p & Hp & Ea) & A) ((q & Hq & Eb) & B). apply (o_antisym _ _ _ OrdT); [rewrite Ea; now apply B|rewrite Eb; now apply A].
Qed.

Lemma stable_dt_ok vel buf (m : mem T) u x : represents dims loc g vel m u -> stable_dt loc g mag mx lim mn pre n vel buf m x ->
  exists U, is_max le (inb (global_size dims loc)) (speed mag u vel) U /\ x = pre (lim U).
Proof.
  intros Hu (v & t & Hv & Hred & ->). apply min_sel in Hred as [(r & Hr & ->) Hle]. apply zrange_In in Hr.
  assert (Hr' : 0 <= r < n) by lia. clear Hr.
  destruct (local_dt_spec vel buf m u r Hu Hr') as (a & Ea & Ha). rewrite (Hv r Hr') in Ea. injection Ea as Ea.
  destruct (top_exists vel u) as (b & Hb). exists b. split; [exact Hb|]. f_equal. rewrite Ea.
  destruct Hb as ((p & Hp & Ep) & Hb2). destruct (tile_at dims loc p Hok Hp) as (s & y & Hs & Hy & ->).
  destruct Ha as ((y' & Hy' & Ey') & Ha2).
  assert (Hab : le a b) by (rewrite Ey'; apply Hb2; now apply at_inb).
  apply (o_antisym _ _ _ OrdW).
  - destruct (local_dt_spec vel buf m u s Hu Hs) as (a' & Ea' & ((y2 & Hy2 & Ey2) & Ha')). rewrite (Hv s Hs) in Ea'. injection Ea' as Ea'.
    assert (Eab : a' = b). { apply (o_antisym _ _ _ OrdT); [rewrite Ey2; apply Hb2; now apply at_inb|rewrite Ep; now apply Ha']. } rewrite Eab in Ea'.
    rewrite <- Ea, <- Ea'. apply Hle. apply zrange_In. lia.
  - rewrite Ey', Ep in *. unfold speed in *. apply Anti. exact Hab.
Qed.
Lemma stable_dt_exists vel buf (m : mem T) : exists x, stable_dt loc g mag mx lim mn pre n vel buf m x.
Proof.
  assert (Hu : exists u, represents dims loc g vel m u).
  { exists (HaloThms.global_of dims loc g m). now apply HaloThms.represents_global. }
  destruct Hu as (u & Hu).
  assert (E : exists v, forall r, 0 <= r < n -> local_dt loc g mag mx lim vel buf m r = Some (v r)).
  { exists (fun r => match local_dt loc g mag mx lim vel buf m r with Some y => y | None => lim (mag []) end). intros r Hr. destruct (local_dt_spec vel buf m u r Hu Hr) as (a & -> & _). reflexivity. }
  destruct E as (v & Hv). destruct (combines_exists mn v (zrange 0 n)) as (t & Ht).
  { intros E. pose proof ranks_nonempty. assert (In 0 (zrange 0 n)) by (apply zrange_In; lia). rewrite E in *. contradiction. }
  exists (pre t). exists v, t. auto.
Qed.

Lemma max_vort_ok vort (m : mem T) u x : represents dims loc g vort m u -> max_vorticity loc g mx n vort m x ->
  (exists f p, In f vort /\ inb (global_size dims loc) p /\ x = u f p) /\ (forall f p, In f vort -> inb (global_size dims loc) p -> le (u f p) x).
Proof.
  intros Hu (v & Hv & Hred). apply max_sel in Hred as [(r & Hr & ->) Hle]. apply zrange_In in Hr.
  assert (HL : forall s, 0 <= s < n -> (exists f y, In f vort /\ inb loc y /\ v s = u f (vadd (block_start dims loc s) y)) /\ (forall f y, In f vort -> inb loc y -> le (u f (vadd (block_start dims loc s) y)) (v s))).
  { intros s Hs. specialize (Hv s Hs). unfold local_max in Hv. apply (amax_spec le mnT mx OrdT) in Hv as [H1 H2]. split.
    - apply in_flat_map in H1 as (f & Hf & H1). rewrite (slice_map (fun i => m (s, (f, i)))) in H1. apply in_map_iff in H1 as (y & <- & Hy). apply inb_box_In in Hy. exists f, y. repeat split; auto. exact (Hu s f y Hs Hf Hy).
    - intros f y Hf Hy. rewrite <- (Hu s f y Hs Hf Hy). apply H2. apply in_flat_map. exists f. split; [exact Hf|]. rewrite (slice_map (fun i => m (s, (f, i)))). apply in_map_iff. exists y. split; [reflexivity|now apply inb_box_In]. }
  split.
  - destruct (HL r) as ((f & y & Hf & Hy & E) & _); [lia|]. exists f, (vadd (block_start dims loc r) y). split; [exact Hf|]. split; [|exact E]. apply at_inb; auto; lia.
  - intros f p Hf Hp. destruct (tile_at dims loc p Hok Hp) as (s & y & Hs & Hy & ->). destruct (HL s Hs) as [_ H2]. eapply (o_trans _ _ _ OrdT); [now apply H2|]. apply Hle. apply zrange_In. lia.
Qed.
Lemma max_vort_exists vort (m : mem T) : vort <> [] -> exists x, max_vorticity loc g mx n vort m x.
Proof.
  intros Hne.
  assert (E : exists v, forall r, 0 <= r < n -> local_max loc g mx vort m r = Some (v r)).
  { exists (fun r => match local_max loc g mx vort m r with Some y => y | None => mag [] end). intros r Hr. unfold local_max. destruct (amax_some mx (flat_map (fun f => map (fun I => m (r, (f, ravel sizes I))) (slice_cells sizes g)) vort)) as (a & ->); [|reflexivity].
    destruct vort as [|f vort]; [contradiction|]. cbn [flat_map]. intros E. apply app_eq_nil in E as [E _]. rewrite (slice_map (fun i => m (r, (f, i)))) in E. apply map_eq_nil in E. now apply (all_cells_nonempty loc Hloc). }
  destruct E as (v & Hv). destruct (combines_exists mx v (zrange 0 n)) as (t & Ht).
  { intros E. pose proof ranks_nonempty. assert (In 0 (zrange 0 n)) by (apply zrange_In; lia). rewrite E in *. contradiction. }
  exists t. exists v. auto.
Qed.
End Any.

Lemma cm_Rplus : comm_monoid Rplus 0%R. Proof. constructor; intros; ring. Qed.

(** sum over ranks of sums over blocks = sum over the grid *)
Lemma total_blocks (F : list Z -> R) :
  total Rplus 0%R (map (fun r => total Rplus 0%R (map (fun x => F (vadd (block_start dims loc r) x)) (all_cells loc))) (zrange 0 n)) = total Rplus 0%R (map F (all_cells (global_size dims loc))).
Proof.
  transitivity (total Rplus 0%R (map F (flat_map (fun r => map (fun x => vadd (block_start dims loc r) x) (all_cells loc)) (zrange 0 n)))).
  - induction (zrange 0 n) as [|r l IH]; [reflexivity|]. cbn [map flat_map]. rewrite map_app, total_app by exact cm_Rplus. rewrite <- IH, map_map. reflexivity.
  - apply total_perm; [exact cm_Rplus|]. apply Permutation_map. apply NoDup_Permutation.
    + apply NoDup_flat_map; [apply zrange_NoDup| |].
      * intros r Hr. apply zrange_In in Hr.
        assert (G : forall L, NoDup L -> (forall x, In x L -> inb loc x) -> NoDup (map (fun x => vadd (block_start dims loc r) x) L)).
        { induction L as [|x L IH]; intros Hn Hi; cbn [map]; constructor; inversion Hn; subst.
          - intros Hj. apply in_map_iff in Hj as (y & E & Hy). pose proof (owner_at dims loc r x Hok ltac:(lia) (Hi x (or_introl eq_refl))) as O1. pose proof (owner_at dims loc r y Hok ltac:(lia) (Hi y (or_intror Hy))) as O2.
            rewrite E, O1 in O2. injection O2 as O2. subst. contradiction.
          - apply IH; auto. intros y Hy. apply Hi. now right. }
        apply G; [apply box_NoDup|]. intros x. apply inb_box_In.
      * intros r s p Hr Hs Hp Hp'. apply zrange_In in Hr, Hs. apply in_map_iff in Hp as (x & <- & Hx). apply in_map_iff in Hp' as (y & E & Hy). apply inb_box_In in Hx, Hy.
        pose proof (owner_at dims loc r x Hok ltac:(lia) Hx) as O1. pose proof (owner_at dims loc s y Hok ltac:(lia) Hy) as O2. rewrite E, O1 in O2. now injection O2.
    + apply box_NoDup.
    + intros p. rewrite in_flat_map. split.
      * intros (r & Hr & Hp). apply zrange_In in Hr. apply in_map_iff in Hp as (x & <- & Hx). apply inb_box_In in Hx. apply inb_box_In. apply at_inb; auto; lia.
      * intros Hp. apply inb_box_In in Hp. destruct (tile_at dims loc p Hok Hp) as (r & x & Hr & Hx & ->). exists r. split; [apply zrange_In; lia|]. apply in_map_iff. exists x. split; [reflexivity|now apply inb_box_In].
Qed.

Lemma total_nonneg l : (forall y, In y l -> (0 <= y)%R) -> (0 <= total Rplus 0%R l)%R.
Proof. induction l as [|a l IH]; intros H; unfold total in *; cbn [fold_right]; [lra|]. pose proof (H a (or_introl eq_refl)). assert (0 <= fold_right Rplus 0 l)%R by (apply IH; intros; apply H; now right). lra. Qed.

Lemma divergence_norm_ok dx15 dv (m : mem R) w x : represents dims loc g [dv] m (fun _ => w) -> divergence_norm loc g n dx15 dv m x ->
  x = (sqrt (total Rplus 0%R (map (fun p => Rsqr (w p)) (all_cells (global_size dims loc)))) * dx15)%R.
Proof.
  intros Hu (t & Hred & ->). apply (combines_total Rplus 0%R cm_Rplus) in Hred. subst t. f_equal. f_equal. rewrite <- total_blocks. f_equal. apply map_ext_in. intros r Hr. apply zrange_In in Hr.
  rewrite (slice_map (fun i => Rsqr (m (r, (dv, i))))).
  assert (E : map (fun x => Rsqr (m (r, (dv, ravel sizes (map (fun i => i + g) x))))) (all_cells loc) = map (fun x => Rsqr (w (vadd (block_start dims loc r) x))) (all_cells loc)).
  { apply map_ext_in. intros x Hx. apply inb_box_In in Hx. f_equal. apply (Hu r dv x); [lia|now left|exact Hx]. }
  rewrite E. change (fold_right Rplus 0%R ?l) with (total Rplus 0%R l). rewrite Rsqr_sqrt; [reflexivity|]. apply total_nonneg. intros y Hy. apply in_map_iff in Hy as (z & <- & _). apply Rle_0_sqr.
Qed.
Lemma divergence_norm_exists dx15 dv (m : mem R) : exists x, divergence_norm loc g n dx15 dv m x.
Proof.
  destruct (combines_exists Rplus (fun r => Rsqr (sqrt (fold_right Rplus 0%R (map (fun I => Rsqr (m (r, (dv, ravel sizes I)))) (slice_cells sizes g))))) (zrange 0 n)) as (t & Ht).
  { intros E. pose proof ranks_nonempty. assert (In 0 (zrange 0 n)) by (apply zrange_In; lia). rewrite E in *. contradiction. }
  exists (sqrt t * dx15)%R. exists t. auto.
Qed.
End P.

(** the limits in exact and in rounded arithmetic *)
Lemma abs_sum_pos l : (0 <= real_mag l)%R.
Proof. unfold real_mag. induction l as [|a l IH]; cbn [map fold_right]; [lra|]. pose proof (Rabs_pos a). lra. Qed.
Lemma div_anti c x y : (0 <= c)%R -> (0 < x)%R -> (x <= y)%R -> (c / y <= c / x)%R.
Proof. intros Hc Hx Hy. unfold Rdiv. apply Rmult_le_compat_l; [exact Hc|]. apply Rinv_le_contravar; lra. Qed.
Lemma real_limit_anti d CFL dx tol nu tol' k l : (0 <= CFL * dx)%R -> (0 < tol)%R -> (real_mag k <= real_mag l)%R ->
  (real_limit d CFL dx tol nu tol' (real_mag l) <= real_limit d CFL dx tol nu tol' (real_mag k))%R.
Proof.
  intros H1 H2 H3. pose proof (abs_sum_pos k). unfold real_limit.
  assert (A : (CFL * dx / (real_mag l + tol) <= CFL * dx / (real_mag k + tol))%R) by (apply div_anti; lra).
  destruct (Req_EM_T (nu + tol') 0); [exact A|]. apply Rmin_glb; [|apply Rmin_r]. eapply Rle_trans; [apply Rmin_l|exact A].
Qed.
Lemma rounded_limit_anti fl c tol dif k l : (forall a b, (a <= b)%R -> (fl a <= fl b)%R) -> fl 0%R = 0%R -> (0 <= c)%R -> (0 < fl tol)%R ->
  (rounded_abs_sum fl k <= rounded_abs_sum fl l)%R -> (rounded_limit fl c tol dif (rounded_abs_sum fl l) <= rounded_limit fl c tol dif (rounded_abs_sum fl k))%R.
Proof.
  intros Mo Z0 Hc Ht H.
  assert (P : forall l s, (0 <= s)%R -> (0 <= fold_left (fun s a => fl (s + Rabs a)) l s)%R).
  { induction l0 as [|a l0 IH]; intros s Hs; cbn [fold_left]; [exact Hs|]. apply IH. rewrite <- Z0. apply Mo. pose proof (Rabs_pos a). lra. }
  pose proof (P k 0%R (Rle_refl 0)) as Pk. fold (rounded_abs_sum fl k) in Pk. unfold rounded_limit.
  apply Rmin_glb; [|apply Rmin_r]. eapply Rle_trans; [apply Rmin_l|]. apply Mo. apply div_anti; [exact Hc| |apply Mo; lra].
  eapply Rlt_le_trans; [exact Ht|]. apply Mo. lra.
Qed.
