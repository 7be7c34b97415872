(** Sums of the delta function weights. *)
From Coq Require Import Reals Lra.
From Verif Require Import Base SpecIB SpecDelta Delta.
Open Scope R_scope.

Notation rsum := (fold_right Rplus 0).
Lemma rsum_app l k : rsum (l ++ k) = rsum l + rsum k.
Proof. induction l as [|a l IH]; cbn; [lra|]. rewrite IH. lra. Qed.
Lemma rsum_scale {A} a (F : A -> R) l : rsum (map (fun x => a * F x) l) = a * rsum (map F l).
Proof. induction l as [|x l IH]; cbn; [lra|]. rewrite IH. lra. Qed.
Lemma rprod_app l k : rprod (l ++ k) = rprod l * rprod k.
Proof. unfold rprod. induction l as [|a l IH]; cbn; [lra|]. rewrite IH. lra. Qed.
Lemma rprod_rev l : rprod (rev l) = rprod l.
Proof. induction l as [|a l IH]; cbn [rev]; [reflexivity|]. rewrite rprod_app, IH. unfold rprod. cbn. lra. Qed.

(** Sum over a box of a product of one-dimensional functions. *)
Lemma box_product (fs : list (Z -> R)) ss ls : length fs = length ss -> length ls = length ss ->
  rsum (map (fun P => rprod (zip_with (fun f p => f p) fs P)) (box ss ls)) = rprod (zip_with (fun f sl => rsum (map f (zrange (fst sl) (snd sl)))) fs (combine ss ls)).
Proof.
  revert fs ls. induction ss as [|s ss IH]; intros [|f fs] [|l ls] H1 H2; try discriminate; [unfold rprod; cbn; lra|].
  cbn [box combine zip_with fst snd]. cbn [length] in H1, H2.
  set (X := rsum (map (fun P => rprod (zip_with (fun f p => f p) fs P)) (box ss ls))).
  transitivity (rsum (map (fun x => X * f x) (zrange s l))).
  - generalize (zrange s l). intros L. induction L as [|x L IHL]; cbn [flat_map map fold_right]; [reflexivity|].
    rewrite map_app, rsum_app, IHL. f_equal. rewrite map_map. unfold X. rewrite Rmult_comm, <- rsum_scale. reflexivity.
  - rewrite rsum_scale. unfold X. rewrite IH by lia. unfold rprod. cbn [fold_right]. ring.
Qed.

Lemma zip_length {A B C} (f : A -> B -> C) a b : length a = length b -> length (zip_with f a b) = length a.
Proof. revert b. induction a as [|x a IH]; intros [|y b]; cbn; intros; try discriminate; auto. Qed.
Lemma zip_app {A B C} (f : A -> B -> C) a b a' b' : length a = length a' -> zip_with f (a ++ b) (a' ++ b') = zip_with f a a' ++ zip_with f b b'.
Proof. revert a'. induction a as [|x a IH]; intros [|y a']; cbn; intros; try discriminate; auto. now rewrite IH by lia. Qed.
Lemma zip_rev {A B C} (f : A -> B -> C) a b : length a = length b -> zip_with f (rev a) (rev b) = rev (zip_with f a b).
Proof. revert b. induction a as [|x a IH]; intros [|y b]; cbn; intros; try discriminate; auto. rewrite zip_app by (rewrite !rev_length; lia). rewrite IH by lia. reflexivity. Qed.
Lemma map_zip {A B C D} (h : C -> D) (f : A -> B -> C) a b : map h (zip_with f a b) = zip_with (fun x y => h (f x y)) a b.
Proof. revert b. induction a as [|x a IH]; intros [|y b]; cbn; auto. now rewrite IH. Qed.
Lemma rprod_mul {A} (f g : A -> Z -> R) a b : length a = length b ->
  rprod (zip_with f a b) * rprod (zip_with g a b) = rprod (zip_with (fun x y => f x y * g x y) a b).
Proof. unfold rprod. revert b. induction a as [|x a IH]; intros [|y b]; cbn; intros; try discriminate; [lra|]. rewrite <- (IH b) by lia. ring. Qed.
Lemma zip_box_len {A} (a : list A) ss ls P : In P (box ss ls) -> length ss = length ls -> length P = length ss.
Proof. intros H E. apply box_In in H; auto. apply in_box_length in H. lia. Qed.

Section D.
Variables (dx shift : R).
Hypothesis Hdx : 0 < dx.
Variables (phi : R -> R -> R) (c : R).
Let wt (ds : list R) := (c / dx) ^ length ds * rprod (map (phi dx) ds).

(** The interpolation of a product of one-dimensional functions (us in zyx order). *)
Definition interp1 (u : Z -> R) (x : R) : R := c * rsum (map (fun k => u k * phi dx (r_dist dx shift k x)) (zrange (r_cell dx shift x - 1) 4)).

Lemma interp_product us pos u : length us = length pos ->
  (forall P, length P = length pos -> u P = rprod (zip_with (fun f p => f p) us P)) ->
  r_interpolated dx shift wt u pos = rprod (zip_with interp1 us (rev pos)).
Proof.
  intros Hl Hu. unfold r_interpolated, interpolated. set (L := support_points (r_cell dx shift) 2 pos).
  assert (Hc : (c / dx) ^ length pos * dx ^ length pos = c ^ length pos). { rewrite <- Rpow_mult_distr. f_equal. field. lra. }
  transitivity ((c ^ length pos) * rsum (map (fun P => rprod (zip_with (fun f p => f p) (zip_with (fun f x k => f k * phi dx (r_dist dx shift k x)) us (rev pos)) P)) L)).
  - rewrite <- Hc. rewrite (Rmult_comm (rsum _)). rewrite (Rmult_comm ((c / dx) ^ _)), Rmult_assoc. f_equal. rewrite <- rsum_scale.
    f_equal. apply map_ext_in. intros P HP. assert (HlP : length P = length pos).
    { unfold L, support_points in HP. rewrite (zip_box_len pos _ _ P HP); unfold home; rewrite !map_length, rev_length; auto. }
    rewrite Hu by auto. unfold wt, distances. rewrite zip_length by (rewrite rev_length; auto). rewrite rev_length, HlP.
    rewrite map_zip. rewrite <- (rev_involutive pos) at 2. rewrite zip_rev by (rewrite rev_length; auto). rewrite rprod_rev.
    rewrite (Rmult_comm _ (_ * _)), Rmult_assoc, (Rmult_comm (rprod (zip_with _ P _))). f_equal.
    revert Hl HlP. rewrite <- (rev_length pos). generalize (rev pos). clear. intros xs. revert us P. unfold rprod.
    induction xs as [|x xs IH]; intros [|f us] [|p P]; cbn; intros; try discriminate; [lra|]. rewrite <- (IH us P) by lia. ring.
  - unfold L, support_points, home. set (xs := rev pos) in *. replace (map (fun _ : R => (2 * 2)%Z) pos) with (map (fun _ : R => 4%Z) xs).
    2:{ unfold xs. rewrite map_rev. clear. assert (E : forall l : list Z, (forall x, In x l -> x = 4%Z) -> rev l = l).
        { intros l H. assert (l = repeat 4%Z (length l)) as ->. { clear -H. induction l; cbn; [reflexivity|]. rewrite (H a) by now left. f_equal. apply IHl. intros; apply H; now right. }
          clear. induction (length l) as [|n IH]; [reflexivity|]. cbn [repeat rev]. rewrite IH. clear. induction n; cbn; congruence. }
        apply E. intros x Hx. apply in_map_iff in Hx as (? & <- & _). reflexivity. }
    assert (Hxl : length xs = length us) by (unfold xs; rewrite rev_length; lia). replace (length pos) with (length xs) by (unfold xs; now rewrite rev_length).
    rewrite box_product by (rewrite ?zip_length, ?map_length; lia). clear -Hxl. revert us Hxl. unfold rprod, interp1.
    induction xs as [|x xs IH]; intros [|f us] Hl; cbn [length zip_with combine map fold_right pow]; try discriminate; [lra|]. cbn [length] in Hl.
    rewrite <- IH by lia. cbn [fst snd]. replace (r_cell dx shift x - 2 + 1)%Z with (r_cell dx shift x - 1)%Z by lia. ring.
Qed.

(** Unit sums on every axis: partition of unity. *)
Lemma interp_one pos : (forall x, interp1 (fun _ => 1) x = 1) -> r_interpolated dx shift wt (fun _ => 1) pos = 1.
Proof.
  intros H. rewrite (interp_product (map (fun _ _ => 1) pos)); [|apply map_length|].
  - assert (E : map (fun _ : R => fun _ : Z => 1) pos = map (fun _ _ => 1) (rev pos)).
    { rewrite map_rev. assert (E : forall n (a : Z -> R), rev (repeat a n) = repeat a n). { clear. induction n as [|n IH]; intros a; [reflexivity|]. cbn [repeat rev]. rewrite IH. clear. induction n; cbn; congruence. }
      clear -E. assert (R : map (fun (_ : R) (_ : Z) => 1) pos = repeat (fun _ => 1) (length pos)). { clear. induction pos; cbn; congruence. } rewrite R. now rewrite E. }
    rewrite E. clear -H. unfold rprod. induction (rev pos) as [|x xs IH]; cbn [map zip_with fold_right]; [reflexivity|]. rewrite IH, H. lra.
  - intros P HP. clear -HP. unfold rprod. revert P HP. induction pos as [|x xs IH]; intros [|p P] HP; cbn in *; try discriminate; [reflexivity|]. rewrite <- IH by lia. lra.
Qed.

(** Exactness for the coordinate of axis a (zyx order). *)
Lemma interp_coord pos a : (a < length pos)%nat -> (forall x, interp1 (fun _ => 1) x = 1) -> (forall x, interp1 (grid_coord dx shift) x = x) ->
  r_interpolated dx shift wt (fun P => grid_coord dx shift (nth a P 0%Z)) pos = nth a (rev pos) 0.
Proof.
  intros Ha H1 Hx. set (us := map (fun b => if (b =? a)%nat then grid_coord dx shift else fun _ => 1) (seq 0 (length pos))).
  assert (G : forall k n, rprod (zip_with (fun f p => f p) (map (fun b => if (b =? a)%nat then grid_coord dx shift else fun _ => 1) (seq k n)) [] ) = 1) by (intros; destruct n; reflexivity).
  rewrite (interp_product us).
  - rewrite <- (rev_length pos) in Ha. subst us. rewrite <- (rev_length pos). generalize dependent (rev pos). intros xs Ha.
    assert (E : forall k xs, (k <= a < k + length xs)%nat -> rprod (zip_with interp1 (map (fun b => if (b =? a)%nat then grid_coord dx shift else fun _ => 1) (seq k (length xs))) xs) = nth (a - k) xs 0).
    { clear -H1 Hx. intros k xs. revert k. assert (E1 : forall k xs, (a < k)%nat -> rprod (zip_with interp1 (map (fun b => if (b =? a)%nat then grid_coord dx shift else fun _ => 1) (seq k (length xs))) xs) = 1).
      { intros k xs0. revert k. unfold rprod. induction xs0 as [|x xs0 IH]; intros k Hk; cbn [length seq map zip_with fold_right]; [reflexivity|]. rewrite IH by lia.
        replace (k =? a)%nat with false by (symmetry; apply Nat.eqb_neq; lia). rewrite H1. lra. }
      induction xs as [|x xs IH]; intros k Hk; cbn [length] in *; [lia|]. cbn [seq map zip_with]. unfold rprod. cbn [fold_right].
      change (fold_right Rmult 1 ?l) with (rprod l). destruct (Nat.eqb_spec k a) as [-> |Hne].
      - rewrite E1 by lia. rewrite Nat.sub_diag, Hx. cbn. lra.
      - rewrite IH by lia. rewrite H1. replace (a - k)%nat with (S (a - S k))%nat by lia. cbn. lra. }
    rewrite E by lia. now rewrite Nat.sub_0_r.
  - unfold us. now rewrite map_length, seq_length.
  - intros P HP. unfold us. rewrite <- HP. rewrite <- HP in Ha. clear -Ha.
    assert (E1 : forall k P, (a < k)%nat -> rprod (zip_with (fun f p => f p) (map (fun b => if (b =? a)%nat then grid_coord dx shift else fun _ => 1) (seq k (length P))) P) = 1).
    { intros k P0. revert k. unfold rprod. induction P0 as [|x P0 IH]; intros k Hk; cbn [length seq map zip_with fold_right]; [reflexivity|]. rewrite IH by lia.
      replace (k =? a)%nat with false by (symmetry; apply Nat.eqb_neq; lia). lra. }
    assert (E : forall P k, (k <= a < k + length P)%nat -> rprod (zip_with (fun f p => f p) (map (fun b => if (b =? a)%nat then grid_coord dx shift else fun _ => 1) (seq k (length P))) P) = grid_coord dx shift (nth (a - k) P 0%Z)).
    { clear Ha P. induction P as [|x P IH]; intros k Hk; cbn [length] in *; [lia|]. cbn [seq map zip_with]. unfold rprod. cbn [fold_right].
      change (fold_right Rmult 1 ?l) with (rprod l). destruct (Nat.eqb_spec k a) as [-> |Hne].
      - rewrite E1 by lia. rewrite Nat.sub_diag. cbn. lra.
      - rewrite IH by lia. replace (a - k)%nat with (S (a - S k))%nat by lia. cbn. lra. }
    rewrite E by lia. now rewrite Nat.sub_0_r.
Qed.
End D.

(** ** The two kernels on one axis *)
Section K.
Variables (dx shift : R).
Hypothesis Hdx : 0 < dx.

Lemma four (F : Z -> R) h : rsum (map F (zrange (h - 1) 4)) = F (h - 1)%Z + (F h + (F (h + 1)%Z + F (h + 2)%Z)).
Proof.
  change 4%Z with (Z.of_nat 4). unfold zrange. rewrite Nat2Z.id. cbn [seq map fold_right].
  replace (h - 1 + Z.of_nat 0)%Z with (h - 1)%Z by lia. replace (h - 1 + Z.of_nat 1)%Z with h by lia. replace (h - 1 + Z.of_nat 2)%Z with (h + 1)%Z by lia. replace (h - 1 + Z.of_nat 3)%Z with (h + 2)%Z by lia. lra.
Qed.

(** f: offset of the node inside its cell, in units of dx. *)
Lemma frac x : exists f, 0 <= f < 1 /\ forall k, r_dist dx shift (r_cell dx shift x + k) x = (IZR k - f) * dx.
Proof.
  unfold r_cell, r_dist, grid_coord. set (t := (x - shift) / dx). destruct (base_Int_part t) as [H1 H2]. exists (t - IZR (Int_part t)). split; [lra|].
  intros k. rewrite plus_IZR. assert (Hx : x = t * dx + shift) by (unfold t; field; lra). clearbody t. rewrite Hx. ring.
Qed.

Lemma cosine_one x : interp1 dx shift cosine_factor (/ 4) (fun _ => 1) x = 1.
Proof.
  unfold interp1. rewrite four. destruct (frac x) as (f & Hf & E). set (h := r_cell dx shift x) in *.
  replace (h - 1)%Z with (h + -1)%Z by lia. rewrite <- (Z.add_0_r h) at 2. rewrite !E. unfold cosine_factor.
  assert (Q : forall k, / 2 * PI * ((IZR k - f) * dx / dx) = / 2 * PI * (IZR k - f)) by (intros; field; lra). rewrite !Q.
  replace (/ 2 * PI * (1 - f)) with (/ 2 * PI * (-1 - f) + PI) by field. replace (/ 2 * PI * (2 - f)) with (/ 2 * PI * (0 - f) + PI) by field. rewrite !neg_cos. lra.
Qed.

(** Peskin's function at the four points, s = sqrt |1 + 4 f - 4 f^2|. *)
Lemma rlt_true a b : a < b -> rlt a b = true.
Proof. intros. unfold rlt. destruct (Rlt_dec a b); [reflexivity|contradiction]. Qed.
Lemma rlt_false a b : b <= a -> rlt a b = false.
Proof. intros. unfold rlt. destruct (Rlt_dec a b); [lra|reflexivity]. Qed.
Lemma peskin_points f : 0 <= f < 1 -> let s := sqrt (Rabs (1 + 4 * f - 4 * f ^ 2)) in
  peskin_factor dx ((-1 - f) * dx) = 3 - 2 * f - s /\ peskin_factor dx ((0 - f) * dx) = 3 - 2 * f + s /\
  peskin_factor dx ((1 - f) * dx) = 1 + 2 * f + s /\ peskin_factor dx ((2 - f) * dx) = 1 + 2 * f - s.
Proof.
  intros Hf s. unfold peskin_factor.
  assert (A : forall k, 0 <= k -> Rabs (k * dx) / dx = k). { intros k Hk. rewrite Rabs_mult, (Rabs_right k), (Rabs_right dx) by lra. field. lra. }
  assert (B : forall k, k <= 0 -> Rabs (k * dx) / dx = - k). { intros k Hk. rewrite Rabs_mult, (Rabs_left1 k), (Rabs_right dx) by lra. field. lra. }
  rewrite (B (-1 - f)), (B (0 - f)), (A (1 - f)), (A (2 - f)) by lra. unfold s.
  repeat split.
  - rewrite rlt_false by lra. rewrite rlt_true by lra. cbn [negb bool_r]. replace (-7 + 12 * - (-1 - f) - 4 * (- (-1 - f)) ^ 2) with (1 + 4 * f - 4 * f ^ 2) by ring. ring.
  - rewrite rlt_true by lra. cbn [negb bool_r]. replace (- (0 - f)) with f by ring. ring.
  - destruct (Req_dec f 0) as [-> |Hn].
    + rewrite rlt_false by lra. rewrite rlt_true by lra. cbn [negb bool_r]. replace (-7 + 12 * (1 - 0) - 4 * (1 - 0) ^ 2) with 1 by ring. replace (1 + 4 * 0 - 4 * 0 ^ 2) with 1 by ring. rewrite Rabs_R1, sqrt_1. ring.
    + rewrite rlt_true by lra. cbn [negb bool_r]. replace (1 + 4 * (1 - f) - 4 * (1 - f) ^ 2) with (1 + 4 * f - 4 * f ^ 2) by ring. ring.
  - destruct (Req_dec f 0) as [-> |Hn].
    + rewrite rlt_false by lra. rewrite rlt_false by lra. cbn [negb bool_r]. replace (1 + 4 * 0 - 4 * 0 ^ 2) with 1 by ring. rewrite Rabs_R1, sqrt_1. ring.
    + rewrite rlt_false by lra. rewrite rlt_true by lra. cbn [negb bool_r]. replace (-7 + 12 * (2 - f) - 4 * (2 - f) ^ 2) with (1 + 4 * f - 4 * f ^ 2) by ring. ring.
Qed.
Lemma peskin_one x : interp1 dx shift peskin_factor (/ 8) (fun _ => 1) x = 1.
Proof.
  unfold interp1. rewrite four. destruct (frac x) as (f & Hf & E). set (h := r_cell dx shift x) in *.
  replace (h - 1)%Z with (h + -1)%Z by lia. rewrite <- (Z.add_0_r h) at 2. rewrite !E. destruct (peskin_points f Hf) as (-> & -> & -> & ->). lra.
Qed.
Lemma peskin_coord x : interp1 dx shift peskin_factor (/ 8) (grid_coord dx shift) x = x.
Proof.
  unfold interp1. rewrite four. destruct (frac x) as (f & Hf & E). set (h := r_cell dx shift x) in *.
  replace (h - 1)%Z with (h + -1)%Z by lia. replace h with (h + 0)%Z at 3 4 by lia. rewrite !E. destruct (peskin_points f Hf) as (-> & -> & -> & ->).
  pose proof (E 0%Z) as E0. unfold r_dist, grid_coord in *. rewrite !plus_IZR in *. assert (Hx : x = (IZR h + f) * dx + shift) by lra. rewrite Hx. field.
Qed.

(** Both are non-negative on the support (Peskin everywhere). *)
Lemma cosine_nonneg d : 0 <= cosine_factor dx d.
Proof. unfold cosine_factor. pose proof (COS_bound (/ 2 * PI * (d / dx))). lra. Qed.
End K.
