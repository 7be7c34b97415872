From Coq Require Import ZArith Reals Lra Lia Psatz.
From Flocq Require Import Core Relative.
From Verif Require Import SpecRounding Rounding.
Open Scope R_scope.

#[local] Instance prec53 : Prec_gt_0 53. Proof. reflexivity. Qed.
Notation u := (bpow radix2 (-53)).
Notation tiny := (bpow radix2 (-1075)).
Lemma b64_err x : exists e t, Rabs e <= u /\ Rabs t <= tiny /\ b64 x = x * (1 + e) + t.
Proof.
  destruct (error_N_FLT radix2 (-1074) 53 ltac:(lia) (fun x => negb (Z.even x)) x) as (e & t & He & Ht & _ & E).
  exists e, t. split; [|split; [|exact E]].
  - eapply Rle_trans; [exact He|]. change (-53 + 1)%Z with (-1 + -51)%Z. replace (-53)%Z with (-1 + (-53 + 1))%Z by lia. rewrite bpow_plus. rewrite <- (bpow_opp radix2 1) || idtac. apply Req_le. cbn. lra.
  - eapply Rle_trans; [exact Ht|]. replace (-1075)%Z with (-1 + -1074)%Z by lia. rewrite bpow_plus. apply Req_le. f_equal.
Qed.
Lemma u_val : u = / 9007199254740992.
Proof. reflexivity. Qed.
Lemma tiny_small : 0 < tiny /\ tiny <= u.
Proof. split; [apply bpow_gt_0|]. apply bpow_le. lia. Qed.
Lemma b64_abs y : 0 <= y -> Rabs (b64 y - y) <= y * u + tiny.
Proof.
  intros Hy. destruct (b64_err y) as (e & t & He & Ht & ->). replace (y * (1 + e) + t - y) with (y * e + t) by ring.
  eapply Rle_trans; [apply Rabs_triang|]. rewrite Rabs_mult, (Rabs_pos_eq y Hy). apply Rplus_le_compat; auto. now apply Rmult_le_compat_l.
Qed.
Lemma b64_mono x y : x <= y -> b64 x <= b64 y.
Proof. intros H. unfold b64. apply round_le; auto with typeclass_instances. Qed.
Lemma b64_0 : b64 0 = 0.
Proof. unfold b64. apply round_0. auto with typeclass_instances. Qed.
Lemma b64_ge0 y : 0 <= y -> 0 <= b64 y.
Proof. intros Hy. rewrite <- b64_0. now apply b64_mono. Qed.
Lemma b64_int k : (0 <= k <= 2 ^ 53)%Z -> b64 (IZR k) = IZR k.
Proof.
  intros Hk. unfold b64. apply round_generic; auto with typeclass_instances. destruct (Z.eq_dec k (2 ^ 53)) as [-> |Hne].
  - change (IZR (2 ^ 53)) with (bpow radix2 53). apply generic_format_bpow. unfold FLT_exp. lia.
  - apply generic_format_FLT. exists (Float radix2 k 0); cbn; [unfold F2R; cbn; ring|lia|lia].
Qed.

Section G.
Variables (dx : R) (n : Z).
Hypothesis Hdx : bpow radix2 (-900) <= dx.
Lemma dx_pos : 0 < dx.
Proof. eapply Rlt_le_trans; [apply bpow_gt_0|exact Hdx]. Qed.
Lemma tiny_dx : tiny <= dx * u.
Proof.
  apply Rle_trans with (bpow radix2 (-900) * u); [|apply Rmult_le_compat_r; [apply bpow_ge_0|exact Hdx]]. rewrite <- bpow_plus. apply bpow_le. lia.
Qed.
Lemma mult_err k : 1 <= k -> exists d, Rabs d <= 2 * u /\ b64 (dx * k) = dx * k * (1 + d).
Proof.
  intros Hk. pose proof dx_pos as Hp. destruct (b64_err (dx * k)) as (e & t & He & Ht & E). assert (Hpk : 0 < dx * k) by (apply Rmult_lt_0_compat; lra).
  exists (e + t / (dx * k)). split.
  - eapply Rle_trans; [apply Rabs_triang|]. assert (Rabs (t / (dx * k)) <= u); [|lra].
    unfold Rdiv. rewrite Rabs_mult, Rabs_inv, (Rabs_pos_eq (dx * k)) by lra. apply Rmult_le_reg_r with (dx * k); auto. rewrite Rmult_assoc, Rinv_l, Rmult_1_r by lra.
    eapply Rle_trans; [exact Ht|]. eapply Rle_trans; [exact tiny_dx|]. pose proof (bpow_gt_0 radix2 (-53)) as HU. rewrite (Rmult_comm dx). apply Rmult_le_compat_l; [lra|]. rewrite <- (Rmult_1_r dx) at 1. apply Rmult_le_compat_l; lra.
  - rewrite E. field. lra.
Qed.
(** Python's floor division is exact for quotients below 2^46. *)
Lemma py_exact a : 0 <= a -> a / dx <= 70368744177664 -> floordiv_py a dx = Zfloor (a / dx).
Proof.
  intros Ha Hq. pose proof dx_pos as Hp. assert (HT : 0 <= a / dx) by (apply Rmult_le_pos; [lra|left; apply Rinv_0_lt_compat; lra]).
  unfold floordiv_py. rewrite Ztrunc_floor by exact HT. set (k := Zfloor (a / dx)).
  assert (Hk0 : (0 <= k)%Z) by (unfold k; apply Zfloor_lub; exact HT). assert (Hk1 : IZR k <= a / dx) by (apply Zfloor_lb).
  replace (a - (a - dx * IZR k)) with (dx * IZR k) by ring.
  set (div := b64 (b64 (dx * IZR k) / dx)).
  assert (Hd : Rabs (div - IZR k) < / 4).
  { unfold div. destruct (Z.eq_dec k 0) as [-> |Hk].
    - rewrite Rmult_0_r. rewrite b64_0. unfold Rdiv. rewrite Rmult_0_l, b64_0. rewrite Rminus_0_r, Rabs_R0. lra.
    - destruct (mult_err (IZR k)) as (d & Hdd & E); [apply IZR_le; lia|]. rewrite E. replace (dx * IZR k * (1 + d) / dx) with (IZR k * (1 + d)) by (field; lra).
      assert (HK : 1 <= IZR k) by (apply IZR_le; lia). rewrite u_val in Hdd. apply Rabs_le_inv in Hdd.
      pose proof (b64_abs (IZR k * (1 + d))) as B. assert (0 <= IZR k * (1 + d)) as HB by (apply Rmult_le_pos; lra). specialize (B HB). destruct tiny_small as [_ Hts]. rewrite u_val in *.
      apply Rabs_le_inv in B.
      assert (Hkd : - (IZR k * (2 * / 9007199254740992)) <= IZR k * d <= IZR k * (2 * / 9007199254740992)) by (split; nra).
      apply Rabs_def1; nra. }
  apply Rabs_def2 in Hd. clearbody div. destruct (Rlt_le_dec div (IZR k)) as [Hlt|Hge].
  - assert (F : Zfloor div = (k - 1)%Z) by (apply Zfloor_imp; rewrite plus_IZR, !minus_IZR; cbn; lra). rewrite F. rewrite Rlt_bool_true; [lia|]. rewrite minus_IZR. lra.
  - assert (F : Zfloor div = k) by (apply Zfloor_imp; rewrite plus_IZR; cbn; lra). rewrite F. rewrite Rlt_bool_false; [reflexivity|]. lra.
Qed.

Hypothesis Hn : (1 <= n)%Z.
(** The quotient a / dx lies in the block the rank mapping found, up to 1/32 of a cell. *)
Lemma near_block a r : 0 <= a -> r = Ztrunc (b64 (a / b64 (dx * IZR n))) -> ((r + 1) * n <= 2 ^ 45)%Z ->
  0 <= a / dx /\ (0 <= r)%Z /\ IZR (r * n) - / 32 < a / dx < IZR ((r + 1) * n) + / 32.
Proof.
  intros Ha Hr Hb. pose proof dx_pos as Hp. assert (HT : 0 <= a / dx) by (apply Rmult_le_pos; [lra|left; apply Rinv_0_lt_compat; lra]).
  assert (Hn1 : 1 <= IZR n) by (apply IZR_le; lia). destruct (mult_err (IZR n) Hn1) as (d & Hd & E). rewrite u_val in Hd. apply Rabs_le_inv in Hd.
  assert (HD : 0 < dx * IZR n * (1 + d)) by (apply Rmult_lt_0_compat; [apply Rmult_lt_0_compat|]; lra). rewrite E in Hr. set (q := a / (dx * IZR n * (1 + d))) in *.
  assert (Hq : 0 <= q) by (apply Rmult_le_pos; [lra|left; apply Rinv_0_lt_compat; lra]).
  assert (Tq : a / dx = q * IZR n * (1 + d)) by (unfold q; field; repeat split; lra).
  pose proof (b64_abs q Hq) as B. pose proof (b64_ge0 q Hq) as B0. destruct tiny_small as [_ Hts]. rewrite u_val in *. apply Rabs_le_inv in B.
  set (v := b64 q) in *. rewrite Ztrunc_floor in Hr by exact B0. pose proof (Zfloor_lb v) as F1. pose proof (Zfloor_ub v) as F2. rewrite <- Hr in F1, F2.
  assert (Hr0 : (0 <= r)%Z) by (rewrite Hr; apply Zfloor_lub; exact B0).
  assert (R0 : 0 <= IZR r) by (apply IZR_le; exact Hr0).
  assert (BB : (IZR r + 1) * IZR n <= 35184372088832) by (rewrite <- plus_IZR, <- mult_IZR; apply IZR_le; exact Hb).
  split; [exact HT|]. split; [exact Hr0|]. rewrite Tq, !mult_IZR, plus_IZR. clearbody v q. clear Tq HT E HD Hr Hb.
  set (N := IZR n) in *. set (r0 := IZR r) in *. clearbody N r0. generalize dependent tiny. intros ti B Hts. assert (Hq2 : q <= (r0 + 1) * 2) by nra.
  assert (Q1 : r0 - (r0 + 1) * 4 * / 9007199254740992 <= q) by nra.
  assert (Q2 : q <= (r0 + 1) + (r0 + 1) * 4 * / 9007199254740992) by nra.
  assert (QN1 : (r0 - (r0 + 1) * 4 * / 9007199254740992) * N <= q * N) by (apply Rmult_le_compat_r; lra).
  assert (QN2 : q * N <= ((r0 + 1) + (r0 + 1) * 4 * / 9007199254740992) * N) by (apply Rmult_le_compat_r; lra).
  assert (QN0 : 0 <= q * N) by (apply Rmult_le_pos; lra).
  set (P := (r0 + 1) * N) in *.
  assert (A1 : q * N <= P + P * 4 * / 9007199254740992) by (unfold P in *; lra).
  assert (A2 : r0 * N - P * 4 * / 9007199254740992 <= q * N) by (unfold P in *; lra).
  assert (A3 : q * N * d <= q * N * (2 * / 9007199254740992)) by (apply Rmult_le_compat_l; lra).
  assert (A4 : q * N * (- (2 * / 9007199254740992)) <= q * N * d) by (apply Rmult_le_compat_l; lra).
  assert (A5 : q * N <= 70368744177664) by lra.
  clearbody P. lra.
Qed.
Lemma floordiv_near v a r : 0 <= a -> r = Ztrunc (b64 (a / b64 (dx * IZR n))) -> ((r + 1) * n <= 2 ^ 45)%Z ->
  (r * n - 1 <= floordiv64 v a dx <= (r + 1) * n)%Z.
Proof.
  intros Ha Hr Hb. destruct (near_block a r Ha Hr Hb) as (HT & Hr0 & L & U). set (lo := (r * n)%Z) in *. set (hi := ((r + 1) * n)%Z) in *.
  assert (HB : IZR hi <= 35184372088832) by (apply IZR_le; exact Hb).
  assert (M : exists T', floordiv64 v a dx = Zfloor T' /\ IZR lo - 1 < T' < IZR hi + 1).
  { destruct v; cbn [floordiv64].
    - exists (b64 (a / dx)). split; [reflexivity|]. pose proof (b64_abs (a / dx) HT) as B. destruct tiny_small as [_ Hts]. rewrite u_val in *. apply Rabs_le_inv in B. split; lra.
    - exists (a / dx). split; [apply py_exact; lra|lra]. }
  destruct M as (T' & -> & M1 & M2). split.
  - apply Zfloor_lub. rewrite minus_IZR. lra.
  - pose proof (Zfloor_lb T') as F. assert (IZR (Zfloor T') < IZR (hi + 1)) as K by (rewrite plus_IZR; lra). apply lt_IZR in K. lia.
Qed.
(** When the product does not round up, the exact quotient stays below the block's end. *)
Lemma below_end a r : 0 <= a -> r = Ztrunc (b64 (a / b64 (dx * IZR n))) -> ((r + 1) * n <= 2 ^ 45)%Z -> b64 (dx * IZR n) <= dx * IZR n ->
  a / dx < IZR ((r + 1) * n).
Proof.
  intros Ha Hr Hb HD. destruct (near_block a r Ha Hr Hb) as (HT & Hr0 & _ & _). pose proof dx_pos as Hp.
  assert (Hn1 : 1 <= IZR n) by (apply IZR_le; lia). destruct (mult_err (IZR n) Hn1) as (d & Hd & E). rewrite u_val in Hd. apply Rabs_le_inv in Hd.
  assert (HDp : 0 < b64 (dx * IZR n)) by (rewrite E; apply Rmult_lt_0_compat; [apply Rmult_lt_0_compat|]; lra).
  set (D := b64 (dx * IZR n)) in *. assert (Hq : 0 <= a / D) by (apply Rmult_le_pos; [lra|left; apply Rinv_0_lt_compat; lra]).
  assert (Q : a / D < IZR (r + 1)).
  { apply Rnot_le_lt. intros C. apply b64_mono in C. rewrite b64_int in C by (split; [lia|]; nia).
    rewrite Ztrunc_floor in Hr by (now apply b64_ge0). pose proof (Zfloor_ub (b64 (a / D))) as F. rewrite <- Hr in F. rewrite plus_IZR in C. cbn in *. lra. }
  apply Rmult_lt_reg_r with dx; [exact Hp|]. replace (a / dx * dx) with a by (field; lra). rewrite mult_IZR.
  apply Rlt_le_trans with (IZR (r + 1) * D).
  - apply Rmult_lt_reg_r with (/ D); [now apply Rinv_0_lt_compat|]. rewrite Rmult_assoc, Rinv_r, Rmult_1_r by lra. exact Q.
  - rewrite Rmult_assoc. apply Rmult_le_compat_l; [apply IZR_le; lia|]. rewrite (Rmult_comm _ dx). exact HD.
Qed.
End G.

(** Along an axis whose spacing is a power of two everything is exact. *)
Lemma scale_up x k : (0 <= k)%Z -> is_double x -> is_double (x * bpow radix2 k).
Proof.
  intros Hk Hx. unfold is_double in *. apply FLT_format_generic in Hx; [|exact prec53]. destruct Hx as [f -> Hm He]. apply generic_format_FLT.
  exists (Float radix2 (Fnum f) (Fexp f + k)); cbn in *; [|exact Hm|lia]. unfold F2R. cbn. now rewrite Rmult_assoc, <- bpow_plus.
Qed.
Lemma pow_mul k n : (-900 <= k)%Z -> (0 <= n <= 2 ^ 53)%Z -> b64 (bpow radix2 k * IZR n) = bpow radix2 k * IZR n.
Proof.
  intros Hk Hn. unfold b64. apply round_generic; auto with typeclass_instances. destruct (Z.eq_dec n (2 ^ 53)) as [-> |Hne].
  - change (IZR (2 ^ 53)) with (bpow radix2 53). rewrite <- bpow_plus. apply generic_format_bpow. unfold FLT_exp. lia.
  - apply generic_format_FLT. exists (Float radix2 n k); cbn; [unfold F2R; cbn; ring|lia|lia].
Qed.
Lemma b64_double x : is_double (b64 x).
Proof. unfold is_double, b64. apply generic_format_round; auto with typeclass_instances. Qed.
Lemma quot_pow a k : is_double a -> (k <= 0)%Z -> floordiv_quot a (bpow radix2 k) = Zfloor (a / bpow radix2 k).
Proof.
  intros Ha Hk. unfold floordiv_quot. f_equal. unfold Rdiv. rewrite <- bpow_opp. unfold b64. apply round_generic; auto with typeclass_instances. apply scale_up; [lia|exact Ha].
Qed.

Theorem inside_with_margin v dx s n g w x r :
  bpow radix2 (-900) <= dx -> (1 <= n)%Z -> 0 <= rel64 x s -> r = block_coord64 dx s n x -> ((r + 1) * n <= 2 ^ 45)%Z -> (w + 1 <= g)%Z ->
  let i := nearest64 v dx s n g r x in (0 <= slice_first w i)%Z /\ (slice_last w i < n + 2 * g)%Z.
Proof.
  intros Hdx Hn Ha Hr Hb Hw i. pose proof (floordiv_near dx n Hdx Hn v (rel64 x s) r Ha Hr Hb) as F. unfold i, nearest64, slice_first, slice_last. lia.
Qed.
Theorem inside_no_round_up dx s n g w x r :
  bpow radix2 (-900) <= dx -> (1 <= n)%Z -> 0 <= rel64 x s -> r = block_coord64 dx s n x -> ((r + 1) * n <= 2 ^ 45)%Z -> b64 (dx * IZR n) <= dx * IZR n -> (w <= g)%Z ->
  let i := nearest64 Py dx s n g r x in (0 <= slice_first w i)%Z /\ (slice_last w i < n + 2 * g)%Z.
Proof.
  intros Hdx Hn Ha Hr Hb HD Hw i. pose proof (floordiv_near dx n Hdx Hn Py (rel64 x s) r Ha Hr Hb) as F. pose proof (below_end dx n Hdx Hn (rel64 x s) r Ha Hr Hb HD) as B.
  assert (floordiv64 Py (rel64 x s) dx < (r + 1) * n)%Z.
  { cbn [floordiv64]. rewrite (py_exact dx Hdx); auto.
    - apply lt_IZR. eapply Rle_lt_trans; [apply Zfloor_lb|exact B].
    - left. eapply Rlt_trans; [exact B|]. apply Rle_lt_trans with (IZR (2 ^ 45)); [now apply IZR_le|]. apply IZR_lt. reflexivity. }
  unfold i, nearest64, slice_first, slice_last. lia.
Qed.
Theorem inside_pow2 v k s n g w x r :
  (-900 <= k <= 0)%Z -> (1 <= n)%Z -> 0 <= rel64 x s -> r = block_coord64 (bpow radix2 k) s n x -> ((r + 1) * n <= 2 ^ 45)%Z -> (w <= g)%Z ->
  let i := nearest64 v (bpow radix2 k) s n g r x in (0 <= slice_first w i)%Z /\ (slice_last w i < n + 2 * g)%Z.
Proof.
  intros Hk Hn Ha Hr Hb Hw i. assert (Hdx : bpow radix2 (-900) <= bpow radix2 k) by (apply bpow_le; lia).
  destruct (near_block _ n Hdx Hn (rel64 x s) r Ha Hr Hb) as (_ & Hr0 & _).
  assert (HD : b64 (bpow radix2 k * IZR n) <= bpow radix2 k * IZR n) by (rewrite pow_mul; [lra|lia|split; [lia|nia]]).
  destruct v; [|now apply inside_no_round_up].
  pose proof (floordiv_near _ n Hdx Hn Quot (rel64 x s) r Ha Hr Hb) as F. pose proof (below_end _ n Hdx Hn (rel64 x s) r Ha Hr Hb HD) as B.
  assert (floordiv64 Quot (rel64 x s) (bpow radix2 k) < (r + 1) * n)%Z.
  { cbn [floordiv64]. rewrite quot_pow by (first [apply b64_double|lia]). apply lt_IZR. eapply Rle_lt_trans; [apply Zfloor_lb|exact B]. }
  unfold i, nearest64, slice_first, slice_last. lia.
Qed.
