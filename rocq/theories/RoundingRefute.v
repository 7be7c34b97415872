(** A unit domain with 420 cells split in 30 slabs of 14, and a node coordinate, for which the rank mapping and the support disagree. *)
From Coq Require Import ZArith Reals Lra Lia Psatz.
From Flocq Require Import Core Relative.
From Verif Require Import SpecRounding Rounding RoundingProofs.
Open Scope R_scope.
#[local] Instance prec53 : Prec_gt_0 53. Proof. reflexivity. Qed.
(** How to evaluate a rounding: x is closer than half a unit to the m-th multiple of 2^e. *)
Lemma cexp_val x m e : (-1074 <= e)%Z -> (2 ^ 52 <= m < 2 ^ 53)%Z -> IZR (2 ^ 52) * bpow radix2 e <= x -> x * bpow radix2 (- e) < IZR (2 ^ 53) -> cexp radix2 (FLT_exp (-1074) 53) x = e.
Proof.
  intros He Hm Hlo Hx. unfold cexp. rewrite (mag_unique radix2 x (e + 53)).
  - unfold FLT_exp. lia.
  - replace (e + 53 - 1)%Z with (52 + e)%Z by lia. replace (e + 53)%Z with (53 + e)%Z by lia. rewrite !bpow_plus. change (bpow radix2 52) with (IZR (2 ^ 52)). change (bpow radix2 53) with (IZR (2 ^ 53)).
    pose proof (bpow_gt_0 radix2 e) as Hp. assert (0 <= x) by (eapply Rle_trans; [|exact Hlo]; apply Rmult_le_pos; [apply IZR_le; lia|lra]). rewrite Rabs_pos_eq by assumption. split; [exact Hlo|].
    apply Rmult_lt_reg_r with (bpow radix2 (- e)); [apply bpow_gt_0|]. rewrite Rmult_assoc, <- bpow_plus, Z.add_opp_diag_r. cbn [bpow]. rewrite Rmult_1_r. exact Hx.
Qed.
Lemma b64_val x m e : (-1074 <= e)%Z -> (2 ^ 52 <= m < 2 ^ 53)%Z -> IZR (2 ^ 52) * bpow radix2 e <= x -> Rabs (x * bpow radix2 (- e) - IZR m) < / 2 -> b64 x = IZR m * bpow radix2 e.
Proof.
  intros He Hm Hlo Hx. unfold b64, round, scaled_mantissa. rewrite (cexp_val x m e); auto.
  - rewrite (Znearest_imp _ _ m) by exact Hx. reflexivity.
  - apply Rabs_def2 in Hx. assert (IZR m <= IZR (2 ^ 53) - 1) by (rewrite <- (minus_IZR _ 1); apply IZR_le; lia). lra.
Qed.
(** A tie goes to the even multiple. *)
Lemma b64_tie x m e : (-1074 <= e)%Z -> (2 ^ 52 <= m < 2 ^ 53)%Z -> Z.even m = true -> IZR (2 ^ 52) * bpow radix2 e <= x -> x * bpow radix2 (- e) = IZR m - / 2 -> b64 x = IZR m * bpow radix2 e.
Proof.
  intros He Hm Ev Hlo Hx. unfold b64, round, scaled_mantissa. rewrite (cexp_val x m e); auto.
  - rewrite Hx. assert (F : Zfloor (IZR m - / 2) = (m - 1)%Z) by (apply Zfloor_imp; rewrite plus_IZR, minus_IZR; cbn; lra). unfold Znearest. rewrite F. rewrite minus_IZR.
    rewrite Rcompare_Eq by (cbn; lra). rewrite Z.even_sub, Ev. cbn [Z.even xorb Bool.eqb negb]. rewrite Zceil_floor_neq by (rewrite F, minus_IZR; cbn; lra). rewrite F. unfold F2R. cbn. f_equal. f_equal. lia.
  - rewrite Hx. assert (IZR m <= IZR (2 ^ 53) - 1) by (rewrite <- (minus_IZR _ 1); apply IZR_le; lia). lra.
Qed.
Definition dx0 : R := IZR 5490102402889748 * bpow radix2 (-61).
Definition s0 : R := IZR 5490102402889748 * bpow radix2 (-62).
Definition x0 : R := IZR 6315762334574339 * bpow radix2 (-53).
Definition a0 : R := IZR 6305039478318695 * bpow radix2 (-53).
Ltac pows := cbn [Z.add Pos.add Pos.succ bpow Z.opp Z.pow_pos Pos.iter radix_val radix2 Z.mul Pos.mul]; lra.
Ltac rabs := apply Rabs_def1; pows.
Lemma dx0_val : b64 (1 / 420) = dx0.
Proof. apply b64_val; [lia|lia|pows|rabs]. Qed.
Lemma s0_val : b64 (dx0 / 2) = s0.
Proof. apply b64_val; [lia|lia|unfold dx0; pows|unfold dx0; rabs]. Qed.
Lemma a0_val : b64 (x0 - s0) = a0.
Proof. apply b64_val; [lia|lia|unfold x0, s0; pows|unfold x0, s0; rabs]. Qed.
Lemma D0_val : b64 (dx0 * 14) = IZR 4803839602528530 * bpow radix2 (-57).
Proof. apply b64_tie; [lia|lia|reflexivity|unfold dx0; pows|unfold dx0; pows]. Qed.
Lemma v0_val : b64 (a0 / (IZR 4803839602528530 * bpow radix2 (-57))) = IZR 5910974510923775 * bpow radix2 (-48).
Proof. apply b64_val; [lia|lia|unfold a0; pows|unfold a0; rabs]. Qed.
Lemma q0_bounds : 294 <= a0 / dx0 < 295.
Proof. unfold a0, dx0. split; pows. Qed.
Lemma r0_val : block_coord64 dx0 s0 14 x0 = 20%Z.
Proof.
  unfold block_coord64, rel64. rewrite a0_val, D0_val, v0_val. rewrite Ztrunc_floor by pows. apply Zfloor_imp. split; pows.
Qed.
Lemma i0_val v : floordiv64 v (rel64 x0 s0) dx0 = 294%Z.
Proof.
  assert (Hdx : bpow radix2 (-900) <= dx0).
  { apply Rle_trans with (1 * bpow radix2 (-61)); [rewrite Rmult_1_l; apply bpow_le; lia|]. unfold dx0. apply Rmult_le_compat_r; [apply bpow_ge_0|]. apply IZR_le. lia. }
  unfold rel64. rewrite a0_val. pose proof q0_bounds as Q. destruct v; cbn [floordiv64].
  - unfold floordiv_quot. rewrite (b64_val _ 5172102697058304 (-44)); [|lia|lia|unfold a0, dx0; pows|unfold a0, dx0; rabs]. apply Zfloor_imp. split; pows.
  - rewrite (py_exact dx0 Hdx); [apply Zfloor_imp; cbn; lra|unfold a0; pows|lra].
Qed.
Lemma doubles : is_double dx0 /\ is_double s0 /\ is_double x0.
Proof.
  split; [rewrite <- dx0_val; apply b64_double|]. split; [rewrite <- s0_val; apply b64_double|].
  apply generic_format_FLT. exists (Float radix2 6315762334574339 (-53)); cbn; [reflexivity|lia|lia].
Qed.
Lemma x0_in : 0 <= x0 - s0 /\ x0 < 1.
Proof. unfold x0, s0. split; pows. Qed.
Lemma refute v : let dx := b64 (1 / 420) in let s := b64 (dx / 2) in
  exists x, is_double x /\ s <= x < 1 /\ let r := block_coord64 dx s 14 x in (0 <= r < 30)%Z /\
  (14 + 2 * 2 <= slice_last 2 (nearest64 v dx s 14 2 r x))%Z.
Proof.
  cbv zeta. rewrite dx0_val, s0_val. exists x0. destruct doubles as (_ & _ & D). pose proof x0_in. split; [exact D|]. split; [lra|]. rewrite r0_val. split; [lia|].
  unfold slice_last, nearest64. rewrite i0_val. lia.
Qed.
