(** The regularised value of the planar Green's function is a mean over a disc. *)
From Coq Require Import Reals Lra.
From Coquelicot Require Import Coquelicot.
Open Scope R_scope.

Definition primitive (r : R) : R := - (r * r / 2 * ln r - r * r / 4).
Lemma primitive_derive r : 0 < r -> is_derive primitive r (- ln r / (2 * PI) * (2 * PI * r)).
Proof.
  intros H. unfold primitive. auto_derive; [lra|]. field. pose proof PI_RGT_0. split; lra.
Qed.
Lemma annulus a b : 0 < a -> a <= b -> is_RInt (fun r => - ln r / (2 * PI) * (2 * PI * r)) a b (primitive b - primitive a).
Proof.
  intros Ha Hb. apply (is_RInt_derive primitive).
  - intros x Hx. rewrite Rmin_left in Hx by assumption. apply primitive_derive. lra.
  - intros x Hx. rewrite Rmin_left in Hx by assumption.
    apply (ex_derive_continuous (V := R_NormedModule)). auto_derive. pose proof PI_RGT_0. repeat split; try lra.
Qed.
Lemma ln_small e : 0 < e <= 1 -> - 1 / e <= ln e <= 0.
Proof.
  intros [H1 H2]. split.
  - pose proof (exp_ineq1_le (ln (/ e))) as X. rewrite exp_ln, ln_Rinv in X by (try apply Rinv_0_lt_compat; lra). unfold Rdiv. lra.
  - rewrite <- ln_1. destruct (Req_dec e 1) as [->|N]; [lra|]. left. apply ln_increasing; lra.
Qed.
Lemma primitive_small e : 0 < e <= 1 -> Rabs (primitive e) <= e.
Proof.
  intros H. pose proof (ln_small e H) as [L1 L2]. unfold primitive.
  assert (A : - e <= e * e * ln e <= 0).
  { split.
    - apply Rle_trans with (e * e * (- 1 / e)). { right. field. lra. } apply Rmult_le_compat_l; [nra|assumption].
    - assert (0 <= e * e) by nra. nra. }
  apply Rabs_le. nra.
Qed.

Theorem mean_over_disc dx : 0 < dx ->
  let R0 := dx / sqrt PI in
  PI * R0 ^ 2 = dx ^ 2 /\
  forall tol, 0 < tol -> exists a0, 0 < a0 /\ forall a, 0 < a < a0 ->
    Rabs (RInt (fun r => - ln r / (2 * PI) * (2 * PI * r)) a R0 / dx ^ 2 - - (2 * ln R0 - 1) / (4 * PI)) < tol.
Proof.
  intros Hd R0. pose proof PI_RGT_0 as HP. assert (SP : 0 < sqrt PI) by (apply sqrt_lt_R0; assumption).
  assert (E : PI * R0 ^ 2 = dx ^ 2).
  { unfold R0. replace ((dx / sqrt PI) ^ 2) with (dx ^ 2 / (sqrt PI * sqrt PI)) by (field; lra). rewrite sqrt_sqrt by lra. field. lra. }
  split; [exact E|]. intros tol Ht.
  assert (HR : 0 < R0) by (apply Rdiv_lt_0_compat; assumption).
  assert (D2 : 0 < dx ^ 2) by (apply pow_lt; assumption).
  exists (Rmin R0 (Rmin 1 (tol * dx ^ 2))). split. { apply Rmin_pos; [assumption|]. apply Rmin_pos; [lra|]. apply Rmult_lt_0_compat; assumption. }
  intros a [Ha Hb].
  assert (B1 : a < R0) by (eapply Rlt_le_trans; [exact Hb|apply Rmin_l]).
  assert (B2 : a < 1) by (eapply Rlt_le_trans; [exact Hb|eapply Rle_trans; [apply Rmin_r|apply Rmin_l]]).
  assert (B3 : a < tol * dx ^ 2) by (eapply Rlt_le_trans; [exact Hb|eapply Rle_trans; [apply Rmin_r|apply Rmin_r]]).
  rewrite (is_RInt_unique _ _ _ _ (annulus a R0 Ha (Rlt_le _ _ B1))).
  replace ((primitive R0 - primitive a) / dx ^ 2 - - (2 * ln R0 - 1) / (4 * PI)) with (- primitive a / dx ^ 2).
  2:{ rewrite <- E. unfold primitive at 2. field. split; lra. }
  unfold Rdiv. rewrite Rabs_mult, Rabs_Ropp, (Rabs_right (/ dx ^ 2)) by (left; apply Rinv_0_lt_compat; assumption).
  apply (Rmult_lt_reg_r (dx ^ 2)); [assumption|]. rewrite Rmult_assoc, Rinv_l, Rmult_1_r by lra.
  eapply Rle_lt_trans; [apply primitive_small; lra|exact B3].
Qed.
