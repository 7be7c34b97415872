(** A run whose time steps are positive but too small to move the (binary64) time. *)
From Coq Require Import Reals Lra Lia.
From Flocq Require Import Core.
From Verif Require Import Base SpecGrid SpecDiag SpecAdaptive SpecRounding SpecRoundoff Comm Diagnostics DiagProofs AdaptiveReals RoundingProofs RoundingRefute.
Open Scope Z_scope.

#[local] Instance prec53t : Prec_gt_0 53. Proof. reflexivity. Qed.
Definition fast_flow (f : nat) (p : list Z) : R := match f with Datatypes.O => IZR 1152921504606846976 | _ => 0%R end.
Notation fast_limit := (dt_limit 2 (1 / 10) 1 (1 / 2) 0 0).
Definition fast_dt : R := b64 (fast_limit (IZR 1152921504606846976)).

Lemma b64_le x y : (x <= y)%R -> (b64 x <= b64 y)%R.
Proof. intros H. unfold b64. apply round_le; auto with typeclass_instances. Qed.
Lemma b64_bpow e : (-1074 <= e)%Z -> b64 (bpow radix2 e) = bpow radix2 e.
Proof. intros H. unfold b64. apply round_generic; auto with typeclass_instances. apply generic_format_bpow. unfold FLT_exp. lia. Qed.
Lemma limit_bounds : (bpow radix2 (-64) <= fast_limit (IZR 1152921504606846976) <= bpow radix2 (-63))%R.
Proof.
  unfold dt_limit. destruct (Req_EM_T (0 + 0) 0) as [_|N]; [|exfalso; apply N; lra]. cbv zeta.
  assert (P : (0 < IZR 1152921504606846976 + 1 / 2)%R) by lra.
  assert (E : (1 / 10 * 1 / (IZR 1152921504606846976 + 1 / 2) * (IZR 1152921504606846976 + 1 / 2) = 1 / 10)%R) by (field; lra).
  split; apply Rmult_le_reg_r with (IZR 1152921504606846976 + 1 / 2)%R; try exact P; rewrite E; clear; [change (bpow radix2 (-64)) with (/ IZR 18446744073709551616)%R|change (bpow radix2 (-63)) with (/ IZR 9223372036854775808)%R]; lra.
Qed.
Lemma dt_bounds : (bpow radix2 (-64) <= fast_dt <= bpow radix2 (-63))%R.
Proof.
  destruct limit_bounds as [L U]. unfold fast_dt. split.
  - rewrite <- (b64_bpow (-64)) by lia. apply b64_le. exact L.
  - rewrite <- (b64_bpow (-63)) by lia. apply b64_le. exact U.
Qed.
Lemma stuck : b64 (1 + fast_dt) = 1%R.
Proof.
  destruct dt_bounds as [L U]. pose proof (bpow_gt_0 radix2 (-64)) as P.
  change (bpow radix2 (-63)) with (/ IZR 9223372036854775808)%R in U. change (bpow radix2 (-64)) with (/ IZR 18446744073709551616)%R in L, P.
  rewrite (b64_val (1 + fast_dt) 4503599627370496 (-52)); [|lia|lia| |]; cbn [Z.opp]; change (bpow radix2 (-52)) with (/ IZR 4503599627370496)%R; change (bpow radix2 52) with (IZR 4503599627370496).
  - lra.
  - assert ((0 <= fast_dt)%R) by lra. change (2 ^ 52) with 4503599627370496. lra.
  - apply Rabs_def1; lra.
Qed.
Notation fast_run := (serial_iterations Rbefore (fun a b => b64 (a + b)) 0%R (fun _ _ => false) [] 2%R Rle abs_sum fast_limit b64 [2; 2] [0; 1]%nat (fun u : nat -> list Z -> R => u) (fun _ _ _ u => u)).
Definition fast_start : sconfig R (nat -> list Z -> R) := {| s_count := 0; s_time := 1%R; s_timers := []; s_state := fast_flow |}.
Lemma fast_speed P : speed abs_sum fast_flow [0; 1]%nat P = IZR 1152921504606846976.
Proof. unfold speed, abs_sum. cbn. rewrite Rabs_pos_eq by lra. rewrite Rabs_R0. lra. Qed.
Lemma fast_max U : is_max Rle (inb [2; 2]) (speed abs_sum fast_flow [0; 1]%nat) U -> U = IZR 1152921504606846976.
Proof. intros ((P & _ & E) & _). rewrite E. apply fast_speed. Qed.
Lemma fast_is_max : is_max Rle (inb [2; 2]) (speed abs_sum fast_flow [0; 1]%nat) (IZR 1152921504606846976).
Proof. split; [exists [0; 0]; split; [repeat constructor; lia|symmetry; apply fast_speed]|]. intros P _. rewrite fast_speed. apply Rle_refl. Qed.
Lemma fast_all hs s : fast_run fast_start hs s -> s_time s = 1%R /\ s_state s = fast_flow /\ (forall h, In h hs -> h_dt h = fast_dt).
Proof.
  intros A. change (s_time (s) = 1%R) with (s_time s = 1%R). remember fast_start as c0 eqn:E0. induction A as [c|c tr c1 e c2 I1 IH I2]; subst.
  - repeat split. intros h [].
  - destruct (IH eq_refl) as (T & St & D). destruct I2 as [U G HU d]. cbn [s_time s_state]. rewrite St in HU. apply fast_max in HU. subst U. split; [|split].
    + rewrite T. exact stuck.
    + exact St.
    + intros h Hh. apply in_app_or in Hh as [Hh|[<-|[]]]; [auto|]. reflexivity.
Qed.
Lemma fast_long n : exists hs s, fast_run fast_start hs s /\ length hs = n.
Proof.
  induction n as [|n (hs & s & A & L)]; [exists [], fast_start; split; [constructor|reflexivity]|].
  destruct (fast_all hs s A) as (T & St & D). eexists (hs ++ [_]), _. split.
  - eapply sis_snoc; [exact A|]. apply (si Rbefore (fun a b => b64 (a + b)) 0%R (fun _ _ => false) [] 2%R Rle abs_sum fast_limit b64 [2; 2] [0; 1]%nat (fun u : nat -> list Z -> R => u) (fun _ _ _ u => u) s (IZR 1152921504606846976)).
    + rewrite T. unfold Rbefore. destruct (Rlt_dec 1 2) as [_|N]; [reflexivity|exfalso; lra].
    + rewrite St. exact fast_is_max.
  - rewrite app_length, L. cbn. lia.
Qed.
