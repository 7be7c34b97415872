(** Adaptive loops end if the speed stays bounded (exact times). *)
From Coq Require Import Reals Lra.
From Verif Require Import Base SpecGrid SpecDiag SpecAdaptive Comm Diagnostics DiagProofs.
Open Scope Z_scope.

Lemma unbounded (x : R) : exists n, (x < INR n)%R.
Proof.
  exists (Z.to_nat (up x)). destruct (archimed x) as [A _]. rewrite INR_IZR_INZ. destruct (Z_lt_le_dec (up x) 0) as [L|L].
  - apply (Rlt_le_trans _ (IZR (up x))); [lra|]. apply IZR_le. lia.
  - rewrite Z2Nat.id by lia. lra.
Qed.
Section R.
Context {T X : Type}.
Variables (due : R -> R -> bool) (limits : list R) (final : R).
Variables (le : T -> T -> Prop) (mag : list T -> T) (lim : T -> R) (pre : R -> R) (N : list Z) (vel : list nat).
Variables (flow : X -> nat -> list Z -> T) (advance : nat -> R -> R -> X -> X).
Definition Rbefore (a b : R) : bool := if Rlt_dec a b then true else false.
Notation run := (serial_iterations Rbefore Rplus 0%R due limits final le mag lim pre N vel flow advance).
Hypothesis top : forall x, exists U, is_max le (inb N) (speed mag (flow x) vel) U.

Lemma times_grow dmin s0 hs s : run s0 hs s -> (forall h, In h hs -> (dmin <= h_dt h)%R) -> (s_time s0 + INR (length hs) * dmin <= s_time s)%R.
Proof.
  intros A. induction A as [c|c tr c1 e c2 I1 IH I2]; intros H; [cbn; lra|].
  specialize (IH (fun h Hh => H h (in_or_app _ _ _ (or_introl Hh)))). specialize (H e ltac:(apply in_or_app; right; now left)).
  rewrite app_length. cbn [length]. rewrite plus_INR. cbn [INR]. destruct I2 as [U G HU d]. cbn [h_dt s_time] in *. lra.
Qed.
Lemma last_before s0 hs e s : run s0 (hs ++ [e]) s -> exists s1, run s0 hs s1 /\ (s_time s1 < final)%R.
Proof.
  intros A. inversion A as [c E|c tr c1 e' c2 I1 I2 E1 E2]; [destruct hs; discriminate|]. apply app_inj_tail in E2 as [-> ->]. exists c1. split; [exact I1|].
  destruct I2 as [U G HU d]. unfold Rbefore in G. destruct (Rlt_dec (s_time c1) final); [assumption|discriminate].
Qed.
(** The number of iterations. *)
Lemma bounded dmin s0 hs s : run s0 hs s -> (forall h, In h hs -> (dmin <= h_dt h)%R) -> hs <> [] -> ((INR (length hs) - 1) * dmin < final - s_time s0)%R.
Proof.
  intros A H Hn. destruct (exists_last Hn) as (hs' & e & ->). destruct (last_before _ _ _ _ A) as (s1 & B & L).
  pose proof (times_grow dmin s0 hs' s1 B (fun h Hh => H h (in_or_app _ _ _ (or_introl Hh)))) as G. rewrite app_length. cbn [length]. rewrite plus_INR. cbn [INR]. lra.
Qed.
Lemma go_or_over s0 : forall n, (exists hs s, run s0 hs s /\ serial_over Rbefore final s /\ (length hs <= n)%nat) \/ (exists hs s, run s0 hs s /\ length hs = n).
Proof.
  induction n as [|n IH]; [right; exists [], s0; split; [constructor|reflexivity]|].
  destruct IH as [(hs & s & A & O & L)|(hs & s & A & L)]; [left; exists hs, s; repeat split; auto|].
  destruct (Rbefore (s_time s) final) eqn:G.
  - right. destruct (top (s_state s)) as (U & HU). exists (hs ++ [{| h_due := timers_due due limits (s_timers s); h_state := s_state s; h_dt := pre (lim U) |}]). eexists.
    split; [econstructor; [exact A|]; apply (si Rbefore Rplus 0%R due limits final le mag lim pre N vel flow advance s U G HU)|]. rewrite app_length. cbn. lia.
  - left. exists hs, s. split; [exact A|]. split; [exact G|lia].
Qed.
Lemma ends dmin s0 : (0 < dmin)%R -> (forall hs s, run s0 hs s -> forall h, In h hs -> (dmin <= h_dt h)%R) ->
  exists hs s, run s0 hs s /\ serial_over Rbefore final s.
Proof.
  intros Hd H. destruct (unbounded ((final - s_time s0) / dmin + 1)) as (n & Hn).
  destruct (go_or_over s0 n) as [(hs & s & A & O & _)|(hs & s & A & L)]; [exists hs, s; auto|].
  destruct (Nat.eq_dec n 0) as [E|E].
  - subst n. destruct hs; [|discriminate]. exists [], s. split; [exact A|]. unfold serial_over, Rbefore. destruct (Rlt_dec _ _) as [Q|Q]; [|reflexivity]. exfalso.
    assert (Es : s = s0) by (inversion A as [c Ec|c tr c1 e c2 I1 I2 E1 E2]; [reflexivity|destruct tr; discriminate]). subst s. cbn in Hn.
    assert ((0 < (final - s_time s0) / dmin)%R) by (apply Rdiv_lt_0_compat; lra). lra.
  - exfalso. assert (Hne : hs <> []) by (intros ->; cbn in L; congruence). pose proof (bounded dmin s0 hs s A (H hs s A) Hne) as B. rewrite L in B.
    assert (X1 : ((final - s_time s0) / dmin < INR n - 1)%R) by lra. apply (Rmult_lt_compat_r dmin _ _ Hd) in X1. unfold Rdiv in X1. rewrite Rmult_assoc, Rinv_l in X1 by lra. lra.
Qed.
End R.

Lemma bounded_speed {X} dims loc CFL dx tol nu tol' prefac due limits final vel (flow : X -> nat -> list Z -> R) advance Umax s0 :
  let N := global_size dims loc in let dmin := (dt_limit (length loc) CFL dx tol nu tol' Umax * prefac)%R in
  let run := serial_iterations Rbefore Rplus 0%R due limits final Rle abs_sum (dt_limit (length loc) CFL dx tol nu tol') (fun t => t * prefac)%R N vel flow advance in
  grid_ok dims loc -> (0 <= CFL * dx)%R -> (0 < tol)%R -> (0 <= prefac)%R -> (0 < dmin)%R -> (0 <= Umax)%R ->
  (forall hs s, run s0 hs s -> forall P, inb N P -> (speed abs_sum (flow (s_state s)) vel P <= Umax)%R) ->
  (exists hs s, run s0 hs s /\ (final <= s_time s)%R) /\
  (forall hs s, run s0 hs s -> hs <> [] -> ((INR (length hs) - 1) * dmin < final - s_time s0)%R).
Proof.
  intros N dmin run Hok Hc Ht Hp Hd HU HB.
  assert (top : forall x, exists U, is_max Rle (inb N) (speed abs_sum (flow x) vel) U) by (intros x; exact (top_exists dims loc Hok abs_sum Rle Rmin Rmax ordered_R vel (flow x))).
  assert (G : forall hs s, run s0 hs s -> forall h, In h hs -> (dmin <= h_dt h)%R).
  { intros hs s A. induction A as [c|c tr c1 e c2 I1 IH I2]; intros h Hh; [destruct Hh|]. apply in_app_or in Hh as [Hh|[<-|[]]]; [apply IH; auto|].
    destruct I2 as [U Gx HM d]. cbn [h_dt]. subst d. unfold dmin. apply Rmult_le_compat_r; [exact Hp|]. destruct HM as ((P & HP & EP) & _).
    assert (LU : (U <= Umax)%R) by (rewrite EP; exact (HB tr c1 I1 P HP)).
    assert (EU : Umax = abs_sum [Umax]) by (unfold abs_sum; cbn; rewrite Rabs_right by lra; lra).
    rewrite EP in LU |- *. rewrite EU in LU. rewrite EU at 1. apply (real_limit_anti _ _ _ _ _ _ (map (fun f => flow (s_state c1) f P) vel) [Umax] Hc Ht). exact LU. }
  split.
  - destruct (ends due limits final Rle abs_sum (dt_limit (length loc) CFL dx tol nu tol') (fun t => t * prefac)%R N vel flow advance top dmin s0 Hd G) as (hs & s & A & O).
    exists hs, s. split; [exact A|]. unfold serial_over, Rbefore in O. destruct (Rlt_dec (s_time s) final); [discriminate|lra].
  - intros hs s A Hn. exact (bounded due limits final Rle abs_sum (dt_limit (length loc) CFL dx tol nu tol') (fun t => t * prefac)%R N vel flow advance dmin s0 hs s A (G hs s A) Hn).
Qed.
