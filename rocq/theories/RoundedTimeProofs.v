(** Adaptive loops whose times are added in floating-point arithmetic. *)
From Coq Require Import Reals Lra.
From Verif Require Import Base SpecGrid SpecDiag SpecAdaptive SpecRoundoff Comm Diagnostics DiagProofs AdaptiveReals.
Open Scope Z_scope.

Section Gen.
Context {T X : Type}.
Variables (plus : R -> R -> R) (due : R -> R -> bool) (limits : list R) (final : R).
Variables (le : T -> T -> Prop) (mag : list T -> T) (lim : T -> R) (pre : R -> R) (N : list Z) (vel : list nat).
Variables (flow : X -> nat -> list Z -> T) (advance : nat -> R -> R -> X -> X).
Notation run := (serial_iterations Rbefore plus 0%R due limits final le mag lim pre N vel flow advance).
Hypothesis top : forall x, exists U, is_max le (inb N) (speed mag (flow x) vel) U.

Lemma g_go_or_over s0 : forall n, (exists hs s, run s0 hs s /\ serial_over Rbefore final s /\ (length hs <= n)%nat) \/ (exists hs s, run s0 hs s /\ length hs = n).
Proof.
  induction n as [|n IH]; [right; exists [], s0; split; [constructor|reflexivity]|].
  destruct IH as [(hs & s & A & O & L)|(hs & s & A & L)]; [left; exists hs, s; repeat split; auto|].
  destruct (Rbefore (s_time s) final) eqn:G.
  - right. destruct (top (s_state s)) as (U & HU). exists (hs ++ [{| h_due := timers_due due limits (s_timers s); h_state := s_state s; h_dt := pre (lim U) |}]). eexists.
    split; [econstructor; [exact A|]; apply (si Rbefore plus 0%R due limits final le mag lim pre N vel flow advance s U G HU)|]. rewrite app_length. cbn. lia.
  - left. exists hs, s. split; [exact A|]. split; [exact G|lia].
Qed.
Lemma g_last_before s0 hs e s : run s0 (hs ++ [e]) s -> exists s1, run s0 hs s1 /\ (s_time s1 < final)%R.
Proof.
  intros A. inversion A as [c E|c tr c1 e' c2 I1 I2 E1 E2]; [destruct hs; discriminate|]. apply app_inj_tail in E2 as [-> ->]. exists c1. split; [exact I1|].
  destruct I2 as [U G HU d]. unfold Rbefore in G. destruct (Rlt_dec (s_time c1) final); [assumption|discriminate].
Qed.

(** rounded additions *)
Variables (F : R -> Prop) (rnd : R -> R) (eps : R).
Hypothesis RS : rounded_sums F rnd eps.
Hypothesis Hplus : forall a b, plus a b = rnd (a + b)%R.
Hypothesis Hpre : forall x, F (pre x).

Lemma in_format s0 hs s : F (s_time s0) -> run s0 hs s -> F (s_time s) /\ (forall h, In h hs -> F (h_dt h)).
Proof.
  intros H0 A. induction A as [c|c tr c1 e c2 I1 IH I2]; [split; [exact H0|intros h []]|]. destruct (IH H0) as [IH1 IH2]. destruct I2 as [U G HU d]. cbn [s_time]. split.
  - rewrite Hplus. apply (rs_closed _ _ _ RS).
  - intros h Hh. apply in_app_or in Hh as [Hh|[<-|[]]]; [auto|]. cbn [h_dt]. apply Hpre.
Qed.
Lemma g_grow dmin s0 hs s : F (s_time s0) -> (0 <= s_time s0)%R -> (eps <= 1)%R -> (0 <= dmin)%R -> (0 <= dmin * (1 - eps) - eps * final)%R ->
  run s0 hs s -> (forall h, In h hs -> (dmin <= h_dt h)%R) -> (s_time s0 + INR (length hs) * (dmin * (1 - eps) - eps * final) <= s_time s)%R.
Proof.
  intros H0 HP He Hd Hp A. induction A as [c|c tr c1 e c2 I1 IH I2]; intros H; [cbn; lra|]. destruct (in_format _ _ _ H0 I1) as [F1 _].
  specialize (IH H0 HP (fun h Hh => H h (in_or_app _ _ _ (or_introl Hh)))). specialize (H e ltac:(apply in_or_app; right; now left)).
  rewrite app_length. cbn [length]. rewrite plus_INR. cbn [INR]. destruct I2 as [U G HU d]. cbn [h_dt s_time] in *. rewrite Hplus.
  unfold Rbefore in G. destruct (Rlt_dec (s_time c1) final) as [L|]; [|discriminate].
  set (t := s_time c1) in *. set (p := (dmin * (1 - eps) - eps * final)%R) in *.
  assert (Ht : (0 <= t)%R) by (pose proof (pos_INR (length tr)) as X1; pose proof (Rmult_le_pos _ _ X1 Hp); lra).
  pose proof (rs_eps _ _ _ RS) as E0. pose proof (rs_error _ _ _ RS t d F1 (Hpre _)) as E1.
  rewrite (Rabs_pos_eq (t + d)) in E1 by lra. assert (E2 : (- (rnd (t + d) - (t + d)) <= eps * (t + d))%R) by (eapply Rle_trans; [apply Rle_abs|]; rewrite Rabs_Ropp; exact E1).
  assert (X1 : (dmin * (1 - eps) <= d * (1 - eps))%R) by (apply Rmult_le_compat_r; lra).
  assert (X2 : (eps * t <= eps * final)%R) by (apply Rmult_le_compat_l; lra).
  unfold p in *. rewrite Rmult_plus_distr_l in E2. lra.
Qed.
Lemma g_bounded dmin s0 hs s : F (s_time s0) -> (0 <= s_time s0)%R -> (eps <= 1)%R -> (0 <= dmin)%R -> (0 <= dmin * (1 - eps) - eps * final)%R ->
  run s0 hs s -> (forall h, In h hs -> (dmin <= h_dt h)%R) -> hs <> [] -> ((INR (length hs) - 1) * (dmin * (1 - eps) - eps * final) < final - s_time s0)%R.
Proof.
  intros H0 HP He Hd Hp A H Hn. destruct (exists_last Hn) as (hs' & e & ->). destruct (g_last_before _ _ _ _ A) as (s1 & B & L).
  pose proof (g_grow dmin s0 hs' s1 H0 HP He Hd Hp B (fun h Hh => H h (in_or_app _ _ _ (or_introl Hh)))) as G. rewrite app_length. cbn [length]. rewrite plus_INR. cbn [INR]. lra.
Qed.
Lemma g_ends dmin s0 : F (s_time s0) -> (0 <= s_time s0)%R -> (eps <= 1)%R -> (0 <= dmin)%R -> (0 < dmin * (1 - eps) - eps * final)%R ->
  (forall hs s, run s0 hs s -> forall h, In h hs -> (dmin <= h_dt h)%R) -> exists hs s, run s0 hs s /\ serial_over Rbefore final s.
Proof.
  intros H0 HP He Hd Hp H. set (p := (dmin * (1 - eps) - eps * final)%R) in *. destruct (unbounded ((final - s_time s0) / p + 1)) as (n & Hn).
  destruct (g_go_or_over s0 n) as [(hs & s & A & O & _)|(hs & s & A & L)]; [exists hs, s; auto|].
  destruct (Nat.eq_dec n 0) as [E|E].
  - subst n. destruct hs; [|discriminate]. exists [], s. split; [exact A|]. unfold serial_over, Rbefore. destruct (Rlt_dec _ _) as [Q|Q]; [|reflexivity]. exfalso.
    assert (Es : s = s0) by (inversion A as [c Ec|c tr c1 e c2 I1 I2 E1 E2]; [reflexivity|destruct tr; discriminate]). subst s. cbn in Hn.
    assert ((0 < (final - s_time s0) / p)%R) by (apply Rdiv_lt_0_compat; lra). lra.
  - exfalso. assert (Hne : hs <> []) by (intros ->; cbn in L; congruence). pose proof (g_bounded dmin s0 hs s H0 HP He Hd (Rlt_le _ _ Hp) A (H hs s A) Hne) as B. rewrite L in B. fold p in B.
    assert (X1 : ((final - s_time s0) / p < INR n - 1)%R) by lra. apply (Rmult_lt_compat_r p _ _ Hp) in X1. unfold Rdiv in X1. rewrite Rmult_assoc, Rinv_l in X1 by lra. lra.
Qed.
(** The time reached is the sum of the time steps, up to the rounding of one addition per step. *)
Definition total_dt (hs : list (happening R X)) : R := exact_sum (map (fun h => h_dt h) hs).
Lemma exact_snoc l x : exact_sum (l ++ [x]) = (exact_sum l + x)%R.
Proof. unfold exact_sum, SpecGhostSum.total. induction l as [|y l IH]; cbn [app fold_right]; [ring|]. rewrite IH. ring. Qed.
Lemma mag_snoc l x : magnitude (l ++ [x]) = (magnitude l + Rabs x)%R.
Proof. unfold magnitude. rewrite map_app. exact (exact_snoc (map Rabs l) (Rabs x)). Qed.
Lemma exact_le_mag l : (Rabs (exact_sum l) <= magnitude l)%R.
Proof.
  unfold magnitude, exact_sum, SpecGhostSum.total. induction l as [|x l IH]; cbn [map fold_right]; [rewrite Rabs_R0; lra|]. eapply Rle_trans; [apply Rabs_triang|]. lra.
Qed.
Lemma g_time s0 hs s : F (s_time s0) -> run s0 hs s -> sums_to eps (length hs) (s_time s0) (map (fun h => h_dt h) hs) (s_time s).
Proof.
  intros H0 A. induction A as [c|c tr c1 e c2 I1 IH I2].
  - unfold sums_to. cbn. unfold exact_sum, magnitude, SpecGhostSum.total. cbn. replace (s_time c - (s_time c + 0))%R with 0%R by ring. rewrite Rabs_R0. apply Req_le. ring.
  - specialize (IH H0). destruct (in_format _ _ _ H0 I1) as [F1 _]. destruct I2 as [U G HU d]. cbn [s_time]. rewrite Hplus, app_length, map_app. cbn [map h_dt length]. unfold sums_to in *. rewrite exact_snoc, mag_snoc.
    set (l := map (fun h => h_dt h) tr) in *. set (n := length tr) in *. set (b := s_time c) in *. set (t := s_time c1) in *.
    pose proof (rs_error _ _ _ RS t d F1 (Hpre _)) as E1. pose proof (rs_eps _ _ _ RS) as E0. pose proof (exact_le_mag l) as EM.
    set (k := ((1 + eps) ^ n)%R) in *. assert (K1 : (1 <= k)%R) by (apply pow_R1_Rle; lra).
    replace (n + 1)%nat with (Datatypes.S n) by lia. cbn [pow]. fold k.
    set (S1 := exact_sum l) in *. set (M := magnitude l) in *. set (B := Rabs b) in *.
    assert (HB : (Rabs (b + S1) <= B + M)%R) by (eapply Rle_trans; [apply Rabs_triang|unfold B; lra]).
    assert (HT : (Rabs (t + d) <= k * (B + M) + Rabs d)%R).
    { replace (t + d)%R with ((t - (b + S1)) + (b + S1) + d)%R by ring. eapply Rle_trans; [apply Rabs_triang|]. apply Rplus_le_compat_r. eapply Rle_trans; [apply Rabs_triang|]. lra. }
    replace (rnd (t + d) - (b + (S1 + d)))%R with ((rnd (t + d) - (t + d)) + (t - (b + S1)))%R by ring. eapply Rle_trans; [apply Rabs_triang|].
    assert (X1 : (eps * Rabs (t + d) <= eps * (k * (B + M) + Rabs d))%R) by (apply Rmult_le_compat_l; lra).
    assert (X2 : (eps * Rabs d <= ((1 + eps) * k - 1) * Rabs d)%R).
    { apply Rmult_le_compat_r; [apply Rabs_pos|]. assert (eps * 1 <= eps * k)%R by (apply Rmult_le_compat_l; lra). lra. }
    rewrite Rmult_plus_distr_l in X1. lra.
Qed.
End Gen.
