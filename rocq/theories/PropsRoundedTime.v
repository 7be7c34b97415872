(** Property C66: an adaptive loop whose times are added in floating-point arithmetic. *)
From Coq Require Import Reals Lra.
From Verif Require Import Base SpecGrid SpecGhost SpecStencil SpecPenalise SpecFilter SpecDouble SpecNS SpecDiag SpecLoop SpecAdaptive SpecRounding SpecRoundoff
  Comm Spmd PyNum NavierStokes Diagnostics Loop Adaptive PropsAdaptive.
From Verif Require KernelProofs DiagProofs AdaptiveReals RoundedTimeProofs RoundedTimeRefute RoundoffRefute PropsNS AdaptiveThms.
From Flocq Require Core.Raux Core.Zaux.
Open Scope Z_scope.
Notation Rbefore := (fun a b : R => if Rlt_dec a b then true else false).
Notation rounded_plus rnd := (fun a b : R => rnd (a + b)%R).

(** C66.  Additions rounded with relative error eps (C61: binary64 has eps = 2^-53), steps of at least dmin, and dmin not lost against
    the final time: dmin (1 - eps) > eps final.  Then the loop ends, after a bounded number of iterations. *)
Theorem C66_ends {T X} F rnd eps dims loc due limits final (le : T -> T -> Prop) mnT mxT mag (lim : T -> R) pre vel (flow : X -> nat -> list Z -> T) advance dmin s0 :
  let run := serial_iterations Rbefore (rounded_plus rnd) 0%R due limits final le mag lim pre (global_size dims loc) vel flow advance in
  rounded_sums F rnd eps -> (eps <= 1)%R -> (forall x, F (pre x)) -> F (s_time s0) -> (0 <= s_time s0)%R ->
  grid_ok dims loc -> ordered le mnT mxT ->
  (0 <= dmin)%R -> (eps * final < dmin * (1 - eps))%R -> (forall hs s, run s0 hs s -> forall h, In h hs -> (dmin <= h_dt h)%R) ->
  (exists hs s, run s0 hs s /\ (final <= s_time s)%R) /\
  (forall hs s, run s0 hs s -> hs <> [] -> ((INR (length hs) - 1) * (dmin * (1 - eps) - eps * final) < final - s_time s0)%R).
Proof.
  intros run RS He HF H0 HP Hok Hord Hd Hs HB.
  assert (top : forall x, exists U, is_max le (inb (global_size dims loc)) (speed mag (flow x) vel) U) by (intros x; exact (DiagProofs.top_exists dims loc Hok mag le mnT mxT Hord vel (flow x))).
  split.
  - destruct (RoundedTimeProofs.g_ends (rounded_plus rnd) due limits final le mag lim pre (global_size dims loc) vel flow advance top F rnd eps RS (fun _ _ => eq_refl) HF dmin s0 H0 HP He Hd ltac:(lra) HB) as (hs & s & A & Ov).
    exists hs, s. split; [exact A|]. unfold serial_over, AdaptiveReals.Rbefore in Ov. cbv beta in Ov. destruct (Rlt_dec (s_time s) final); [discriminate|lra].
  - intros hs s A Hn. exact (RoundedTimeProofs.g_bounded (rounded_plus rnd) due limits final le mag lim pre (global_size dims loc) vel flow advance F rnd eps RS (fun _ _ => eq_refl) HF dmin s0 hs s H0 HP He Hd ltac:(lra) A (HB hs s A) Hn).
Qed.
(** C66.  The time reached is the start plus the sum of the time steps, up to the rounding of one addition per step. *)
Theorem C66_time_error {T X} F rnd eps N due limits final (le : T -> T -> Prop) mag (lim : T -> R) pre vel (flow : X -> nat -> list Z -> T) advance s0 hs s :
  rounded_sums F rnd eps -> (forall x, F (pre x)) -> F (s_time s0) ->
  serial_iterations Rbefore (rounded_plus rnd) 0%R due limits final le mag lim pre N vel flow advance s0 hs s ->
  sums_to eps (length hs) (s_time s0) (map (fun h => h_dt h) hs) (s_time s).
Proof.
  intros RS HF H0 A. exact (RoundedTimeProofs.g_time (rounded_plus rnd) due limits final le mag lim pre N vel flow advance F rnd eps RS (fun _ _ => eq_refl) HF s0 hs s H0 A).
Qed.

(** On every decomposition (the loops of C59). *)
Section Ranks.
Context {T C : Type}.
Variables (due : R -> R -> bool) (limits : list R) (final : R).
Variables (le : T -> T -> Prop) (mnT mx : T -> T -> T) (mag : list T -> T) (lim : T -> R) (pre : R -> R).
Hypothesis values_ordered : ordered le mnT mx.
Hypothesis limit_antitone : forall k l, le (mag k) (mag l) -> (lim (mag l) <= lim (mag k))%R.
Variables (F : R -> Prop) (rnd : R -> R) (eps dmin : R).
Hypothesis rounding : rounded_sums F rnd eps /\ (eps <= 1)%R /\ (forall x, F (pre x)).
Hypothesis steps_matter : (0 <= dmin)%R /\ (eps * final < dmin * (1 - eps))%R.
Variables (add : T -> T -> T) (z : T) (damp : C -> C -> T -> T) (coord : nat -> Z -> C) (width : Z) (conv : (list Z -> T) -> list Z -> T).

Theorem C66_ranks_2d Kcx Kcy w psi vx vy fx fy buf D S (mk : nat -> R -> R -> list (list T) -> @ns2_step T) py px ny nx g full dd xg c0 s0 :
  let Fs := [w; psi; vx; vy] in let N := global_size [py; px] [ny; nx] in
  let ranks_run := iterations [py; px] [ny; nx] g Rbefore (rounded_plus rnd) 0%R due limits final mag mx lim Rmin pre [vx; vy] buf
    (kept [py; px] [ny; nx] g Fs) (body_2d add z damp width conv Kcx Kcy w psi vx vy fx fy buf D S mk py px ny nx g full dd xg) in
  let serial_run := serial_iterations Rbefore (rounded_plus rnd) 0%R due limits final le mag lim pre N [vx; vy] (fun u => u)
    (fun k t d u => serial_ns_2d add z damp coord width conv Kcx Kcy N w psi vx vy fx fy u (mk k t d (whole N Fs u))) in
  ns2_setting py px ny nx g width dd xg coord w psi vx vy fx fy buf D S Kcx Kcy -> (forall k t d ls, ns2_step_ok z N w vx vy fx fy (mk k t d ls)) ->
  all_ranks_at [py; px] [ny; nx] g Fs c0 s0 -> F (s_time s0) -> (0 <= s_time s0)%R -> (forall hs s, serial_run s0 hs s -> forall h, In h hs -> (dmin <= h_dt h)%R) ->
  (exists tr c, ranks_run c0 tr c /\ over [py; px] Rbefore final c) /\
  (forall tr c, ranks_run c0 tr c ->
    (forall r, 0 <= r < zprod [py; px] -> sums_to eps (length tr) (s_time s0) (map (fun e => e_dt e) tr) (c_time c r)) /\
    (tr <> [] -> ((INR (length tr) - 1) * (dmin * (1 - eps) - eps * final) < final - s_time s0)%R)).
Proof.
  intros Fs N ranks_run serial_run HS Hk H H0 HP HB. destruct rounding as (RS & He & HF). destruct steps_matter as (Hd & Hm).
  pose proof HS as [G _ _ _ _ _ _ _ _]. pose proof (KernelProofs.g2_ok _ _ _ _ _ G) as Hok.
  destruct (C66_ends F rnd eps [py; px] [ny; nx] due limits final le mnT mx mag lim pre [vx; vy] (fun u => u) _ dmin s0 RS He HF H0 HP Hok values_ordered Hd Hm HB) as [(hs & s & A & Ov) B].
  split.
  - apply (proj1 (C59_ends_as_serial_2d Rbefore (rounded_plus rnd) 0%R due limits final le mnT mx Rle Rmin Rmax mag lim pre values_ordered DiagProofs.ordered_R limit_antitone add z damp coord width conv Kcx Kcy w psi vx vy fx fy buf D S mk py px ny nx g full dd xg c0 s0 HS Hk H)).
    exists hs, s. split; [exact A|]. unfold serial_over. cbv beta. destruct (Rlt_dec (s_time s) final); [lra|reflexivity].
  - intros tr c It.
    destruct (C59_lockstep_2d Rbefore (rounded_plus rnd) 0%R due limits final le mnT mx Rle Rmin Rmax mag lim pre values_ordered DiagProofs.ordered_R limit_antitone add z damp coord width conv Kcx Kcy w psi vx vy fx fy buf D S mk py px ny nx g full dd xg c0 s0 tr c HS Hk H It)
      as (hs' & s' & A' & M & At & _ & _).
    assert (L : length tr = length hs' /\ map (fun e => e_dt e) tr = map (fun h => h_dt h) hs').
    { clear -M. induction M as [|e h tr hs' (_ & E & _) M [IH1 IH2]]; [split; reflexivity|]. cbn [length map]. rewrite IH1, IH2, E. split; reflexivity. }
    destruct L as [L1 L2]. split.
    + intros r Hr. destruct At as (_ & At & _). rewrite (proj1 (At r Hr)), L1, L2. exact (C66_time_error F rnd eps N due limits final le mag lim pre [vx; vy] (fun u => u) _ s0 hs' s' RS HF H0 A').
    + intros Hn. rewrite L1. apply (B hs' s' A'). intros ->. apply Hn. apply length_zero_iff_nil. exact L1.
Qed.
Theorem C66_ranks_3d Kcx Kcy Kcz lap sub filt w0 w1 w2 p0 p1 p2 vx vy vz fx fy fz b0 b1 b2 buf D S (mk : nat -> R -> R -> list (list T) -> @ns3_step T) pz py px n0 n1 n2 g full xg c0 s0 :
  let Fs := [w0; w1; w2; p0; p1; p2; vx; vy; vz] in let N := global_size [pz; py; px] [n0; n1; n2] in
  let ranks_run := iterations [pz; py; px] [n0; n1; n2] g Rbefore (rounded_plus rnd) 0%R due limits final mag mx lim Rmin pre [vx; vy; vz] buf
    (kept [pz; py; px] [n0; n1; n2] g Fs) (body_3d add z damp width conv Kcx Kcy Kcz lap sub filt w0 w1 w2 p0 p1 p2 vx vy vz fx fy fz b0 b1 b2 buf D S mk pz py px n0 n1 n2 g full xg) in
  let serial_run := serial_iterations Rbefore (rounded_plus rnd) 0%R due limits final le mag lim pre N [vx; vy; vz] (fun u => u)
    (fun k t d u => serial_ns_3d add z damp coord width conv Kcx Kcy Kcz lap sub filt N w0 w1 w2 p0 p1 p2 vx vy vz b0 b1 b2 fx fy fz u (mk k t d (whole N Fs u))) in
  ns3_setting pz py px n0 n1 n2 g width filt xg coord w0 w1 w2 p0 p1 p2 vx vy vz fx fy fz b0 b1 b2 buf D S Kcx Kcy Kcz ->
  (forall k t d ls, ns3_step_ok z N [w0; w1; w2] [vx; vy; vz] [b0; b1; b2] [fx; fy; fz] (mk k t d ls)) ->
  all_ranks_at [pz; py; px] [n0; n1; n2] g Fs c0 s0 -> F (s_time s0) -> (0 <= s_time s0)%R -> (forall hs s, serial_run s0 hs s -> forall h, In h hs -> (dmin <= h_dt h)%R) ->
  (exists tr c, ranks_run c0 tr c /\ over [pz; py; px] Rbefore final c) /\
  (forall tr c, ranks_run c0 tr c ->
    (forall r, 0 <= r < zprod [pz; py; px] -> sums_to eps (length tr) (s_time s0) (map (fun e => e_dt e) tr) (c_time c r)) /\
    (tr <> [] -> ((INR (length tr) - 1) * (dmin * (1 - eps) - eps * final) < final - s_time s0)%R)).
Proof.
  intros Fs N ranks_run serial_run HS Hk H H0 HP HB. destruct rounding as (RS & He & HF). destruct steps_matter as (Hd & Hm).
  pose proof HS as [G _ _ _ _ _ _ _]. pose proof (KernelProofs.g3_ok _ _ _ _ _ _ _ G) as Hok.
  destruct (C66_ends F rnd eps [pz; py; px] [n0; n1; n2] due limits final le mnT mx mag lim pre [vx; vy; vz] (fun u => u) _ dmin s0 RS He HF H0 HP Hok values_ordered Hd Hm HB) as [(hs & s & A & Ov) B].
  split.
  - apply (proj1 (C59_ends_as_serial_3d Rbefore (rounded_plus rnd) 0%R due limits final le mnT mx Rle Rmin Rmax mag lim pre values_ordered DiagProofs.ordered_R limit_antitone add z damp coord width conv Kcx Kcy Kcz lap sub filt w0 w1 w2 p0 p1 p2 vx vy vz fx fy fz b0 b1 b2 buf D S mk pz py px n0 n1 n2 g full xg c0 s0 HS Hk H)).
    exists hs, s. split; [exact A|]. unfold serial_over. cbv beta. destruct (Rlt_dec (s_time s) final); [lra|reflexivity].
  - intros tr c It.
    destruct (C59_lockstep_3d Rbefore (rounded_plus rnd) 0%R due limits final le mnT mx Rle Rmin Rmax mag lim pre values_ordered DiagProofs.ordered_R limit_antitone add z damp coord width conv Kcx Kcy Kcz lap sub filt w0 w1 w2 p0 p1 p2 vx vy vz fx fy fz b0 b1 b2 buf D S mk pz py px n0 n1 n2 g full xg c0 s0 tr c HS Hk H It)
      as (hs' & s' & A' & M & At & _ & _).
    assert (L : length tr = length hs' /\ map (fun e => e_dt e) tr = map (fun h => h_dt h) hs').
    { clear -M. induction M as [|e h tr hs' (_ & E & _) M [IH1 IH2]]; [split; reflexivity|]. cbn [length map]. rewrite IH1, IH2, E. split; reflexivity. }
    destruct L as [L1 L2]. split.
    + intros r Hr. destruct At as (_ & At & _). rewrite (proj1 (At r Hr)), L1, L2. exact (C66_time_error F rnd eps N due limits final le mag lim pre [vx; vy; vz] (fun u => u) _ s0 hs' s' RS HF H0 A').
    + intros Hn. rewrite L1. apply (B hs' s' A'). intros ->. apply Hn. apply length_zero_iff_nil. exact L1.
Qed.
End Ranks.

(** Finding: positive steps and a bounded speed (with which C59 has the loop end in exact arithmetic) are not enough.  In binary64, from time 1
    to time 2, with a speed of 2^60 everywhere, every step is positive, the time stays 1, and there are runs of every length. *)
Theorem C66_positive_steps_refuted :
  exists (s0 : sconfig R (nat -> list Z -> R)),
    let run := serial_iterations Rbefore (rounded_plus b64) 0%R (fun _ _ => false) [] 2%R Rle abs_sum (dt_limit 2 (1 / 10) 1 (1 / 2) 0 0) b64 [2; 2] [0; 1]%nat (fun u => u) (fun _ _ _ u => u) in
    s_time s0 = 1%R /\ (forall n, exists hs s, run s0 hs s /\ length hs = n) /\
    (forall hs s, run s0 hs s -> s_time s = 1%R /\ (forall h, In h hs -> (0 < h_dt h)%R) /\ (forall P, inb [2; 2] P -> speed abs_sum (s_state s) [0; 1]%nat P = IZR (2 ^ 60))).
Proof.
  exists RoundedTimeRefute.fast_start. split; [reflexivity|]. split; [exact RoundedTimeRefute.fast_long|]. intros hs s A. destruct (RoundedTimeRefute.fast_all hs s A) as (E & St & D).
  split; [exact E|]. split; [|intros P _; rewrite St; exact (RoundedTimeRefute.fast_speed P)].
  intros h Hh. rewrite (D h Hh). destruct RoundedTimeRefute.dt_bounds as [L _]. pose proof (Flocq.Core.Raux.bpow_gt_0 Flocq.Core.Zaux.radix2 (-64)). lra.
Qed.

(** *** Cases.  The flow of speed 1 of PropsAdaptive, to time 10 in binary64, and the flow of PropsNS on 2 x 1 ranks with steps of 1 or 2. *)
Example C66_nonvacuous :
  let eps := Flocq.Core.Raux.bpow Flocq.Core.Zaux.radix2 (-53) in
  let run := serial_iterations Rbefore (rounded_plus b64) 0%R (fun l t => if Rlt_dec t l then false else true) [1%R] 10%R Rle abs_sum
    (dt_limit 2 (1 / 10) 1 (1 / 2) 0 0) b64 (global_size [2; 1] [4; 4]) [0; 1]%nat (fun u => u) (fun _ _ _ u => u) in
  let s0 := {| s_count := 0; s_time := 0%R; s_timers := [0%R]; s_state := ar_flow |} in
  rounded_sums is_double b64 eps /\ (eps <= 1)%R /\ (forall x, is_double (b64 x)) /\ is_double (s_time s0) /\ grid_ok [2; 1] [4; 4] /\
  (eps * 10 < / 16 * (1 - eps))%R /\ (forall hs s, run s0 hs s -> forall h, In h hs -> (/ 16 <= h_dt h)%R).
Proof.
  intros eps run s0. assert (E : eps = (/ IZR 9007199254740992)%R) by reflexivity.
  split; [exact RoundoffRefute.b64_sums|]. split; [rewrite E; lra|]. split; [exact RoundingProofs.b64_double|]. split; [exact (rs_zero _ _ _ RoundoffRefute.b64_sums)|].
  split; [split; [reflexivity|unfold positive; repeat (apply Forall_cons; [lia|]); apply Forall_nil|unfold positive; repeat (apply Forall_cons; [lia|]); apply Forall_nil]|].
  split; [rewrite E; lra|]. intros hs s A.
  assert (G : s_state s = ar_flow /\ forall h, In h hs -> (/ 16 <= h_dt h)%R).
  { remember s0 as c0 eqn:E0. induction A as [c|c tr c1 e c2 I1 IH I2]; subst.
    - split; [reflexivity|intros h []].
    - destruct (IH eq_refl) as (St & D). destruct I2 as [U G HU d]. split; [exact St|]. intros h Hh. apply in_app_or in Hh as [Hh|[<-|[]]]; [auto|]. cbn [h_dt]. subst d.
      assert (LU : (0 <= U <= 1)%R).
      { destruct HU as ((P & HP & EP) & _). rewrite EP, St. unfold speed, abs_sum, ar_flow. cbn [map fold_right]. destruct (list_eq_dec Z.eq_dec P [1; 2]); rewrite ?Rabs_R0; [|lra].
        replace (-1)%R with (- (1))%R by lra. rewrite Rabs_Ropp, Rabs_R1. lra. }
      change (/ 16)%R with (Flocq.Core.Raux.bpow Flocq.Core.Zaux.radix2 (-4)). rewrite <- (RoundedTimeRefute.b64_bpow (-4)) by lia. apply RoundedTimeRefute.b64_le.
      change (Flocq.Core.Raux.bpow Flocq.Core.Zaux.radix2 (-4)) with (/ 16)%R. unfold dt_limit. destruct (Req_EM_T (0 + 0) 0) as [_|N]; [|exfalso; apply N; lra]. cbv zeta.
      apply Rmult_le_reg_r with (U + 1 / 2)%R; [lra|]. replace (1 / 10 * 1 / (U + 1 / 2) * (U + 1 / 2))%R with (1 / 10)%R by (field; lra). lra. }
  exact (proj2 G).
Qed.
Definition rt_lim (a : Z) : R := if a <? 100 then 2%R else 1%R.
Definition rt_mk (k : nat) (t d : R) (ls : list (list Z)) : @ns2_step Z := PropsNS.e_step.
Definition rt_ranks : config Z R unit := {| c_count := 0; c_time := fun _ => 0%R; c_timers := fun _ => []; c_mem := fun _ => 0; c_rest := tt |}.
Definition rt_start : sconfig R (nat -> list Z -> Z) := {| s_count := 0; s_time := 0%R; s_timers := []; s_state := fun _ _ => 0 |}.
Example C66_ranks_nonvacuous :
  let eps := Flocq.Core.Raux.bpow Flocq.Core.Zaux.radix2 (-53) in let N := global_size [2; 1] [4; 5] in
  let run := serial_iterations Rbefore (rounded_plus b64) 0%R (fun _ _ => false) [] 10%R Z.le ax_mag rt_lim b64 N [2; 3]%nat (fun u => u)
    (fun k t d u => serial_ns_2d Z.add 0 (fun _ _ : Z => fun v => v) (fun _ i => i) 2 (fun v => v) PropsNS.e_cx PropsNS.e_cy N 0 1 2 3 4 5 u (rt_mk k t d (whole N [0; 1; 2; 3]%nat u))) in
  ns2_setting 2 1 4 5 2 2 0%nat PropsNS.e_xg (fun _ i => i) 0 1 2 3 4 5 6 7 8 PropsNS.e_cx PropsNS.e_cy /\ (forall k t d ls, ns2_step_ok 0 N 0 2 3 4 5 (rt_mk k t d ls)) /\
  ordered Z.le Z.min Z.max /\ (forall k l, ax_mag k <= ax_mag l -> (rt_lim (ax_mag l) <= rt_lim (ax_mag k))%R) /\
  all_ranks_at [2; 1] [4; 5] 2 [0; 1; 2; 3]%nat rt_ranks rt_start /\ (eps * 10 < 1 * (1 - eps))%R /\ (forall hs s, run rt_start hs s -> forall h, In h hs -> (1 <= h_dt h)%R).
Proof.
  intros eps N run. split; [exact PropsNS.setting_instance|]. split; [intros k t d ls; exact (proj1 PropsNS.step_instance)|]. split; [split; intros; lia|].
  split; [intros k l H; unfold rt_lim; destruct (Z.ltb_spec (ax_mag l) 100), (Z.ltb_spec (ax_mag k) 100); try lra; exfalso; lia|].
  split; [split; [reflexivity|split; [intros r Hr; split; reflexivity|intros r f I Hr Hf HI HQ; reflexivity]]|].
  assert (E : eps = (/ IZR 9007199254740992)%R) by reflexivity. split; [rewrite E; lra|].
  intros hs s A. induction A as [c|c tr c1 e c2 I1 IH I2]; intros h Hh; [destruct Hh|]. apply in_app_or in Hh as [Hh|[<-|[]]]; [auto|]. destruct I2 as [U G HU d]. cbn [h_dt]. subst d.
  change 1%R with (Flocq.Core.Raux.bpow Flocq.Core.Zaux.radix2 0). rewrite <- (RoundedTimeRefute.b64_bpow 0) by lia. apply RoundedTimeRefute.b64_le. change (Flocq.Core.Raux.bpow Flocq.Core.Zaux.radix2 0) with 1%R.
  unfold rt_lim. destruct (U <? 100); lra.
Qed.

Print Assumptions C66_ends.
Print Assumptions C66_time_error.
Print Assumptions C66_ranks_2d.
Print Assumptions C66_ranks_3d.
Print Assumptions C66_positive_steps_refuted.
