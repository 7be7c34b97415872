(** Property C66, a case in 3D: the flow of PropsNS on 2 x 1 x 2 ranks with steps of 1 or 2, in binary64. *)
From Coq Require Import Reals Lra.
From Verif Require Import Base SpecGrid SpecGhost SpecStencil SpecPenalise SpecFilter SpecDouble SpecNS SpecDiag SpecLoop SpecAdaptive SpecRounding SpecRoundoff
  Comm Spmd PyNum NavierStokes Diagnostics Loop Adaptive PropsAdaptive.
From Verif Require KernelProofs DiagProofs AdaptiveReals RoundedTimeProofs RoundedTimeRefute RoundoffRefute PropsNS AdaptiveThms.
From Flocq Require Core.Raux Core.Zaux.
From Verif Require Import PropsRoundedTime.
Open Scope Z_scope.
Definition rt_mk3 (k : nat) (t d : R) (ls : list (list Z)) : @ns3_step Z := PropsNS.e3_step.
Example C66_ranks_nonvacuous_3d :
  let eps := Flocq.Core.Raux.bpow Flocq.Core.Zaux.radix2 (-53) in let N := global_size [2; 1; 2] [3; 3; 4] in
  let run := serial_iterations Rbefore (rounded_plus b64) 0%R (fun _ _ => false) [] 10%R Z.le ax_mag rt_lim b64 N [6; 7; 8]%nat (fun u => u)
    (fun k t d u => serial_ns_3d Z.add 0 (fun _ _ : Z => fun v => v) (fun _ i => i) 2 (fun v => v) (PropsNS.e3_c 3) (PropsNS.e3_c 4) (PropsNS.e3_c 5) (fun a b c => a + b + c) Z.sub (Some (Multiplicative, 1%nat, 2))
      N 0 1 2 3 4 5 6 7 8 12 13 14 9 10 11 u (rt_mk3 k t d (whole N [0; 1; 2; 3; 4; 5; 6; 7; 8]%nat u))) in
  ns3_setting 2 1 2 3 3 4 2 2 (Some (Multiplicative, 1%nat, 2)) (fun r a i => nth a (block_start [2; 1; 2] [3; 3; 4] r) 0 + (i - 2)) (fun _ i => i)
    0 1 2 3 4 5 6 7 8 9 10 11 12 13 14 15 16 17 (PropsNS.e3_c 3) (PropsNS.e3_c 4) (PropsNS.e3_c 5) /\
  (forall k t d ls, ns3_step_ok 0 N [0; 1; 2]%nat [6; 7; 8]%nat [12; 13; 14]%nat [9; 10; 11]%nat (rt_mk3 k t d ls)) /\
  ordered Z.le Z.min Z.max /\ (forall k l, ax_mag k <= ax_mag l -> (rt_lim (ax_mag l) <= rt_lim (ax_mag k))%R) /\
  all_ranks_at [2; 1; 2] [3; 3; 4] 2 [0; 1; 2; 3; 4; 5; 6; 7; 8]%nat rt_ranks rt_start /\ (eps * 10 < 1 * (1 - eps))%R /\ (forall hs s, run rt_start hs s -> forall h, In h hs -> (1 <= h_dt h)%R).
Proof.
  intros eps N run. split; [exact PropsNS.setting3_instance|]. split; [intros k t d ls; exact (proj1 PropsNS.step3_instance)|]. split; [split; intros; lia|].
  split; [intros k l H; unfold rt_lim; destruct (Z.ltb_spec (ax_mag l) 100), (Z.ltb_spec (ax_mag k) 100); try lra; exfalso; lia|].
  split; [split; [reflexivity|split; [intros r Hr; split; reflexivity|intros r f I Hr Hf HI HQ; reflexivity]]|].
  assert (E : eps = (/ IZR 9007199254740992)%R) by reflexivity. split; [rewrite E; lra|].
  intros hs s A. induction A as [c|c tr c1 e c2 I1 IH I2]; intros h Hh; [destruct Hh|]. apply in_app_or in Hh as [Hh|[<-|[]]]; [auto|]. destruct I2 as [U G HU d]. cbn [h_dt]. subst d.
  change 1%R with (Flocq.Core.Raux.bpow Flocq.Core.Zaux.radix2 0). rewrite <- (RoundedTimeRefute.b64_bpow 0) by lia. apply RoundedTimeRefute.b64_le. change (Flocq.Core.Raux.bpow Flocq.Core.Zaux.radix2 0) with 1%R.
  unfold rt_lim. destruct (U <? 100); lra.
Qed.
Print Assumptions C66_ranks_nonvacuous_3d.
