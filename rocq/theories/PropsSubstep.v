(** Property C71, substeps: how the rod drivers divide the flow's time step. *)
From Coq Require Import ZArith Reals Lra.
From Flocq Require Import Core.
From Verif Require Import SpecRounding Rounding RoundingProofs SpecSubstep Substep SubstepProofs.
Open Scope R_scope.

(** C71.  In double precision there is always a substep (so that the division by their number is legal), whatever the two time steps are. *)
Theorem C71_at_least_one_substep f r : 0 < f -> 0 < r -> (1 <= steps64 f r)%Z.
Proof. intros Hf Hr. exact (steps_ge1 b64 f r b64_ge1 Hf Hr). Qed.
(** C71.  The substeps cover the flow's step: exactly in exact arithmetic; in double precision up to one rounding (2^-52 relative).  f is the flow's time step, r the limit. *)
Theorem C71_substeps_cover f r : 0 < f -> 0 < r -> IZR (steps_exact f r) * local_exact f r = f.
Proof. exact (local_exact_cover f r). Qed.
Theorem C71_substeps_cover_rounded f r : bpow radix2 (-900) <= f -> bpow radix2 (-900) <= r -> f <= 2 ^ 50 * r ->
  Rabs (IZR (steps64 f r) * local64 f r - f) <= bpow radix2 (-52) * f.
Proof.
  intros Hf Hr H. assert (E : bpow radix2 (-52) = 2 * bpow radix2 (-53)) by (cbn; lra). rewrite E. apply local64_cover; [exact Hf|exact Hr|]. replace 1125899906842624 with (2 ^ 50) by (cbn; lra). exact H.
Qed.
(** C71.  Their number is the largest for which they are not shorter than the limit r: substeps are NOT kept below r, only below 2 r. *)
Theorem C71_number_of_substeps f r : 0 < f -> 0 < r -> most_not_below f r (steps_exact f r).
Proof. exact (steps_exact_most f r). Qed.
Theorem C71_substep_range f r : 0 < f -> 0 < r -> r <= f -> r <= local_exact f r < 2 * r.
Proof. exact (local_exact_range f r). Qed.
Theorem C71_substep_range_rounded f r : bpow radix2 (-900) <= f -> bpow radix2 (-900) <= r -> f <= 2 ^ 50 * r -> r <= f ->
  r * (1 - bpow radix2 (-51)) <= local64 f r < 2 * r * (1 + bpow radix2 (-50)).
Proof.
  intros Hf Hr H Hrf. assert (E : bpow radix2 (-51) = 4 * bpow radix2 (-53)) by (cbn; lra). assert (E' : bpow radix2 (-50) = 8 * bpow radix2 (-53)) by (cbn; lra). rewrite E, E'.
  destruct (local64_range f r Hf Hr ltac:(replace 1125899906842624 with (2 ^ 50) by (cbn; lra); exact H) Hrf) as [L U].
  split; [exact L|]. pose proof (bpow_gt_0 radix2 (-53)). pose proof (bpow_gt_0 radix2 (-900)). assert (0 < r) by lra. nra.
Qed.
(** C71.  A step that is not above the limit is not divided. *)
Theorem C71_short_step_undivided f r : is_double f -> 0 < f -> f <= r -> steps64 f r = 1%Z /\ local64 f r = f.
Proof. exact (one64 f r). Qed.
(** C71.  Exactly: the substep respects the limit if and only if the flow's step does or is a multiple of it. *)
Theorem C71_when_limit_respected f r : 0 < f -> 0 < r -> (local_exact f r <= r <-> f <= r \/ exists k : Z, f = IZR k * r).
Proof. exact (local_exact_within f r). Qed.
(** Finding: the substep can be almost twice the limit, in double precision (int() rounds the number of substeps down). *)
Theorem C71_limit_respected_refuted : exists f r, is_double f /\ is_double r /\ 0 < r <= f /\ steps64 f r = 1%Z /\ local64 f r = (2 - bpow radix2 (-52)) * r.
Proof. exact above_limit64. Qed.

(** A step of 7 with the limit 2: three substeps, each above 2. *)
Example C71_nonvacuous_substeps : steps_exact 7 2 = 3%Z /\ local_exact 7 2 = 7 / 3 /\ 2 < 7 / 3 /\ bpow radix2 (-900) <= 7 /\ bpow radix2 (-900) <= 2 /\ (7 <= 2 ^ 50 * 2).
Proof.
  assert (E : steps_exact 7 2 = 3%Z).
  { rewrite steps_exact_eq by lra. replace (smaller 7 2) with 2 by (rewrite smaller_min; symmetry; apply Rmin_right; lra). apply Zfloor_imp. change (3 + 1)%Z with 4%Z. lra. }
  pose proof (C71_substeps_cover 7 2 ltac:(lra) ltac:(lra)) as C. rewrite E in C.
  assert (B : bpow radix2 (-900) <= 1) by (change 1 with (bpow radix2 0); apply bpow_le; discriminate).
  split; [exact E|]. split; [lra|]. split; [lra|]. split; [lra|]. split; [lra|]. assert (1 <= 2 ^ 50) by (apply pow_R1_Rle; lra). lra.
Qed.
Print Assumptions C71_at_least_one_substep.
Print Assumptions C71_substeps_cover.
Print Assumptions C71_substeps_cover_rounded.
Print Assumptions C71_number_of_substeps.
Print Assumptions C71_substep_range.
Print Assumptions C71_substep_range_rounded.
Print Assumptions C71_short_step_undivided.
Print Assumptions C71_when_limit_respected.
Print Assumptions C71_limit_respected_refuted.
