(** Proofs about the substeps of the rod drivers. *)
From Coq Require Import ZArith Reals Lra Lia Psatz.
From Flocq Require Import Core.
From Verif Require Import SpecRounding Rounding RoundingProofs SpecSubstep Substep.
Open Scope R_scope.

Lemma smaller_min f r : smaller f r = Rmin f r.
Proof. unfold smaller, Rmin. destruct (Rlt_bool_spec r f), (Rle_dec f r); lra. Qed.
Lemma smaller_pos f r : 0 < f -> 0 < r -> 0 < smaller f r.
Proof. intros. rewrite smaller_min. now apply Rmin_pos. Qed.
Lemma smaller_le f r : smaller f r <= f.
Proof. rewrite smaller_min. apply Rmin_l. Qed.
Lemma quot_ge1 f r : 0 < f -> 0 < r -> 1 <= f / smaller f r.
Proof.
  intros Hf Hr. pose proof (smaller_pos f r Hf Hr) as P. pose proof (smaller_le f r) as L.
  apply (Rmult_le_reg_r (smaller f r) _ _ P). unfold Rdiv. rewrite Rmult_assoc, Rinv_l by lra. lra.
Qed.
Lemma b64_1 : b64 1 = 1.
Proof. exact (b64_int 1 ltac:(lia)). Qed.
Lemma trunc_ge1 x : 1 <= x -> (1 <= Ztrunc x)%Z.
Proof. intros H. rewrite Ztrunc_floor by lra. apply Zfloor_lub. exact H. Qed.
Lemma steps_ge1 rd f r : (forall x, 1 <= x -> 1 <= rd x) -> 0 < f -> 0 < r -> (1 <= rod_time_steps rd f r)%Z.
Proof. intros H Hf Hr. apply trunc_ge1, H. now apply quot_ge1. Qed.
Lemma b64_ge1 x : 1 <= x -> 1 <= b64 x.
Proof. intros H. rewrite <- b64_1. now apply b64_mono. Qed.

(** exact *)
Lemma steps_exact_eq f r : 0 < f -> 0 < r -> steps_exact f r = Zfloor (f / smaller f r).
Proof. intros Hf Hr. apply Ztrunc_floor. pose proof (quot_ge1 f r Hf Hr). lra. Qed.
Lemma steps_exact_most f r : 0 < f -> 0 < r -> most_not_below f r (steps_exact f r).
Proof.
  intros Hf Hr. pose proof (steps_ge1 (fun x => x) f r (fun x H => H) Hf Hr) as N. change (rod_time_steps (fun x => x) f r) with (steps_exact f r) in N.
  pose proof (smaller_pos f r Hf Hr) as P. split; [exact N|]. split.
  - intros k Hk H. rewrite steps_exact_eq by assumption. apply Zfloor_lub.
    assert (Hk' : 1 <= IZR k) by (apply IZR_le in Hk; exact Hk).
    apply (Rmult_le_reg_r (smaller f r) _ _ P). unfold Rdiv at 1. rewrite Rmult_assoc, Rinv_l, Rmult_1_r by lra.
    assert (H1 : r * IZR k <= f). { apply (Rmult_le_compat_r (IZR k)) in H; [|lra]. unfold Rdiv in H. rewrite Rmult_assoc, Rinv_l in H by lra. lra. }
    assert (r <= f) by nra. assert (E : smaller f r = r) by (rewrite smaller_min; apply Rmin_right; lra). rewrite E. lra.
  - intros H. rewrite steps_exact_eq in * by assumption. set (q := f / smaller f r) in *. pose proof (Zfloor_lb q) as L. apply IZR_lt in H.
    assert (L' : smaller f r * IZR (Zfloor q) <= f). { apply (Rmult_le_compat_l (smaller f r)) in L; [|lra]. unfold q at 2 in L. unfold Rdiv in L. rewrite (Rmult_comm f), <- Rmult_assoc, Rinv_r, Rmult_1_l in L by lra. exact L. }
    assert (E : smaller f r = r). { rewrite smaller_min in *. unfold Rmin in *. destruct (Rle_dec f r); [|reflexivity]. nra. }
    rewrite E in L'. apply (Rmult_le_reg_r (IZR (Zfloor q))); [lra|]. unfold Rdiv. rewrite Rmult_assoc, Rinv_l by lra. lra.
Qed.
Lemma local_exact_cover f r : 0 < f -> 0 < r -> IZR (steps_exact f r) * local_exact f r = f.
Proof.
  intros Hf Hr. pose proof (steps_ge1 (fun x => x) f r (fun x H => H) Hf Hr) as N. apply IZR_le in N. unfold local_exact, local_rod_dt. cbv beta.
  change (rod_time_steps (fun x => x) f r) with (steps_exact f r) in *. field. lra.
Qed.
Lemma local_exact_range f r : 0 < f -> 0 < r -> r <= f -> r <= local_exact f r < 2 * r.
Proof.
  intros Hf Hr H. pose proof (local_exact_cover f r Hf Hr) as C. pose proof (steps_ge1 (fun x => x) f r (fun x H => H) Hf Hr) as N. change (rod_time_steps (fun x => x) f r) with (steps_exact f r) in N. apply IZR_le in N.
  assert (E : smaller f r = r) by (rewrite smaller_min; apply Rmin_right; lra).
  rewrite (steps_exact_eq f r Hf Hr), E in *. pose proof (Zfloor_lb (f / r)) as L. pose proof (Zfloor_ub (f / r)) as U.
  assert (Ef : f / r * r = f) by (field; lra). set (n := IZR (Zfloor (f / r))) in *. set (h := local_exact f r) in *. split; nra.
Qed.
Lemma local_exact_within f r : 0 < f -> 0 < r -> (local_exact f r <= r <-> f <= r \/ exists k : Z, f = IZR k * r).
Proof.
  intros Hf Hr. pose proof (local_exact_cover f r Hf Hr) as C. pose proof (steps_ge1 (fun x => x) f r (fun x H => H) Hf Hr) as N. change (rod_time_steps (fun x => x) f r) with (steps_exact f r) in N. apply IZR_le in N.
  destruct (Rle_or_lt r f) as [H|H].
  - pose proof (local_exact_range f r Hf Hr H) as [L _]. split.
    + intros U. right. exists (steps_exact f r). assert (E : local_exact f r = r) by lra. rewrite E in C. lra.
    + intros [F|[k Ek]].
      * assert (f = r) by lra. subst f. nra.
      * assert (E : smaller f r = r) by (rewrite smaller_min; apply Rmin_right; lra).
        assert (Es : steps_exact f r = k). { rewrite (steps_exact_eq f r Hf Hr), E. replace (f / r) with (IZR k) by (rewrite Ek; field; lra). apply Zfloor_IZR. }
        rewrite Es in *. nra.
  - split; [intros _; left; lra|intros _]. nra.
Qed.
Lemma one_exact f r : 0 < f -> 0 < r -> f <= r -> steps_exact f r = 1%Z /\ local_exact f r = f.
Proof.
  intros Hf Hr H. assert (E : smaller f r = f) by (rewrite smaller_min; apply Rmin_left; lra).
  assert (Es : steps_exact f r = 1%Z). { rewrite (steps_exact_eq f r Hf Hr), E. replace (f / f) with (IZR 1) by (field; lra). apply Zfloor_IZR. }
  split; [exact Es|]. pose proof (local_exact_cover f r Hf Hr) as C. rewrite Es in C. lra.
Qed.

(** double precision *)
Section D.
Variables (f r : R).
Hypotheses (Hf : bpow radix2 (-900) <= f) (Hr : bpow radix2 (-900) <= r) (Hfr : f <= 1125899906842624 * r).
Let fpos : 0 < f. Proof. pose proof (bpow_gt_0 radix2 (-900)). lra. Qed.
Let rpos : 0 < r. Proof. pose proof (bpow_gt_0 radix2 (-900)). lra. Qed.
Let q := f / smaller f r.
Lemma q_ge1 : 1 <= q.
Proof. exact (quot_ge1 f r fpos rpos). Qed.
Lemma q_le : q <= 1125899906842624.
Proof.
  unfold q. pose proof (smaller_pos f r fpos rpos) as P. apply (Rmult_le_reg_r (smaller f r) _ _ P). unfold Rdiv. rewrite Rmult_assoc, Rinv_l, Rmult_1_r by lra.
  rewrite smaller_min. unfold Rmin. destruct (Rle_dec f r); lra.
Qed.
Lemma u_small : 0 < u /\ u <= / 9007199254740992.
Proof. rewrite u_val. lra. Qed.
Lemma q_err : Rabs (b64 q - q) <= 2 * u * q.
Proof.
  pose proof q_ge1 as Q. pose proof (b64_abs q ltac:(lra)) as H. destruct tiny_small as [T0 T1]. pose proof u_small. nra.
Qed.
Lemma n_bounds : (1 <= steps64 f r)%Z /\ IZR (steps64 f r) <= q * (1 + 2 * u) /\ q * (1 - 2 * u) < IZR (steps64 f r) + 1 /\ (steps64 f r <= 2 ^ 53)%Z.
Proof.
  pose proof q_ge1 as Q. pose proof q_le as Q'. pose proof q_err as E. pose proof u_small as [U0 U1]. apply Rabs_le_inv in E.
  assert (B : 0 <= b64 q) by (apply b64_ge0; lra).
  assert (Es : steps64 f r = Zfloor (b64 q)) by (apply Ztrunc_floor; exact B).
  split; [exact (steps_ge1 b64 f r b64_ge1 fpos rpos)|]. rewrite Es. pose proof (Zfloor_lb (b64 q)) as L. pose proof (Zfloor_ub (b64 q)) as V.
  split; [lra|]. split; [lra|]. apply le_IZR. change (IZR (2 ^ 53)) with 9007199254740992. nra.
Qed.
Lemma local64_eq : local64 f r = b64 (f / IZR (steps64 f r)).
Proof.
  unfold local64, local_rod_dt. change (rod_time_steps b64 f r) with (steps64 f r). destruct n_bounds as (N & _ & _ & N'). rewrite b64_int by lia. reflexivity.
Qed.
Lemma part_lower : smaller f r * (1 - 2 * u) <= f / IZR (steps64 f r).
Proof.
  destruct n_bounds as (N & N1 & _ & _). apply IZR_le in N. pose proof (smaller_pos f r fpos rpos) as P. pose proof u_small as [U0 U1].
  assert (Eq : q * smaller f r = f) by (unfold q; field; lra). set (n := IZR (steps64 f r)) in *. set (m := smaller f r) in *.
  apply (Rmult_le_reg_r n); [lra|]. replace (f / n * n) with f by (field; lra).
  apply Rle_trans with (m * (1 - 2 * u) * (q * (1 + 2 * u))); [apply Rmult_le_compat_l; nra|]. rewrite <- Eq. nra.
Qed.
Lemma local_err : Rabs (local64 f r - f / IZR (steps64 f r)) <= 2 * u * (f / IZR (steps64 f r)).
Proof.
  rewrite local64_eq. set (x := f / IZR (steps64 f r)).
  assert (M : bpow radix2 (-900) <= smaller f r) by (rewrite smaller_min; apply Rmin_case; assumption).
  pose proof part_lower as P. fold x in P. pose proof u_small as [U0 U1].
  assert (X : bpow radix2 (-901) <= x). { change (-900)%Z with (-901 + 1)%Z in M. rewrite bpow_plus in M. change (bpow radix2 1) with 2 in M. pose proof (bpow_gt_0 radix2 (-901)). nra. }
  pose proof (bpow_gt_0 radix2 (-901)). pose proof (b64_abs x ltac:(lra)) as H'.
  assert (T : tiny <= u * x).
  { apply Rle_trans with (u * bpow radix2 (-901)); [|nra]. rewrite <- bpow_plus. apply bpow_le. lia. }
  lra.
Qed.
Lemma local64_cover : Rabs (IZR (steps64 f r) * local64 f r - f) <= 2 * u * f.
Proof.
  pose proof local_err as E. destruct n_bounds as (N & _). apply IZR_le in N. set (n := IZR (steps64 f r)) in *.
  replace (n * local64 f r - f) with (n * (local64 f r - f / n)) by (field; lra). rewrite Rabs_mult, (Rabs_right n) by lra.
  replace (2 * u * f) with (n * (2 * u * (f / n))) by (field; lra). apply Rmult_le_compat_l; [lra|exact E].
Qed.
Lemma local64_range : r <= f -> r * (1 - 4 * u) <= local64 f r < 2 * r * (1 + 5 * u).
Proof.
  intros H. assert (Em : smaller f r = r) by (rewrite smaller_min; apply Rmin_right; lra).
  pose proof local_err as E. pose proof part_lower as P. destruct n_bounds as (N & _ & N2 & _). apply IZR_le in N. pose proof u_small as [U0 U1]. pose proof rpos as Rp.
  rewrite Em in P. assert (Eq : q * r = f) by (unfold q; rewrite Em; field; lra). set (n := IZR (steps64 f r)) in *. set (x := f / n) in *.
  assert (Ex : x * n = f) by (unfold x; field; lra). apply Rabs_le_inv in E.
  assert (X : x * (1 - 2 * u) < 2 * r). { apply (Rmult_lt_reg_r n); [lra|]. replace (x * (1 - 2 * u) * n) with (q * (1 - 2 * u) * r) by (rewrite <- Eq in Ex; transitivity (x * n * (1 - 2 * u)); [rewrite Ex|]; ring). assert (q * (1 - 2 * u) * r < (n + 1) * r) by (apply Rmult_lt_compat_r; lra). nra. }
  split; [nra|]. assert (1 + 2 * u <= (1 - 2 * u) * (1 + 5 * u)) by nra. assert (0 < x) by nra. nra.
Qed.
End D.
Lemma one64 f r : is_double f -> 0 < f -> f <= r -> steps64 f r = 1%Z /\ local64 f r = f.
Proof.
  intros Df Hf H. assert (E : smaller f r = f) by (rewrite smaller_min; apply Rmin_left; lra).
  assert (Es : steps64 f r = 1%Z). { unfold steps64, rod_time_steps. rewrite E. replace (f / f) with 1 by (field; lra). rewrite b64_1. exact (Ztrunc_IZR 1). }
  split; [exact Es|]. unfold local64, local_rod_dt. change (rod_time_steps b64 f r) with (steps64 f r). rewrite Es, b64_1. replace (f / 1) with f by field. apply round_generic; [typeclasses eauto|exact Df].
Qed.
Lemma div1 x : x / 1 = x.
Proof. field. Qed.
Lemma above_limit64 : exists f r, is_double f /\ is_double r /\ 0 < r <= f /\ steps64 f r = 1%Z /\ local64 f r = (2 - bpow radix2 (-52)) * r.
Proof.
  assert (V : bpow radix2 (-52) = / 4503599627370496) by reflexivity.
  assert (D : is_double (2 - bpow radix2 (-52))).
  { apply generic_format_FLT. exists (Float radix2 9007199254740991 (-52)); [|cbn; lia|cbn; lia]. unfold F2R. cbn [Fnum Fexp]. rewrite V. lra. }
  assert (D1 : is_double 1). { rewrite <- b64_1. apply b64_double. }
  exists (2 - bpow radix2 (-52)), 1. split; [exact D|]. split; [exact D1|]. split; [rewrite V; lra|].
  assert (Em : smaller (2 - bpow radix2 (-52)) 1 = 1) by (rewrite smaller_min; apply Rmin_right; rewrite V; lra).
  assert (B : b64 (2 - bpow radix2 (-52)) = 2 - bpow radix2 (-52)) by (apply round_generic; [typeclasses eauto|exact D]).
  assert (Es : steps64 (2 - bpow radix2 (-52)) 1 = 1%Z).
  { unfold steps64, rod_time_steps. rewrite Em, div1, B. rewrite Ztrunc_floor by (rewrite V; lra). apply Zfloor_imp. change (1 + 1)%Z with 2%Z. rewrite V. lra. }
  split; [exact Es|]. unfold local64, local_rod_dt. change (rod_time_steps b64 _ 1) with (steps64 (2 - bpow radix2 (-52)) 1). rewrite Es, b64_1, div1, Rmult_1_r. exact B.
Qed.
