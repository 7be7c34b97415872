(** C51 — In double precision the rank that receives a Lagrangian node and the grid cells of that node's support are computed
    from differently rounded quotients.  For every spacing, block size, shift and node the support lies inside the receiving rank's
    ghosted array provided the ghost zone is one cell wider than the kernel; with a ghost zone exactly as wide (what the
    constructor accepts and the default) it lies inside when the spacing is a power of two, and for some nodes in general it does not. *)
From Coq Require Import ZArith Reals Lra Lia.
From Flocq Require Import Core.
From Verif Require Import SpecRounding Rounding RoundingProofs RoundingRefute.
Open Scope R_scope.

(** rel64 x s: the node's position relative to the first cell; block_coord64: the coordinate of the rank the node is sent to;
    nearest64: its nearest index in that rank's array of n + 2 g cells; the support is slice_first .. slice_last. *)
Theorem C51_support_inside_with_margin (v : floordiv) (dx s : R) (n g w : Z) (x : R) (r : Z) :
  bpow radix2 (-900) <= dx -> (1 <= n)%Z -> 0 <= rel64 x s -> r = block_coord64 dx s n x -> ((r + 1) * n <= 2 ^ 45)%Z -> (w + 1 <= g)%Z ->
  (0 <= slice_first w (nearest64 v dx s n g r x))%Z /\ (slice_last w (nearest64 v dx s n g r x) < n + 2 * g)%Z.
Proof. apply inside_with_margin. Qed.

Theorem C51_support_inside_power_of_two (v : floordiv) (k : Z) (s : R) (n g w : Z) (x : R) (r : Z) :
  (-900 <= k <= 0)%Z -> (1 <= n)%Z -> 0 <= rel64 x s -> r = block_coord64 (bpow radix2 k) s n x -> ((r + 1) * n <= 2 ^ 45)%Z -> (w <= g)%Z ->
  (0 <= slice_first w (nearest64 v (bpow radix2 k) s n g r x))%Z /\ (slice_last w (nearest64 v (bpow radix2 k) s n g r x) < n + 2 * g)%Z.
Proof. apply inside_pow2. Qed.

(** With python's floor division it is enough that the block length dx * n does not round up. *)
Theorem C51_support_inside_no_round_up (dx s : R) (n g w : Z) (x : R) (r : Z) :
  bpow radix2 (-900) <= dx -> (1 <= n)%Z -> 0 <= rel64 x s -> r = block_coord64 dx s n x -> ((r + 1) * n <= 2 ^ 45)%Z -> b64 (dx * IZR n) <= dx * IZR n -> (w <= g)%Z ->
  (0 <= slice_first w (nearest64 Py dx s n g r x))%Z /\ (slice_last w (nearest64 Py dx s n g r x) < n + 2 * g)%Z.
Proof. apply inside_no_round_up. Qed.

(** A unit-length axis of 420 cells in 30 blocks of 14, default ghost size and kernel width 2: a node of the domain whose
    support leaves the array of the rank it is sent to. *)
Theorem C51_support_outside_refuted (v : floordiv) :
  exists x, is_double x /\ b64 (b64 (1 / 420) / 2) <= x < 1 /\
    (0 <= block_coord64 (b64 (1 / 420)) (b64 (b64 (1 / 420) / 2)) 14 x < 30)%Z /\
    (14 + 2 * 2 <= slice_last 2 (nearest64 v (b64 (1 / 420)) (b64 (b64 (1 / 420) / 2)) 14 2
       (block_coord64 (b64 (1 / 420)) (b64 (b64 (1 / 420) / 2)) 14 x) x))%Z.
Proof. exact (refute v). Qed.

(** The same node with ghost size 3 meets the hypotheses of the first theorem. *)
Example C51_nonvacuous_margin (v : floordiv) :
  (0 <= slice_first 2 (nearest64 v dx0 s0 14 3 20 x0))%Z /\ (slice_last 2 (nearest64 v dx0 s0 14 3 20 x0) = 19)%Z /\ (19 < 14 + 2 * 3)%Z.
Proof.
  split.
  - apply (C51_support_inside_with_margin v dx0 s0 14 3 2 x0 20); [|lia| |symmetry; exact r0_val|lia|lia].
    + apply Rle_trans with (1 * bpow radix2 (-61)); [rewrite Rmult_1_l; apply bpow_le; lia|]. unfold dx0. apply Rmult_le_compat_r; [apply bpow_ge_0|]. apply IZR_le. lia.
    + apply b64_ge0. exact (proj1 x0_in).
  - unfold nearest64, slice_last. rewrite i0_val. lia.
Qed.
(** A spacing of 1/4, blocks of 8 cells and a node at relative position 5 (block 2, cell 20). *)
Lemma b64_dyadic (m e : Z) : (-1000 <= e <= 0)%Z -> (0 <= m < 2 ^ 53)%Z -> b64 (IZR m * bpow radix2 e) = IZR m * bpow radix2 e.
Proof.
  intros He Hm. apply round_generic; auto with typeclass_instances. apply generic_format_FLT. exists (Float radix2 m e); cbn; [reflexivity|lia|lia].
Qed.
Example C51_nonvacuous_pow2 (v : floordiv) :
  block_coord64 (bpow radix2 (-2)) 0 8 5 = 2%Z /\
  (0 <= slice_first 2 (nearest64 v (bpow radix2 (-2)) 0 8 2 2 5))%Z /\ (slice_last 2 (nearest64 v (bpow radix2 (-2)) 0 8 2 2 5) < 8 + 2 * 2)%Z.
Proof.
  assert (E : rel64 5 0 = 5) by (unfold rel64; rewrite Rminus_0_r; apply (b64_int 5); lia).
  assert (B : block_coord64 (bpow radix2 (-2)) 0 8 5 = 2%Z).
  { unfold block_coord64. rewrite E. replace (bpow radix2 (-2) * 8) with (IZR 2) by (cbn; lra). rewrite b64_int by lia. replace (5 / IZR 2) with (IZR 5 * bpow radix2 (-1)) by (cbn; lra).
    rewrite b64_dyadic by lia. rewrite Ztrunc_floor by (cbn; lra). apply Zfloor_imp. cbn. lra. }
  split; [exact B|]. apply (C51_support_inside_power_of_two v (-2) 0 8 2 2 5 2); [lia|lia|rewrite E; lra|symmetry; exact B|lia|lia].
Qed.
Print Assumptions C51_support_inside_with_margin.
Print Assumptions C51_support_inside_power_of_two.
Print Assumptions C51_support_inside_no_round_up.
Print Assumptions C51_support_outside_refuted.
