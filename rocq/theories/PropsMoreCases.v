(** Cases that meet the hypotheses of C04, C39 and C41. *)
From Coq Require Import Reals Lra Permutation.
From Verif Require Import Base SpecGrid SpecGhost SpecGhostSum SpecLag SpecVbf SpecReduce Comm Ghost2D GhostProofs Refute1 Blocking SpecBlocking Lagrangian Vbf Bodies SpecBodies VbfProofs VbfThms BodiesProofs Deviation DeviationProofs Refute5.
From Verif Require Import PropsGhost PropsVbf.
Open Scope Z_scope.

(** C04: 2 x 1 ranks, periodic, two fields, edges only.  A ghost cell on an edge gets another rank's value; one at a corner has not the value that the
    full exchange gives it (C03_nonvacuous). *)
Example C04_nonvacuous :
  let E := all_copies 2 (exchange2 true 2 1 2 3 1 false [0; 1]%nat) in
  schedule 2 (exchange2 true 2 1 2 3 1 false [0; 1]%nat) E /\
  field (run_copies E distinct_mem) [4; 5] 0 1 [0; 1] = field distinct_mem [4; 5] 1 1 [2; 1] /\
  field distinct_mem [4; 5] 0 1 [0; 1] <> field distinct_mem [4; 5] 1 1 [2; 1] /\
  field (run_copies E distinct_mem) [4; 5] 0 1 [0; 0] <> field distinct_mem [4; 5] 1 1 [2; 3].
Proof. split; [apply Permutation_refl|]. vm_compute. repeat split; congruence. Qed.

(** C39: the history of C15_nonvacuous, in which the nodes move from one rank each to rank 1, then to rank 0. *)
Example C39_nonvacuous : mapping_ok 2 0 2 [0; 1] [1] /\ Forall (call_ok 2 0 2) migrating /\
  map (num (vb_init [0; 1] [1])) [0; 1] = [1; 1] /\ map (num (final 2 (vb_init [0; 1] [1]) migrating)) [0; 1] = [2; 0].
Proof.
  destruct C15_nonvacuous as (_ & A & _ & B & _). split; [exact A|]. split; [exact B|]. split; reflexivity.
Qed.

(** C41: two nodes on two ranks with position mismatches 3 and 4; the norm is 5 / sqrt 2. *)
Definition dv_mem (r : Z) : @lmem R := fun a => if Nat.eqb (fst a) (lpm r5A) then (if r =? 0 then 3 else 4)%R else 0%R.
Definition dv_pm (c j : Z) : R := (if j =? 0 then 3 else 4)%R.
Example C41_nonvacuous :
  consistent 2 1 0 r5A 2 (vb_init [0; 1] [1]) dv_mem dv_pm (fun _ _ => 0%R) /\
  (exists x, global_deviation 2 1 2 r5A (vb_init [0; 1] [1]) dv_mem x) /\
  forall x, global_deviation 2 1 2 r5A (vb_init [0; 1] [1]) dv_mem x -> x = (5 / sqrt 2)%R.
Proof.
  assert (C : consistent 2 1 0 r5A 2 (vb_init [0; 1] [1]) dv_mem dv_pm (fun _ _ => 0%R)).
  { split; [apply r5_map; auto|]. split; [intros r Hr; assert (r = 0 \/ r = 1) as [-> | ->] by lia; reflexivity|]. split.
    - intros r c i j Hr Hc [Hi Hn]. assert (r = 0 \/ r = 1) as [-> | ->] by lia.
      + change (nodes_of [0; 1] 0) with [0] in Hn. destruct (Z.to_nat i) as [|[|k]]; cbn in Hn; try discriminate. injection Hn as <-. reflexivity.
      + change (nodes_of [0; 1] 1) with [1] in Hn. destruct (Z.to_nat i) as [|[|k]]; cbn in Hn; try discriminate. injection Hn as <-. reflexivity.
    - intros r c i j Hr Hc Hi. reflexivity. }
  split; [exact C|]. split; [apply C41_global_norm_exists; lia|].
  intros x Hx. rewrite (C41_global_norm 1 2 2 0 r5A (vb_init [0; 1] [1]) dv_mem dv_pm (fun _ _ => 0%R) x ltac:(lia) ltac:(lia) C Hx).
  change (zrange 0 1) with [0]. change (zrange 0 2) with [0; 1]. unfold total, Rsqr, dv_pm. cbn [map fold_right Z.eqb Pos.eqb].
  replace (3 * 3 + (4 * 4 + 0) + 0)%R with (5 * 5)%R by lra. rewrite sqrt_square by lra. reflexivity.
Qed.
Print Assumptions C04_nonvacuous.
Print Assumptions C39_nonvacuous.
Print Assumptions C41_nonvacuous.
