(** The grid deviation norm. *)
From Coq Require Import Reals Lra Permutation.
From Verif Require Import Base SpecGrid SpecGhostSum SpecLag SpecVbf SpecReduce Comm Blocking Lagrangian LagProofs LagComm RunsTo GhostSumHops SpreadProofs ReduceProofs Adjoint Vbf Bodies SpecBodies VbfProofs VbfThms Deviation.
Open Scope Z_scope.

Lemma Rplus_monoid : comm_monoid Rplus 0%R.
Proof. split; intros; ring. Qed.
Lemma tot_sqr_pos {X} (f : X -> R) l : (0 <= total Rplus 0 (map (fun x => Rsqr (f x)) l))%R.
Proof. induction l as [|x l IH]; cbn; [lra|]. pose proof (Rle_0_sqr (f x)). unfold total in IH. lra. Qed.

Lemma rank_sum (nc n : Z) a f (m : Z -> @lmem R) (P : Z -> Z -> R) r : 0 <= nc -> 0 <= r < n -> copies_agree n nc a f m P ->
  total Rplus 0%R (map (fun x => Rsqr (m r (f, x))) (zrange 0 (nc * node_count a r))) =
  total Rplus 0%R (map (fun c => total Rplus 0%R (map (fun j => Rsqr (P c j)) (nodes_of a r))) (zrange 0 nc)).
Proof.
  intros Hnc Hr H. rewrite <- (zrange_flat (node_count a r) nc) by (unfold node_count; lia).
  rewrite <- (total_flat_ranks Rplus 0%R Rplus_monoid (fun d => map (fun i => d * node_count a r + i) (zrange 0 (node_count a r))) (fun x => Rsqr (m r (f, x))) (zrange 0 nc)).
  f_equal. apply map_ext_in. intros c Hc. apply zrange_In in Hc. rewrite map_map.
  rewrite <- (map_nth_zrange (nodes_of a r)) at 1. rewrite map_map. f_equal. apply map_ext_in. intros i Hi. apply zrange_In in Hi. f_equal.
  apply (H r c i _ Hr ltac:(lia)). apply (range_ith a 0 1 ltac:(discriminate)). unfold node_count. lia.
Qed.

Lemma deviation_ok (nc n N master : Z) A s (m : Z -> @lmem R) (P V : Z -> Z -> R) x : 0 <= nc -> 0 < n -> consistent n nc master A N s m P V -> global_deviation n nc N A s m x ->
  x = (sqrt (total Rplus 0 (map (fun c => total Rplus 0 (map (fun j => Rsqr (P c j)) (zrange 0 N))) (zrange 0 nc))) / sqrt (IZR N))%R.
Proof.
  intros Hnc Hn ((Hv & Ho & HN) & Hcnt & HP & _) (t & Ht & ->). do 2 f_equal. apply (combines_total Rplus 0%R Rplus_monoid) in Ht. rewrite Ht. clear Ht.
  assert (E1 : map (fun r => Rsqr (array_norm (lpm A) (nc * num s r) (m r))) (zrange 0 n) = map (fun r => total Rplus 0%R (map (fun c => total Rplus 0%R (map (fun j => Rsqr (P c j)) (nodes_of (address s) r))) (zrange 0 nc))) (zrange 0 n)).
  { apply map_ext_in. intros r Hr. apply zrange_In in Hr. unfold array_norm. rewrite Rsqr_sqrt by (apply (tot_sqr_pos (fun x => m r (lpm A, x)))).
    rewrite (Hcnt r ltac:(lia)). exact (rank_sum nc n (address s) (lpm A) m P r Hnc ltac:(lia) HP). }
  rewrite E1.
  assert (SR : SpecIB.comm_semiring Rplus Rmult 0%R 1%R) by (split; [apply Rplus_monoid|split; intros; ring|intros; ring|intros; ring]).
  rewrite (tot_swap Rplus Rmult 0%R 1%R SR (fun r c => total Rplus 0%R (map (fun j => Rsqr (P c j)) (nodes_of (address s) r)))).
  f_equal. apply map_ext_in. intros c Hc. rewrite (total_flat_ranks Rplus 0%R Rplus_monoid (nodes_of (address s)) (fun j => Rsqr (P c j))).
  apply (total_perm Rplus 0%R Rplus_monoid). apply Permutation_map. rewrite <- HN.
  assert (En : zprod [n] = n) by (cbn; lia). pose proof (nodes_perm [n] (address s)) as X. rewrite En in X. exact (X Hv).
Qed.
