(** Property C62: norms in floating-point arithmetic. *)
From Coq Require Import Reals Lra.
From Flocq Require Core.
From Verif Require Import Base SpecGrid SpecGhost SpecStencil SpecGhostSum SpecReduce SpecRelative SpecVbf SpecBodies SpecIO SpecDiag Comm Blocking Diagnostics Vbf RoundedNorm.
From Verif Require RoundedNormProofs.
Open Scope Z_scope.

(** The exact norms. *)
Definition l2_norm (d15 : R) (sizes : list Z) (w : list Z -> R) : R := (sqrt (rsum (map (fun p => Rsqr (w p)) (all_cells sizes))) * d15)%R.
Definition deviation (nc N : Z) (P : Z -> Z -> R) : R := (sqrt (rsum (map (fun c => rsum (map (fun j => Rsqr (P c j)) (zrange 0 N))) (zrange 0 nc))) / sqrt (IZR N))%R.

(** C62.  The divergence norm, with every operation rounded, in whatever order numpy and MPI add: its square is that of the exact norm over
    the global grid up to as many roundings as a rank has cells, plus the number of ranks, plus six. *)
Theorem C62_divergence_norm (rnd : R -> R) (eps : R) dims loc g d15 dv (m : mem R) w :
  relative_rounding rnd eps -> grid_ok dims loc -> 1 <= g -> (0 <= d15)%R -> represents dims loc g [dv] m (fun _ => w) ->
  (exists x, rounded_divergence_norm rnd loc g (zprod dims) d15 dv m x) /\
  (forall x, rounded_divergence_norm rnd loc g (zprod dims) d15 dv m x -> let X := l2_norm d15 (global_size dims loc) w in
     (0 <= x)%R /\ close eps (Z.to_nat (zprod loc) + Z.to_nat (zprod dims) + 6) (x * x) (X * X)).
Proof.
  intros HR Hg Hgs Hd Hm. split; [exact (RoundedNormProofs.divergence_exists rnd dims loc g d15 dv m Hg)|].
  intros x Hx. exact (RoundedNormProofs.divergence_near rnd eps dims loc g d15 dv m w x HR Hg Hgs Hd Hm Hx).
Qed.
(** Two decompositions of one grid: the norms agree up to the roundings of both; in particular one is zero exactly if the other is. *)
Theorem C62_decompositions_agree (rnd : R -> R) (eps : R) dims1 loc1 g1 dv1 (m1 : mem R) x1 dims2 loc2 g2 dv2 (m2 : mem R) x2 d15 w :
  relative_rounding rnd eps -> (0 <= d15)%R -> global_size dims1 loc1 = global_size dims2 loc2 ->
  grid_ok dims1 loc1 -> 1 <= g1 -> represents dims1 loc1 g1 [dv1] m1 (fun _ => w) -> rounded_divergence_norm rnd loc1 g1 (zprod dims1) d15 dv1 m1 x1 ->
  grid_ok dims2 loc2 -> 1 <= g2 -> represents dims2 loc2 g2 [dv2] m2 (fun _ => w) -> rounded_divergence_norm rnd loc2 g2 (zprod dims2) d15 dv2 m2 x2 ->
  close eps ((Z.to_nat (zprod loc1) + Z.to_nat (zprod dims1) + 6) + (Z.to_nat (zprod loc2) + Z.to_nat (zprod dims2) + 6)) (x1 * x1) (x2 * x2) /\ (x1 = 0%R <-> x2 = 0%R).
Proof.
  intros HR Hd E G1 H1 M1 X1 G2 H2 M2 X2. destruct (C62_divergence_norm rnd eps dims1 loc1 g1 d15 dv1 m1 w HR G1 H1 Hd M1) as [_ C1]. destruct (C62_divergence_norm rnd eps dims2 loc2 g2 d15 dv2 m2 w HR G2 H2 Hd M2) as [_ C2].
  specialize (C1 x1 X1) as [_ C1]. specialize (C2 x2 X2) as [_ C2]. rewrite E in C1.
  assert (C : close eps ((Z.to_nat (zprod loc1) + Z.to_nat (zprod dims1) + 6) + (Z.to_nat (zprod loc2) + Z.to_nat (zprod dims2) + 6)) (x1 * x1) (x2 * x2)).
  { eapply (RoundedNormProofs.close_trans rnd eps HR); [exact C1|]. apply RoundedNormProofs.close_sym. exact C2. }
  split; [exact C|]. exact (RoundedNormProofs.close_zero rnd eps HR _ _ _ C).
Qed.
(** The norm is zero exactly if the divergence is zero everywhere. *)
Theorem C62_zero_iff_zero (rnd : R -> R) (eps : R) dims loc g d15 dv (m : mem R) w x :
  relative_rounding rnd eps -> grid_ok dims loc -> 1 <= g -> (0 < d15)%R -> represents dims loc g [dv] m (fun _ => w) ->
  rounded_divergence_norm rnd loc g (zprod dims) d15 dv m x -> (x = 0%R <-> forall p, inb (global_size dims loc) p -> w p = 0%R).
Proof.
  intros HR Hg Hgs Hd Hm Hx. destruct (C62_divergence_norm rnd eps dims loc g d15 dv m w HR Hg Hgs ltac:(lra) Hm) as [_ C]. specialize (C x Hx) as [_ C].
  rewrite (RoundedNormProofs.close_zero rnd eps HR _ _ _ C). exact (RoundedNormProofs.norm_zero d15 (global_size dims loc) w Hd).
Qed.
(** The deviation norm of an interactor, likewise: at most all the entries, the number of ranks and eight roundings. *)
Theorem C62_deviation_norm (rnd : R -> R) (eps : R) (nc n N master : Z) A s (m : Z -> @lmem R) (P V : Z -> Z -> R) :
  relative_rounding rnd eps -> 0 <= nc -> 0 < n -> 0 < N -> consistent n nc master A N s m P V ->
  (exists x, rounded_deviation rnd n nc N A s m x) /\
  (forall x, rounded_deviation rnd n nc N A s m x -> let X := deviation nc N P in (0 <= x)%R /\ close eps (Z.to_nat (nc * N) + Z.to_nat n + 8) (x * x) (X * X)).
Proof.
  intros HR Hc Hn HN Hs. split; [exact (RoundedNormProofs.deviation_exists rnd n nc N A s m Hn)|].
  intros x Hx. exact (RoundedNormProofs.deviation_near rnd eps nc n N master A s m P V x HR Hc Hn HN Hs Hx).
Qed.
(** Rounding to 53 bits (to nearest even, any exponent) is such a rounding. *)
Theorem C62_53_bits : relative_rounding (Flocq.Core.Generic_fmt.round Flocq.Core.Zaux.radix2 (Flocq.Core.FLX.FLX_exp 53) Flocq.Core.Round_NE.ZnearestE) (Flocq.Core.Raux.bpow Flocq.Core.Zaux.radix2 (-53)).
Proof. exact RoundedNormProofs.flx53. Qed.

(** The hypotheses hold: a field on two decompositions of a 4x6 grid, whose norm is not zero. *)
Example C62_nonvacuous : exists (m1 m2 : mem R) (w : list Z -> R) x1 x2,
  represents [2; 1] [2; 6] 2 [0%nat] m1 (fun _ => w) /\ represents [1; 3] [4; 2] 1 [0%nat] m2 (fun _ => w) /\
  rounded_divergence_norm (fun x => x) [2; 6] 2 2 1 0%nat m1 x1 /\ rounded_divergence_norm (fun x => x) [4; 2] 1 3 1 0%nat m2 x2 /\ relative_rounding (fun x => x) 0 /\
  grid_ok [2; 1] [2; 6] /\ grid_ok [1; 3] [4; 2] /\ global_size [2; 1] [2; 6] = global_size [1; 3] [4; 2] /\ x1 <> 0%R.
Proof.
  assert (G1 : grid_ok [2; 1] [2; 6]) by (split; [reflexivity|unfold positive; repeat (apply Forall_cons; [lia|]); apply Forall_nil|unfold positive; repeat (apply Forall_cons; [lia|]); apply Forall_nil]).
  assert (G2 : grid_ok [1; 3] [4; 2]) by (split; [reflexivity|unfold positive; repeat (apply Forall_cons; [lia|]); apply Forall_nil|unfold positive; repeat (apply Forall_cons; [lia|]); apply Forall_nil]).
  assert (HR : relative_rounding (fun x => x) 0) by (split; [lra|reflexivity|intros x; rewrite Rminus_diag_eq, Rabs_R0 by reflexivity; lra]).
  destruct (C62_divergence_norm (fun x => x) 0 [2; 1] [2; 6] 2 1 0%nat (fun _ => 1%R) (fun _ => 1%R) HR G1 ltac:(lia) ltac:(lra)) as [[x1 X1] _]; [intros r f x _ _ _; reflexivity|].
  destruct (C62_divergence_norm (fun x => x) 0 [1; 3] [4; 2] 1 1 0%nat (fun _ => 1%R) (fun _ => 1%R) HR G2 ltac:(lia) ltac:(lra)) as [[x2 X2] _]; [intros r f x _ _ _; reflexivity|].
  exists (fun _ => 1%R), (fun _ => 1%R), (fun _ => 1%R), x1, x2. split; [intros r f x _ _ _; reflexivity|]. split; [intros r f x _ _ _; reflexivity|].
  split; [exact X1|]. split; [exact X2|]. split; [exact HR|]. split; [exact G1|]. split; [exact G2|]. split; [reflexivity|].
  intros E. apply (C62_zero_iff_zero (fun x => x) 0 [2; 1] [2; 6] 2 1 0%nat (fun _ => 1%R) (fun _ => 1%R) x1 HR G1 ltac:(lia) ltac:(lra)) with (p := [0; 0]) in E; [lra|intros r f x _ _ _; reflexivity|exact X1|].
  repeat constructor; cbn; lia.
Qed.
(** An interactor with two nodes on two ranks. *)
Example C62_nonvacuous_deviation : exists A s (m : Z -> @lmem R) P V, consistent 2 2 0 A 2 s m P V.
Proof. exact RoundedNormProofs.deviation_example. Qed.

Print Assumptions C62_divergence_norm.
Print Assumptions C62_decompositions_agree.
Print Assumptions C62_zero_iff_zero.
Print Assumptions C62_deviation_norm.
Print Assumptions C62_53_bits.
