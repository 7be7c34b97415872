(** Proofs for C62. *)
From Coq Require Import Reals Lra Psatz Permutation FunctionalExtensionality.
From Flocq Require Import Core Relative.
From Verif Require Import Base SpecGrid SpecGhost SpecStencil SpecGhostSum SpecReduce SpecRelative SpecVbf SpecBodies SpecDiag SpecLag SpecIO Comm Blocking Diagnostics Vbf RoundedNorm.
From Verif Require Import GhostGeo FieldProofs IoEulProofs GhostSumHops ReduceProofs DiagProofs Deviation DeviationProofs.
Open Scope R_scope.

Section R.
Variables (rnd : R -> R) (eps : R).
Hypothesis HR : relative_rounding rnd eps.
Notation "x =[ k ]= y" := (close eps k x y) (at level 70).

Lemma q_range : 0 < 1 - eps <= 1. Proof. destruct HR. lra. Qed.
Lemma pow_range k : 0 < (1 - eps) ^ k <= 1.
Proof. induction k as [|k IH]; cbn; [lra|]. pose proof q_range. nra. Qed.
Lemma close_refl k x : 0 <= x -> x =[k]= x.
Proof. intros H. pose proof (pow_range k). split; nra. Qed.
Lemma close_sym k x y : x =[k]= y -> y =[k]= x.
Proof. intros [H1 H2]. split; auto. Qed.
Lemma close_pos k x y : x =[k]= y -> 0 <= y -> 0 <= x.
Proof. intros [H1 H2] H. pose proof (pow_range k). nra. Qed.
Lemma close_trans k1 k2 x y z : x =[k1]= y -> y =[k2]= z -> x =[k1 + k2]= z.
Proof. intros [A B] [C D]. unfold close. rewrite pow_add. pose proof (pow_range k1). pose proof (pow_range k2). split; nra. Qed.
Lemma close_weak k1 k2 x y : (k1 <= k2)%nat -> 0 <= y -> x =[k1]= y -> x =[k2]= y.
Proof.
  intros H Hy Hc. replace k2 with (k1 + (k2 - k1))%nat by lia. apply (close_trans k1 _ x y y Hc). now apply close_refl.
Qed.
Lemma close_add k x y x' y' : x =[k]= y -> x' =[k]= y' -> x + x' =[k]= y + y'.
Proof. intros [A B] [C D]. split; lra. Qed.
Lemma close_mul k1 k2 x y x' y' : 0 <= y -> 0 <= y' -> x =[k1]= y -> x' =[k2]= y' -> x * x' =[k1 + k2]= y * y'.
Proof.
  intros Hy Hy' Hx Hx'. pose proof (close_pos _ _ _ Hx Hy). pose proof (close_pos _ _ _ Hx' Hy'). destruct Hx as [A B], Hx' as [C D]. unfold close. rewrite pow_add. pose proof (pow_range k1). pose proof (pow_range k2). set (p := (1 - eps) ^ k1) in *. set (q := (1 - eps) ^ k2) in *.
  assert (0 <= q * y') by nra. assert (0 <= q * x') by nra. assert (0 <= p * y) by nra. assert (0 <= p * x) by nra. split.
  - replace (p * q * (y * y')) with ((p * y) * (q * y')) by ring. apply Rmult_le_compat; assumption.
  - replace (p * q * (x * x')) with ((p * x) * (q * x')) by ring. apply Rmult_le_compat; assumption.
Qed.
Lemma close_inv k x y : 0 < y -> x =[k]= y -> / x =[k]= / y.
Proof.
  intros Hy [A B]. unfold close. pose proof (pow_range k) as P. set (p := (1 - eps) ^ k) in *. assert (0 < x) by nra. assert (0 < / x) by now apply Rinv_0_lt_compat. assert (0 < / y) by now apply Rinv_0_lt_compat. split.
  - apply Rmult_le_reg_r with (x * y); [nra|]. replace (p * / y * (x * y)) with (p * x) by (field; lra). replace (/ x * (x * y)) with y by (field; lra). exact B.
  - apply Rmult_le_reg_r with (x * y); [nra|]. replace (p * / x * (x * y)) with (p * y) by (field; lra). replace (/ y * (x * y)) with x by (field; lra). exact A.
Qed.
Lemma close_rnd x : 0 <= x -> rnd x =[1]= x.
Proof.
  intros H. pose proof (rr_error _ _ HR x) as E. pose proof (rr_eps _ _ HR). rewrite (Rabs_pos_eq x H) in E. pose proof (Rle_abs (rnd x - x)) as A1. pose proof (Rle_abs (- (rnd x - x))) as A2. rewrite Rabs_Ropp in A2. unfold close. rewrite pow_1. split; nra.
Qed.
Lemma rnd_0 : rnd 0 = 0.
Proof. pose proof (rr_error _ _ HR 0) as E. rewrite Rabs_R0, Rmult_0_r, Rminus_0_r in E. pose proof (Rabs_pos (rnd 0)). destruct (Req_dec (rnd 0) 0) as [|N]; [assumption|]. apply Rabs_no_R0 in N. lra. Qed.
Lemma rnd_step k x y : 0 <= y -> x =[k]= y -> rnd x =[S k]= y.
Proof. intros Hy H. apply (close_trans 1 k _ x). - apply close_rnd. now apply (close_pos k x y). - exact H. Qed.
Lemma sqrt_sq k x y : 0 <= y -> x =[k]= y -> rnd (sqrt x) * rnd (sqrt x) =[2 + k]= y.
Proof.
  intros Hy H. pose proof (close_pos _ _ _ H Hy) as Hx. apply (close_trans 2 k _ x); [|exact H].
  rewrite <- (sqrt_sqrt x Hx) at 3. apply (close_mul 1 1); try apply sqrt_pos; apply close_rnd, sqrt_pos.
Qed.

(** Sums. *)
Definition squares (l : list R) : R := total Rplus 0 (map Rsqr l).
Lemma cmR : comm_monoid Rplus 0. Proof. split; intros; ring. Qed.
Lemma squares_pos l : 0 <= squares l.
Proof. unfold squares, total. induction l as [|x l IH]; cbn; [lra|]. pose proof (Rle_0_sqr x). lra. Qed.
Lemma squares_app l1 l2 : squares (l1 ++ l2) = squares l1 + squares l2.
Proof. unfold squares. rewrite map_app. now rewrite (total_app Rplus 0 cmR). Qed.
Lemma dot_ok l s : dot rnd l s -> s =[length l]= squares l /\ rnd s = s /\ (l = [] -> s = 0).
Proof.
  induction 1 as [|x|x l s _ (IH & Id & _)|l1 l2 s1 s2 _ (I1 & D1 & Z1) _ (I2 & D2 & Z2)|l1 l2 s P _ (IH & Id & Z0)].
  - repeat split; auto using rnd_0; unfold squares; cbn; lra.
  - assert (E : squares [x] = x * x) by (unfold squares, total, Rsqr; cbn; ring). rewrite E. repeat split; try discriminate; try apply (rr_idem _ _ HR); apply close_rnd; nra.
  - assert (E : squares (x :: l) = squares l + x * x) by (unfold squares, total, Rsqr; cbn; ring). rewrite E. split; [|split; [apply (rr_idem _ _ HR)|discriminate]].
    pose proof (squares_pos l). assert (0 <= x * x) by nra. apply rnd_step; [lra|]. apply close_add; [exact IH|now apply close_refl].
  - rewrite squares_app, app_length. pose proof (squares_pos l1). pose proof (squares_pos l2). destruct l1 as [|a l1]; [|destruct l2 as [|b l2]].
    + rewrite (Z1 eq_refl). unfold squares at 1. cbn [map total fold_right length Nat.add]. rewrite Rplus_0_l, D2. unfold total. cbn [fold_right]. rewrite Rplus_0_l. cbn [app]. auto.
    + rewrite (Z2 eq_refl). change (squares []) with 0. rewrite Rplus_0_r, D1, Nat.add_0_r, Rplus_0_r, app_nil_r. auto.
    + split; [|split; [apply (rr_idem _ _ HR)|discriminate]]. apply (close_weak (S (Nat.max (length (a :: l1)) (length (b :: l2))))); [cbn; lia|lra|]. apply rnd_step; [lra|].
      apply close_add; (eapply close_weak; [|assumption|eassumption]); lia.
  - rewrite <- (Permutation_length P). split; [|split; [exact Id|]].
    + replace (squares l2) with (squares l1); [exact IH|]. unfold squares. apply (total_perm Rplus 0 cmR). now apply Permutation_map.
    + intros ->. apply Z0. apply Permutation_sym in P. apply Permutation_nil in P. exact P.
Qed.
Lemma norm_sq_ok l v : norm_sq rnd l v -> v =[3 + length l]= squares l.
Proof.
  intros (s & D & ->). apply dot_ok in D as (D & _). pose proof (squares_pos l) as P. apply (rnd_step (2 + length l)); [exact P|]. now apply sqrt_sq.
Qed.
Lemma combines_near k (v w : Z -> R) ls t : combines (fun a b => rnd (a + b)) v ls t -> (forall r, In r ls -> v r =[k]= w r /\ 0 <= w r) ->
  exists t', combines Rplus w ls t' /\ 0 <= t' /\ t =[k + (length ls - 1)]= t' /\ (1 <= length ls)%nat.
Proof.
  induction 1 as [r|l1 l2 x y C1 IH1 C2 IH2|l1 l2 x P C IH]; intros H.
  - destruct (H r (or_introl eq_refl)) as [A B]. exists (w r). cbn. rewrite Nat.add_0_r. split; [apply comb_one|]. split; [exact B|]. split; [exact A|lia].
  - destruct IH1 as (x' & D1 & P1 & E1 & L1); [intros r Hr; apply H, in_or_app; now left|]. destruct IH2 as (y' & D2 & P2 & E2 & L2); [intros r Hr; apply H, in_or_app; now right|].
    exists (x' + y'). split; [now constructor|]. split; [lra|]. rewrite app_length. split; [|lia].
    apply (close_weak (S (Nat.max (k + (length l1 - 1)) (k + (length l2 - 1))))); [lia|lra|]. apply rnd_step; [lra|]. apply close_add; (eapply close_weak; [|assumption|eassumption]); lia.
  - destruct IH as (x' & D & P' & E & L); [intros r Hr; apply H; eapply Permutation_in; eassumption|]. exists x'. rewrite <- (Permutation_length P). split; [now apply (comb_perm _ _ l1)|]. auto.
Qed.
Lemma zlen n : (0 <= n)%Z -> length (zrange 0 n) = Z.to_nat n.
Proof. intros H. unfold zrange. rewrite map_length, seq_length. lia. Qed.
Lemma sums_near n l k t : (0 < n)%Z -> (forall r, (0 <= r < n)%Z -> (length (l r) <= k)%nat) -> sum_of_norms rnd n l t ->
  exists t', reduces Rplus n (fun r => squares (l r)) t' /\ 0 <= t' /\ t =[k + Z.to_nat n + 2]= t'.
Proof.
  intros Hn Hk (v & Hv & Hr). destruct (combines_near (3 + k) v (fun r => squares (l r)) (zrange 0 n) t Hr) as (t' & D & P & E & _).
  - intros r Hin. apply zrange_In in Hin. split; [|apply squares_pos]. eapply close_weak; [|apply squares_pos|apply norm_sq_ok, Hv; lia]. specialize (Hk r ltac:(lia)). lia.
  - exists t'. split; [exact D|]. split; [exact P|]. rewrite zlen in E by lia. eapply close_weak; [|exact P|exact E]. lia.
Qed.
Lemma times_last k t t' d : 0 <= d -> 0 <= t' -> t =[k]= t' -> let x := rnd (rnd (sqrt t) * d) in 0 <= x /\ x * x =[k + 4]= (sqrt t' * d) * (sqrt t' * d).
Proof.
  intros Hd Ht H x. pose proof (close_pos _ _ _ H Ht) as P. pose proof (sqrt_pos t) as Q. pose proof (close_pos _ _ _ (close_rnd _ Q) Q) as Q1.
  assert (Hy : 0 <= rnd (sqrt t) * d) by nra. pose proof (close_rnd _ Hy) as C. fold x in C. split; [exact (close_pos _ _ _ C Hy)|].
  apply (close_weak (2 + (2 + k))); [lia|pose proof (sqrt_pos t'); nra|]. apply (close_trans 2 _ _ ((rnd (sqrt t) * d) * (rnd (sqrt t) * d))); [now apply (close_mul 1 1)|].
  replace (rnd (sqrt t) * d * (rnd (sqrt t) * d)) with (rnd (sqrt t) * rnd (sqrt t) * (d * d)) by ring. replace (sqrt t' * d * (sqrt t' * d)) with (sqrt t' * sqrt t' * (d * d)) by ring. rewrite (sqrt_sqrt t' Ht).
  replace (2 + k)%nat with (2 + k + 0)%nat by lia. apply close_mul; [exact Ht|nra|now apply sqrt_sq|apply close_refl; nra].
Qed.
End R.
Lemma filter_le {A} (f : A -> bool) l : (length (filter f l) <= length l)%nat.
Proof. induction l as [|x l IH]; cbn; [lia|]. destruct (f x); cbn; lia. Qed.
Lemma box_len ls : forall ss, length ss = length ls -> Forall (fun l => (0 <= l)%Z) ls -> length (box ss ls) = Z.to_nat (zprod ls).
Proof.
  induction ls as [|l ls IH]; intros [|s ss] H Hp; try discriminate; [reflexivity|]. cbn [box]. apply Forall_cons_iff in Hp as [Hl Hp]. injection H as H.
  assert (E : forall L : list Z, length (flat_map (fun i => map (cons i) (box ss ls)) L) = (length L * Z.to_nat (zprod ls))%nat).
  { induction L as [|i L IHL]; [reflexivity|]. cbn [flat_map length]. rewrite app_length, map_length, IHL, (IH ss H Hp). reflexivity. }
  rewrite E. unfold zrange. rewrite map_length, seq_length. cbn [zprod fold_right]. change (fold_right Z.mul 1%Z ls) with (zprod ls).
  assert (0 <= zprod ls)%Z. { clear - Hp. induction Hp as [|x l Hx _ IH]; cbn; [lia|]. now apply Z.mul_nonneg_nonneg. }
  rewrite Z2Nat.inj_mul by assumption. f_equal.
Qed.
Lemma divergence_near rnd eps dims loc g d15 dv (m : mem R) w x : relative_rounding rnd eps -> grid_ok dims loc -> (1 <= g)%Z -> 0 <= d15 -> represents dims loc g [dv] m (fun _ => w) ->
  rounded_divergence_norm rnd loc g (zprod dims) d15 dv m x ->
  let X := sqrt (total Rplus 0 (map (fun p => Rsqr (w p)) (all_cells (global_size dims loc)))) * d15 in
  0 <= x /\ close eps (Z.to_nat (zprod loc) + Z.to_nat (zprod dims) + 6) (x * x) (X * X).
Proof.
  intros HR Hg Hgs Hd Hm (t & Ht & ->). pose proof (ranks_nonempty dims loc Hg) as Hn. assert (Hp : positive loc) by apply Hg.
  destruct (sums_near rnd eps HR (zprod dims) (fun r => map (fun I => m (r, (dv, ravel (ghosted g loc) I))) (slice_cells (ghosted g loc) g)) (Z.to_nat (zprod loc)) t ltac:(lia)) as (t' & D & P & E).
  - intros r _. rewrite map_length, slice_cells_eq by assumption. rewrite box_len; [lia|now rewrite map_length|]. eapply Forall_impl; [|exact Hp]. cbv beta. lia.
  - exact Ht.
  - destruct (times_last rnd eps HR _ _ _ d15 Hd P E) as [X1 X2]. split; [exact X1|].
    assert (EX : divergence_norm loc g (zprod dims) d15 dv m (sqrt t' * d15)).
    { exists t'. split; [|reflexivity]. unfold reduces in *. erewrite (functional_extensionality _ (fun r => squares (map (fun I => m (r, (dv, ravel (ghosted g loc) I))) (slice_cells (ghosted g loc) g)))); [exact D|].
      intros r. unfold squares. rewrite map_map. apply Rsqr_sqrt. pose proof (squares_pos (map (fun I => m (r, (dv, ravel (ghosted g loc) I))) (slice_cells (ghosted g loc) g))) as Q. unfold squares in Q. rewrite map_map in Q. exact Q. }
    rewrite (divergence_norm_ok dims loc g Hg Hgs d15 dv m w _ Hm EX) in X2. replace (Z.to_nat (zprod loc) + Z.to_nat (zprod dims) + 6)%nat with (Z.to_nat (zprod loc) + Z.to_nat (zprod dims) + 2 + 4)%nat by lia. exact X2.
Qed.
Lemma deviation_near rnd eps (nc n N master : Z) A s (m : Z -> @lmem R) (P V : Z -> Z -> R) x : relative_rounding rnd eps -> (0 <= nc)%Z -> (0 < n)%Z -> (0 < N)%Z ->
  consistent n nc master A N s m P V -> rounded_deviation rnd n nc N A s m x ->
  let X := sqrt (total Rplus 0 (map (fun c => total Rplus 0 (map (fun j => Rsqr (P c j)) (zrange 0 N))) (zrange 0 nc))) / sqrt (IZR N) in
  0 <= x /\ close eps (Z.to_nat (nc * N) + Z.to_nat n + 8) (x * x) (X * X).
Proof.
  intros HR Hnc Hn HN Hc (t & Ht & ->). set (d := / rnd (sqrt (IZR N))).
  assert (NP : 0 < sqrt (IZR N)) by (apply sqrt_lt_R0; now apply IZR_lt).
  assert (DP : 0 < / sqrt (IZR N)) by now apply Rinv_0_lt_compat.
  assert (CD : close eps 1 d (/ sqrt (IZR N))) by (apply (close_inv rnd eps HR); [exact NP|apply close_rnd; [exact HR|lra]]).
  pose proof (close_pos rnd eps HR _ _ _ CD ltac:(lra)) as D0.
  destruct (sums_near rnd eps HR n (fun r => map (fun k => m r (lpm A, k)) (zrange 0 (nc * num s r))) (Z.to_nat (nc * N)) t Hn) as (t' & D & P' & E).
  - intros r Hr. destruct Hc as ((_ & _ & HN') & Hcnt & _). rewrite map_length, (Hcnt r Hr). unfold zrange. rewrite map_length, seq_length.
    assert (node_count (address s) r <= N)%Z. { rewrite <- HN'. unfold node_count, nodes_of. pose proof (filter_le (fun j => (nth (Z.to_nat j) (address s) (-1) =? r)%Z) (zrange 0 (Z.of_nat (length (address s))))) as F. unfold zrange in F at 2. rewrite map_length, seq_length in F. lia. }
    assert (0 <= node_count (address s) r)%Z by (unfold node_count; lia). nia.
  - exact Ht.
  - destruct (times_last rnd eps HR _ _ _ d D0 P' E) as [X1 X2]. change (rnd (sqrt t) / rnd (sqrt (IZR N))) with (rnd (sqrt t) * d). split; [exact X1|].
    assert (EX : global_deviation n nc N A s m (sqrt t' / sqrt (IZR N))).
    { exists t'. split; [|reflexivity]. unfold reduces in *. erewrite (functional_extensionality _ (fun r => squares (map (fun k => m r (lpm A, k)) (zrange 0 (nc * num s r))))); [exact D|].
      intros r. unfold array_norm, squares. rewrite map_map. apply Rsqr_sqrt. pose proof (squares_pos (map (fun k => m r (lpm A, k)) (zrange 0 (nc * num s r)))) as Q. unfold squares in Q. rewrite map_map in Q. exact Q. }
    pose proof (deviation_ok nc n N master A s m P V _ Hnc Hn Hc EX) as EV. cbv zeta. rewrite <- EV. clear EV EX.
    replace (Z.to_nat (nc * N) + Z.to_nat n + 8)%nat with (Z.to_nat (nc * N) + Z.to_nat n + 2 + 4 + (0 + 2))%nat by lia. eapply (close_trans rnd eps HR); [exact X2|].
    unfold Rdiv. set (q := sqrt t'). replace (q * d * (q * d)) with ((q * q) * (d * d)) by ring. replace (q * / sqrt (IZR N) * (q * / sqrt (IZR N))) with ((q * q) * (/ sqrt (IZR N) * / sqrt (IZR N))) by ring.
    assert (0 <= q * q) by (unfold q; pose proof (sqrt_pos t'); nra). apply (close_mul rnd eps HR 0 2); [assumption|nra|now apply (close_refl rnd eps HR)|]. apply (close_mul rnd eps HR 1 1); auto; lra.
Qed.
Lemma close_zero rnd eps (HR : relative_rounding rnd eps) k x y : close eps k (x * x) (y * y) -> (x = 0 <-> y = 0).
Proof. intros [A B]. pose proof (pow_range rnd eps HR k). split; intros ->; [assert (y * y <= 0) by nra|assert (x * x <= 0) by nra]; nra. Qed.
Lemma combines_some {T} (op : T -> T -> T) v l : l <> [] -> exists t, combines op v l t.
Proof.
  induction l as [|r l IH]; [contradiction|]. intros _. destruct l as [|r' l]; [exists (v r); constructor|]. destruct IH as (t & Ht); [discriminate|]. exists (op (v r) t). exact (comb_two _ _ [r] _ _ _ (comb_one _ _ r) Ht).
Qed.
Fixpoint dot_seq (rnd : R -> R) (l : list R) : R := match l with [] => 0 | x :: l' => rnd (dot_seq rnd l' + x * x) end.
Lemma dot_seq_ok rnd l : dot rnd l (dot_seq rnd l).
Proof. induction l; cbn; now constructor. Qed.
Lemma sums_exist rnd n l : (0 < n)%Z -> exists t, sum_of_norms rnd n l t.
Proof.
  intros Hn. set (v := fun r => rnd (rnd (sqrt (dot_seq rnd (l r))) * rnd (sqrt (dot_seq rnd (l r))))). destruct (combines_some (fun a b => rnd (a + b)) v (zrange 0 n)) as (t & Ht).
  - intros E. assert (In 0%Z (zrange 0 n)) by (apply zrange_In; lia). rewrite E in *. contradiction.
  - exists t, v. split; [|exact Ht]. intros r _. exists (dot_seq rnd (l r)). split; [apply dot_seq_ok|reflexivity].
Qed.
Lemma divergence_exists rnd dims loc g d15 dv (m : mem R) : grid_ok dims loc -> exists x, rounded_divergence_norm rnd loc g (zprod dims) d15 dv m x.
Proof. intros Hg. pose proof (ranks_nonempty dims loc Hg) as Hn. destruct (sums_exist rnd (zprod dims) (fun r => map (fun I => m (r, (dv, ravel (ghosted g loc) I))) (slice_cells (ghosted g loc) g))) as (t & Ht); [lia|]. eexists. exists t. split; [exact Ht|reflexivity]. Qed.
Lemma deviation_exists rnd n nc N A s (m : Z -> @lmem R) : (0 < n)%Z -> exists x, rounded_deviation rnd n nc N A s m x.
Proof. intros Hn. destruct (sums_exist rnd n (fun r => map (fun k => m r (lpm A, k)) (zrange 0 (nc * num s r))) Hn) as (t & Ht). eexists. exists t. split; [exact Ht|reflexivity]. Qed.
Lemma norm_zero d15 sizes (w : list Z -> R) : 0 < d15 -> sqrt (rsum (map (fun p => Rsqr (w p)) (all_cells sizes))) * d15 = 0 <-> forall p, inb sizes p -> w p = 0.
Proof.
  intros Hd. assert (E : forall l : list (list Z), 0 <= rsum (map (fun p => Rsqr (w p)) l) /\ (rsum (map (fun p => Rsqr (w p)) l) = 0 <-> forall p, In p l -> w p = 0)).
  { induction l as [|p l [P IH]]; cbn; [split; [lra|split; [intros _ q []|reflexivity]]|]. pose proof (Rle_0_sqr (w p)) as Q. split; [lra|]. split.
    - intros H q [<-|Hq]; [apply Rsqr_0_uniq; lra|apply IH; [lra|exact Hq]].
    - intros H. rewrite (H p (or_introl eq_refl)), Rsqr_0. rewrite (proj2 IH); [lra|]. intros q Hq. apply H. now right. }
  destruct (E (all_cells sizes)) as [P I]. split.
  - intros H p Hp. apply I; [|now apply inb_box_In]. apply sqrt_eq_0; [exact P|]. apply Rmult_integral in H as [H|H]; [exact H|lra].
  - intros H. rewrite (proj2 I); [rewrite sqrt_0; ring|]. intros p Hp. apply H. now apply inb_box_In.
Qed.
Lemma flx53 : relative_rounding (round radix2 (FLX_exp 53) ZnearestE) (bpow radix2 (-53)).
Proof.
  assert (p53 : Prec_gt_0 53) by reflexivity. split.
  - split; [apply bpow_ge_0|]. change 1 with (bpow radix2 0). apply bpow_lt. lia.
  - intros x. apply round_generic; auto with typeclass_instances. apply generic_format_round; auto with typeclass_instances.
  - intros x. eapply Rle_trans; [apply (relative_error_N_FLX radix2 53 ltac:(lia))|]. apply Rmult_le_compat_r; [apply Rabs_pos|]. apply Req_le. change (- (53) + 1)%Z with (1 + -53)%Z. rewrite bpow_plus. change (bpow radix2 1) with 2. set (b := bpow radix2 (-53)). field.
Qed.
Lemma deviation_example : exists A s (m : Z -> @lmem R) P V, consistent 2 2 0 A 2 s m P V.
Proof.
  exists {| gpm := 0; gvm := 1; gfo := 2; gpos := 3; gvel := 4; lpm := 5; lvm := 6; lfo := 7; lpos := 8; lvel := 9; lflow := 10 |}, {| address := [1; 0]%Z; order := [1%Z]; num := fun _ => 1%Z |}, (fun r _ => IZR (r + 1)), (fun _ j => IZR (2 - j)), (fun _ j => IZR (2 - j)).
  assert (K : forall r i j : Z, (0 <= r < 2)%Z -> ith_node [1%Z; 0%Z] r i j -> (r + 1 = 2 - j)%Z).
  { intros r i j Hr [_ H]. apply nth_error_In in H. unfold nodes_of in H. apply filter_In in H as [Hj E]. apply zrange_In in Hj. change (Z.of_nat (length [1%Z; 0%Z])) with 2%Z in Hj. apply Z.eqb_eq in E. assert (D : j = 0%Z \/ j = 1%Z) by lia. destruct D as [-> | ->]; [change (1 = r)%Z in E|change (0 = r)%Z in E]; lia. }
  split; [|split; [|split]].
  - split; [repeat (constructor; [lia|]); constructor|]. split; [|reflexivity]. split; [constructor; [intros []|constructor]|]. intros q. cbn. lia.
  - intros r Hr. assert (D : r = 0%Z \/ r = 1%Z) by lia. destruct D as [-> | ->]; reflexivity.
  - intros r c i j Hr _ H. f_equal. exact (K r i j Hr H).
  - intros r c i j Hr _ H. f_equal. exact (K r i j Hr H).
Qed.
