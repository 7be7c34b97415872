(** Proofs for C65. *)
From Coq Require Import Reals QArith Lra.
From Verif Require Import Base SpecGrid SpecGhost SpecGhostSum SpecStencil SpecStep SpecReduce SpecDiag SpecIO SpecVerify GhostSumHops IoEulProofs Cart CartFacts Comm Coords ConstructProofs FieldProofs GhostGeo ReduceProofs Diagnostics DiagProofs Verify.
Open Scope Z_scope.

Lemma Forall2_of_nth {A} (S : A -> A -> Prop) d : forall a b, length a = length b -> (forall c, (c < length a)%nat -> S (nth c a d) (nth c b d)) -> Forall2 S a b.
Proof.
  induction a as [|x a IH]; intros [|y b] L H; cbn [length] in L; try discriminate; constructor.
  - apply (H 0%nat). cbn [length]. lia.
  - apply IH; [now injection L|]. intros c Hc. apply (H (Datatypes.S c)). cbn [length]. lia.
Qed.
Lemma sum_of_total l : sum_of l = total Rplus 0%R l.
Proof. induction l as [|x l IH]; [reflexivity|]. cbn [sum_of]. rewrite IH. reflexivity. Qed.

Section P.
Variables (dims loc : list Z) (dx : Q) (g : Z).
Hypotheses (Hok : grid_ok dims loc) (Hg : 1 <= g).
Notation sizes := (ghosted g loc).
Notation n := (zprod dims).
Notation N := (global_size dims loc).

Lemma nth_centre P c : (c < length P)%nat -> nth c (centre dx P) 0%Q = ((inject_Z (nth (length P - 1 - c) P 0%Z) + (1 # 2)) * dx)%Q.
Proof.
  intros H. unfold centre. set (h := fun i : Z => ((inject_Z i + (1 # 2)) * dx)%Q). rewrite rev_nth by (rewrite map_length; exact H). rewrite map_length.
  rewrite (nth_indep _ 0%Q (h 0)) by (rewrite map_length; clear - H; lia). rewrite (map_nth h). unfold h. replace (length P - Datatypes.S c)%nat with (length P - 1 - c)%nat by (clear - H; lia). reflexivity.
Qed.
Lemma pos_length r I : inb sizes I -> length (ghost_pos dims loc g r I) = length loc.
Proof.
  intros HI. pose proof (inb_length _ _ HI) as L1. unfold ghosted in L1. rewrite map_length in L1. destruct Hok as [L _ _].
  unfold ghost_pos, block_start. assert (length (unravel dims r) = length loc) by (rewrite unravel_length; congruence).
  rewrite vadd_length; rewrite ?vmul_length, ?map_length by congruence; congruence.
Qed.
Lemma positions_centre r I : 0 <= r < n -> inb sizes I -> Forall2 Qeq (positions dims loc dx g r I) (centre dx (ghost_pos dims loc g r I)).
Proof.
  intros Hr HI. pose proof (pos_length r I HI) as L. assert (Lp : length (positions dims loc dx g r I) = length loc) by (unfold positions; now rewrite map_length, seq_length).
  apply (Forall2_of_nth Qeq 0%Q).
  - rewrite Lp. unfold centre. rewrite rev_length, map_length. now symmetry.
  - intros c Hc. rewrite Lp in Hc. rewrite nth_centre by (now rewrite L). rewrite L. unfold positions.
    rewrite (nth_indep _ 0%Q (position_field dims loc dx g r 0 I)) by (now rewrite map_length, seq_length).
    rewrite (map_nth (fun c => position_field dims loc dx g r c I)), seq_nth by exact Hc. cbn [Nat.add]. apply position_eq; auto. clear - Hg. lia.
Qed.

Lemma from_positions_eq {T} fs (F : nat -> list Q -> T) m r f I : formula F -> 0 <= r < n -> In f fs -> inb sizes I ->
  field (from_positions dims loc dx g fs F m) sizes r f I = F f (centre dx (ghost_pos dims loc g r I)).
Proof.
  intros HF Hr Hf HI. unfold field, from_positions. pose proof (ravel_bound _ _ HI) as [B1 B2].
  replace (existsb (Nat.eqb f) fs) with true by (symmetry; apply existsb_exists; exists f; split; [exact Hf|apply Nat.eqb_refl]).
  rewrite (proj2 (Z.leb_le _ _) B1), (proj2 (Z.ltb_lt _ _) B2). cbn [andb]. rewrite unravel_ravel by exact HI. apply HF. now apply positions_centre.
Qed.
Lemma from_positions_ext {T} fs (F : nat -> list Q -> T) m : formula F -> represents_ext false dims loc g fs (from_positions dims loc dx g fs F m) (fun f P => F f (centre dx P)).
Proof. intros HF r f I Hr Hf HI _. now apply from_positions_eq. Qed.
Lemma from_positions_frame {T} fs (F : nat -> list Q -> T) m r f i : ~ In f fs -> from_positions dims loc dx g fs F m (r, (f, i)) = m (r, (f, i)).
Proof.
  intros Hf. unfold from_positions. destruct (existsb (Nat.eqb f) fs) eqn:E; [|reflexivity]. apply existsb_exists in E as (f' & H & E). apply Nat.eqb_eq in E. subst. contradiction.
Qed.

(** errors of a rank are the errors in its block *)
Notation err := (deviation dx).
Lemma inner_cell x : inb loc x -> inb sizes (map (fun i => i + g) x).
Proof.
  intros H. clear - Hg H. unfold ghosted. revert x H. induction loc as [|k l IH]; intros [|i x] H; inversion H; subst; cbn [map]; constructor; auto. lia.
Qed.
Lemma pos_inner r x : ghost_pos dims loc g r (map (fun i => i + g) x) = vadd (block_start dims loc r) x.
Proof. unfold ghost_pos. rewrite map_map. f_equal. rewrite <- (map_id x) at 2. apply map_ext. intros; lia. Qed.
Lemma errors_eq fs (F : Z -> nat -> list Q -> R) G m u r : formula G -> 0 <= r < n -> (forall f c, In f fs -> F r f c = G f c) -> represents dims loc g fs m u ->
  errors dims loc dx g fs F m r = flat_map (fun f => map (fun x => err G u f (vadd (block_start dims loc r) x)) (all_cells loc)) fs.
Proof.
  intros HG Hr HF Hu. unfold errors. rewrite !flat_map_concat_map. f_equal. apply map_ext_in. intros f Hf. destruct Hok as [_ _ Hp]. rewrite slice_cells_eq by auto. rewrite inner_box_eq, map_map. apply map_ext_in.
  intros x Hx. apply inb_box_In in Hx. unfold error, deviation. rewrite HF by exact Hf. do 2 f_equal.
  - exact (Hu r f x Hr Hf Hx).
  - apply HG. rewrite <- pos_inner. apply positions_centre; [exact Hr|now apply inner_cell].
Qed.

Lemma total_flat {A B} (h : A -> list B) (k : B -> R) l : total Rplus 0%R (map k (flat_map h l)) = total Rplus 0%R (map (fun a => total Rplus 0%R (map k (h a))) l).
Proof. induction l as [|a l IH]; [reflexivity|]. cbn [flat_map map]. rewrite map_app, (total_app Rplus 0%R cm_Rplus), IH. reflexivity. Qed.
Lemma total_plus {A} (a b : A -> R) l : total Rplus 0%R (map (fun x => (a x + b x)%R) l) = (total Rplus 0%R (map a l) + total Rplus 0%R (map b l))%R.
Proof. induction l as [|x l IH]; unfold total in *; cbn [map fold_right]; [ring|]. rewrite IH. ring. Qed.
Lemma total_scale {A} (a : A -> R) k l : total Rplus 0%R (map (fun x => (a x * k)%R) l) = (total Rplus 0%R (map a l) * k)%R.
Proof. induction l as [|x l IH]; unfold total in *; cbn [map fold_right]; [ring|]. rewrite IH. ring. Qed.
Lemma total_swap {A B} (h : A -> B -> R) la : forall lb, total Rplus 0%R (map (fun b => total Rplus 0%R (map (fun a => h a b) la)) lb) = total Rplus 0%R (map (fun a => total Rplus 0%R (map (fun b => h a b) lb)) la).
Proof.
  induction la as [|a la IH]; intros lb.
  - unfold total. cbn [map fold_right]. induction lb as [|b lb IHb]; [reflexivity|]. cbn [map fold_right]. rewrite IHb. ring.
  - cbn [map]. transitivity (total Rplus 0%R (map (fun b => (h a b + total Rplus 0%R (map (fun a => h a b) la))%R) lb)); [reflexivity|]. rewrite total_plus, IH. reflexivity.
Qed.

Definition squares (fs : list nat) (e : nat -> list Z -> R) : R := total Rplus 0%R (map (fun f => total Rplus 0%R (map (fun P => Rsqr (e f P)) (all_cells N))) fs).
Lemma squares_l2 fs h e : l2_of N fs h e = (sqrt (squares fs e) * h)%R.
Proof. unfold l2_of, squares. rewrite sum_of_total. do 3 f_equal. Qed.
Lemma squares_nonneg fs e : (0 <= squares fs e)%R.
Proof. apply total_nonneg. intros y Hy. apply in_map_iff in Hy as (f & <- & _). apply total_nonneg. intros y Hy. apply in_map_iff in Hy as (P & <- & _). apply Rle_0_sqr. Qed.

Lemma norm_sq l : Rsqr (norm l) = total Rplus 0%R (map Rsqr l).
Proof. unfold norm. change (fold_right Rplus 0%R ?l) with (total Rplus 0%R l). apply Rsqr_sqrt. apply total_nonneg. intros y Hy. apply in_map_iff in Hy as (z & <- & _). apply Rle_0_sqr. Qed.
Lemma ranks_squares fs (F : Z -> nat -> list Q -> R) G m u : formula G -> (forall r f c, 0 <= r < n -> In f fs -> F r f c = G f c) -> represents dims loc g fs m u ->
  total Rplus 0%R (map (fun r => Rsqr (norm (errors dims loc dx g fs F m r))) (zrange 0 n)) = squares fs (err G u).
Proof.
  intros HG HF Hu. unfold squares.
  transitivity (total Rplus 0%R (map (fun r => total Rplus 0%R (map (fun f => total Rplus 0%R (map (fun x => Rsqr (err G u f (vadd (block_start dims loc r) x))) (all_cells loc))) fs)) (zrange 0 n))).
  - f_equal. apply map_ext_in. intros r Hr. apply zrange_In in Hr. assert (Hr' : 0 <= r < n) by (clear - Hr; lia).
    rewrite norm_sq, (errors_eq fs F G m u r) by (auto; intros; now apply HF). rewrite total_flat. f_equal. apply map_ext. intros f. rewrite map_map. reflexivity.
  - rewrite (total_swap (fun f r => total Rplus 0%R (map (fun x => Rsqr (err G u f (vadd (block_start dims loc r) x))) (all_cells loc)))). f_equal. apply map_ext. intros f.
    exact (total_blocks dims loc Hok (fun P => Rsqr (err G u f P))).
Qed.
Lemma zr_nonempty : zrange 0 n <> [].
Proof. intros E. pose proof (ranks_nonempty dims loc Hok) as H. assert (In 0 (zrange 0 n)) by (apply zrange_In; clear - H; lia). rewrite E in *. contradiction. Qed.

Lemma l2_2d_ok fs F G m u x : (0 <= Q2R dx)%R -> formula G -> (forall r f c, 0 <= r < n -> In f fs -> F r f c = G f c) -> represents dims loc g fs m u ->
  l2_error_2d dims loc dx g fs F m x -> x = l2_of N fs (Q2R dx) (err G u).
Proof.
  intros Hdx HG HF Hu (t & Hred & ->). apply (combines_total Rplus 0%R cm_Rplus) in Hred. subst t. rewrite squares_l2.
  rewrite (map_ext _ (fun r => (Rsqr (norm (errors dims loc dx g fs F m r)) * Rsqr (Q2R dx))%R)) by (intros; apply Rsqr_mult).
  rewrite total_scale, (ranks_squares fs F G m u) by auto. rewrite sqrt_mult; [|apply squares_nonneg|apply Rle_0_sqr]. now rewrite sqrt_Rsqr.
Qed.
Lemma l2_2d_exists fs F m : exists x, l2_error_2d dims loc dx g fs F m x.
Proof. destruct (combines_exists Rplus (fun r => Rsqr (norm (errors dims loc dx g fs F m r) * Q2R dx)) (zrange 0 n) zr_nonempty) as (t & Ht). exists (sqrt t), t. auto. Qed.
Lemma l2_3d_ok dx15 fs F G m u x : formula G -> (forall r f c, 0 <= r < n -> In f fs -> F r f c = G f c) -> represents dims loc g fs m u ->
  l2_error_3d dims loc dx g dx15 fs F m x -> x = l2_of N fs dx15 (err G u).
Proof.
  intros HG HF Hu (t & Hred & ->). apply (combines_total Rplus 0%R cm_Rplus) in Hred. subst t. rewrite squares_l2. now rewrite (ranks_squares fs F G m u) by auto.
Qed.
Lemma l2_3d_exists dx15 fs F m : exists x, l2_error_3d dims loc dx g dx15 fs F m x.
Proof. destruct (combines_exists Rplus (fun r => Rsqr (norm (errors dims loc dx g fs F m r))) (zrange 0 n) zr_nonempty) as (t & Ht). exists (sqrt t * dx15)%R, t. auto. Qed.

Lemma linf_ok fs F G m u x : formula G -> (forall r f c, 0 <= r < n -> In f fs -> F r f c = G f c) -> represents dims loc g fs m u ->
  linf_error dims loc dx g fs F m x -> is_linf N fs (err G u) x.
Proof.
  intros HG HF Hu (v & Hv & Hred). apply (combines_sel Rmax (fun a b => Rle b a)) in Hred as [(r & Hr & ->) Hle].
  - apply zrange_In in Hr. assert (Hr' : 0 <= r < n) by (clear - Hr; lia).
    assert (HL : forall s, 0 <= s < n -> (exists f y, In f fs /\ inb loc y /\ v s = err G u f (vadd (block_start dims loc s) y)) /\ (forall f y, In f fs -> inb loc y -> (err G u f (vadd (block_start dims loc s) y) <= v s)%R)).
    { intros s Hs. specialize (Hv s Hs). rewrite (errors_eq fs F G m u s) in Hv by (auto; intros; now apply HF). apply (amax_spec Rle Rmin Rmax ordered_R) in Hv as [H1 H2]. split.
      - apply in_flat_map in H1 as (f & Hf & H1). apply in_map_iff in H1 as (y & <- & Hy). apply inb_box_In in Hy. now exists f, y.
      - intros f y Hf Hy. apply H2. apply in_flat_map. exists f. split; [exact Hf|]. apply in_map_iff. exists y. split; [reflexivity|now apply inb_box_In]. }
    split.
    + destruct (HL r Hr') as ((f & y & Hf & Hy & E) & _). exists f, (vadd (block_start dims loc r) y). split; [exact Hf|]. split; [|exact E]. now apply at_inb.
    + intros f P Hf HP. destruct (tile_at dims loc P Hok HP) as (s & y & Hs & Hy & ->). destruct (HL s Hs) as [_ H2]. eapply Rle_trans; [now apply H2|]. apply Hle. apply zrange_In. clear - Hs. lia.
  - intros a b. apply (o_max _ _ _ ordered_R).
  - intros a b. destruct (o_max _ _ _ ordered_R a b) as (_ & L). exact L.
  - intros a b c L1 L2. eapply Rle_trans; eassumption.
  - intros a. apply Rle_refl.
Qed.
Lemma linf_exists fs F m : fs <> [] -> exists x, linf_error dims loc dx g fs F m x.
Proof.
  intros Hne.
  assert (E : exists v, forall r, 0 <= r < n -> amax Rmax (errors dims loc dx g fs F m r) = Some (v r)).
  { exists (fun r => match amax Rmax (errors dims loc dx g fs F m r) with Some y => y | None => 0%R end). intros r Hr. destruct (amax_some Rmax (errors dims loc dx g fs F m r)) as (a & ->); [|reflexivity].
    destruct fs as [|f l]; [contradiction|]. unfold errors. cbn [flat_map]. intros E. apply app_eq_nil in E as [E _]. apply map_eq_nil in E. destruct Hok as [_ _ Hp]. rewrite slice_cells_eq in E by auto. rewrite inner_box_eq in E. apply map_eq_nil in E. now apply (all_cells_nonempty loc Hp). }
  destruct E as (v & Hv). destruct (combines_exists Rmax v (zrange 0 n) zr_nonempty) as (t & Ht). exists t, v. auto.
Qed.
End P.
Lemma linf_unique (N : list Z) fs e a b : is_linf N fs e a -> is_linf N fs e b -> a = b.
Proof. intros [(f & P & Hf & HP & ->) H1] [(f' & P' & Hf' & HP' & ->) H2]. apply Rle_antisym; [now apply H2|now apply H1]. Qed.
