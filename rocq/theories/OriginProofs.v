(** Proofs for C64. *)
From Coq Require Import QArith Qminmax.
From Verif Require Import Base SpecGrid SpecReduce Cart CartFacts Ghost2D Stencil Coords ConstructProofs NSHalo GhostSumHops ReduceProofs DiagProofs Origin.
Open Scope Z_scope.

Lemma qmin_sel a b : Qmin a b = a \/ Qmin a b = b.
Proof. unfold Qmin, GenericMinMax.gmin. destruct (a ?= b)%Q; auto. Qed.
Lemma qmin_spec v l x : combines Qmin v l x -> (exists r, In r l /\ x = v r) /\ (forall r, In r l -> (x <= v r)%Q).
Proof. apply combines_sel; [apply qmin_sel|intros a b; split; [apply Q.le_min_l|apply Q.le_min_r]|intros a b c; apply Qle_trans|intros a; apply Qle_refl]. Qed.
Definition least (l : list Q) : Q := match l with [] => 0%Q | a :: l' => fold_left Qmin l' a end.
Lemma fold_min l : forall a, (fold_left Qmin l a = a \/ In (fold_left Qmin l a) l) /\ (fold_left Qmin l a <= a)%Q /\ (forall y, In y l -> (fold_left Qmin l a <= y)%Q).
Proof.
  induction l as [|b l IH]; intros a; cbn [fold_left]; [split; [now left|split; [apply Qle_refl|intros y []]]|]. destruct (IH (Qmin a b)) as (H1 & H2 & H3). split; [|split].
  - destruct H1 as [H1|H1]; [|right; now right]. rewrite H1. destruct (qmin_sel a b) as [-> | -> ]; [now left|right; now left].
  - apply (Qle_trans _ (Qmin a b)); [exact H2|apply Q.le_min_l].
  - intros y [<-|Hy]; [|now apply H3]. apply (Qle_trans _ (Qmin a b)); [exact H2|apply Q.le_min_r].
Qed.
Lemma least_minimum l : l <> [] -> minimum l (least l).
Proof.
  destruct l as [|a l]; [congruence|]. intros _. cbn [least]. destruct (fold_min l a) as (H1 & H2 & H3). split; [destruct H1 as [H1|H1]; [left; now rewrite H1|now right]|]. intros y [<-|Hy]; [exact H2|now apply H3].
Qed.

Section P.
Variables (dims loc : list Z) (dx : Q) (g : Z) (t : nat).
Hypotheses (Hok : grid_ok dims loc) (Hg : 1 <= g) (Hdx : (0 < dx)%Q).
Notation d := (length loc).
Definition cells := view_cells (ghosted g loc) (trimmed d t g).
(** The first cell of the view. *)
Definition first : list Z := map (fun k => if (k <? t)%nat then g else 0) (seq 0 d).

Lemma in_view_from ls : forall (f : nat -> bool) i I, positive ls ->
  in_box (view_starts (map (fun n => n + 2 * g) ls) (map (fun k => if f k then SBetween g (- g) else SAll) (seq i (length ls))))
         (view_lens (map (fun n => n + 2 * g) ls) (map (fun k => if f k then SBetween g (- g) else SAll) (seq i (length ls)))) I <->
  length I = length ls /\ forall k, (k < length ls)%nat -> if f (i + k)%nat then g <= nth k I 0 < nth k ls 0 + g else 0 <= nth k I 0 < nth k ls 0 + 2 * g.
Proof.
  induction ls as [|n ls IH]; intros f i I Hp.
  - cbn. split; [intros H; inversion H; subst; split; [reflexivity|intros k Hk; inversion Hk]|intros [H _]; destruct I; [constructor|discriminate]].
  - apply Forall_cons_iff in Hp. destruct Hp as [Hn Hp]. fold (positive ls) in Hp. cbn [length seq map view_starts view_lens].
    assert (P1 : py_start (n + 2 * g) g = g) by (unfold py_start; destruct (Z.ltb_spec g 0); lia).
    assert (P2 : py_start (n + 2 * g) (- g) = n + g) by (unfold py_start; destruct (Z.ltb_spec (- g) 0); lia).
    split.
    + intros H. inversion H as [|s ss l ls0 c cs Hc Hr E1 E2 E3]; subst. apply (IH f (S i) cs Hp) in Hr. destruct Hr as [Hl Hr]. split; [cbn; lia|]. intros [|k] Hk.
      * rewrite Nat.add_0_r. destruct (f i); cbn [slice_start slice_stop nth] in *; rewrite ?P1, ?P2 in Hc; lia.
      * specialize (Hr k ltac:(lia)). replace (i + S k)%nat with (S i + k)%nat by lia. exact Hr.
    + intros [Hl Hr]. destruct I as [|c cs]; [discriminate|]. constructor.
      * specialize (Hr 0%nat ltac:(lia)). rewrite Nat.add_0_r in Hr. destruct (f i); cbn [slice_start slice_stop nth] in *; rewrite ?P1, ?P2; lia.
      * apply (IH f (S i) cs Hp). split; [cbn in Hl; lia|]. intros k Hk. specialize (Hr (S k) ltac:(lia)). replace (i + S k)%nat with (S i + k)%nat in Hr by lia. exact Hr.
Qed.
Lemma cells_In I : In I cells <-> length I = d /\ forall k, (k < d)%nat -> if (k <? t)%nat then g <= nth k I 0 < nth k loc 0 + g else 0 <= nth k I 0 < nth k loc 0 + 2 * g.
Proof.
  unfold cells, view_cells, ghosted, trimmed. rewrite box_In by apply StencilProofs.view_lens_len. apply (in_view_from loc (fun k => (k <? t)%nat) 0). destruct Hok as [_ _ P]. exact P.
Qed.
Lemma loc_pos k : (k < d)%nat -> 1 <= nth k loc 0.
Proof. intros H. destruct Hok as [_ _ P]. pose proof (proj1 (Forall_nth _ _) P k 0 H) as X. cbv beta in X. lia. Qed.
Lemma first_nth k : (k < d)%nat -> nth k first 0 = if (k <? t)%nat then g else 0.
Proof. intros H. unfold first. rewrite (nth_indep _ 0 ((fun k => if (k <? t)%nat then g else 0) 0%nat)) by (rewrite map_length, seq_length; exact H). rewrite (map_nth (fun k => if (k <? t)%nat then g else 0) (seq 0 d) 0%nat k), seq_nth by exact H. reflexivity. Qed.
Lemma first_In : In first cells.
Proof.
  apply cells_In. split; [unfold first; now rewrite map_length, seq_length|]. intros k Hk. rewrite (first_nth k Hk). pose proof (loc_pos k Hk). destruct (k <? t)%nat; lia.
Qed.
Lemma cells_inb I : In I cells -> inb (ghosted g loc) I.
Proof.
  intros H. apply cells_In in H. destruct H as [Hl H]. apply inb_by_nth; [unfold ghosted; now rewrite map_length|]. intros a Ha. unfold ghosted in *. rewrite map_length in Ha. specialize (H a Ha). assert (X : nth a (map (fun n => n + 2 * g) loc) 0 = nth a loc 0 + 2 * g) by (rewrite <- (map_nth (fun n => n + 2 * g)); apply nth_indep; rewrite map_length; exact Ha). rewrite X. destruct (a <? t)%nat; lia.
Qed.
Lemma pos_nth r I k : 0 <= r < zprod dims -> length I = d -> (k < d)%nat -> nth k (ghost_pos dims loc g r I) 0 = nth k (unravel dims r) 0 * nth k loc 0 + (nth k I 0 - g).
Proof.
  intros Hr Hl Hk. destruct Hok as [L D _]. pose proof (inb_length _ _ (unravel_inb dims r D Hr)) as Lu. unfold ghost_pos, block_start. rewrite nth_vadd, nth_vmul.
  - rewrite (nth_indep (map _ I) 0 ((fun i => i - g) g)) by (rewrite map_length; lia). rewrite (map_nth (fun i => i - g)). rewrite (nth_indep I g 0) by lia. lia.
  - lia.
  - rewrite map_length, vmul_length; lia.
Qed.

Variable c : nat.
Hypothesis Hc : (c < d)%nat.
Notation k := (d - 1 - c)%nat.
(** The lowest global index along the axis of component c that the view contains. *)
Definition low : Z := if (k <? t)%nat then 0 else - g.
Lemma value r I : 0 <= r < zprod dims -> In I cells -> (position_field dims loc dx g r c I == (inject_Z (nth k (ghost_pos dims loc g r I) 0%Z) + (1 # 2)) * dx)%Q.
Proof. intros Hr HI. apply position_eq; auto; [lia|now apply cells_inb]. Qed.
Lemma le_value a b : a <= b -> ((inject_Z a + (1 # 2)) * dx <= (inject_Z b + (1 # 2)) * dx)%Q.
Proof. intros H. apply Qmult_le_compat_r; [|now apply Qlt_le_weak]. apply Qplus_le_compat; [now rewrite <- Zle_Qle|apply Qle_refl]. Qed.
Lemma low_le r I : 0 <= r < zprod dims -> In I cells -> low <= nth k (ghost_pos dims loc g r I) 0.
Proof.
  intros Hr HI. apply cells_In in HI. destruct HI as [Hl HI]. assert (Hk : (k < d)%nat) by lia. rewrite (pos_nth r I k Hr Hl Hk). specialize (HI k Hk). pose proof (loc_pos k Hk). destruct Hok as [L D _].
  assert (0 <= nth k (unravel dims r) 0) by (apply (CartFacts.inb_nth dims (unravel dims r) k (unravel_inb dims r D Hr)); lia).
  assert (0 <= nth k (unravel dims r) 0 * nth k loc 0) by (apply Z.mul_nonneg_nonneg; lia). unfold low. destruct (k <? t)%nat; lia.
Qed.
Lemma zero_rank : 0 <= 0 < zprod dims.
Proof. destruct Hok as [_ D _]. pose proof (zprod_pos dims D). lia. Qed.
Lemma unravel_zero l : forall i, nth i (unravel l 0) 0 = 0.
Proof. induction l as [|a l IH]; intros [|i]; cbn [unravel nth]; try reflexivity. rewrite Zmod_0_l. apply IH. Qed.
Lemma first_low : nth k (ghost_pos dims loc g 0 first) 0 = low.
Proof.
  assert (Hk : (k < d)%nat) by lia. rewrite (pos_nth 0 first k zero_rank); [|unfold first; now rewrite map_length, seq_length|exact Hk]. rewrite unravel_zero, (first_nth k Hk). unfold low. destruct (k <? t)%nat; lia.
Qed.
Theorem lowest_is x : lowest dims loc dx g t c x -> (x == (inject_Z low + (1 # 2)) * dx)%Q.
Proof.
  intros (v & Hv & Hx). apply qmin_spec in Hx. destruct Hx as [(r & Hr & Ex) Hm]. apply zrange_In in Hr. apply Qle_antisym.
  - apply (Qle_trans _ (v 0)); [apply Hm, zrange_In; pose proof zero_rank; lia|]. destruct (Hv 0 zero_rank) as [_ M]. specialize (M _ (in_map _ _ _ first_In)). cbv beta in M. rewrite (value 0 first zero_rank first_In), first_low in M. exact M.
  - subst x. destruct (Hv r ltac:(lia)) as [E _]. apply in_map_iff in E. destruct E as (I & E & HI). rewrite <- E, (value r I ltac:(lia) HI). apply le_value, low_le; [lia|exact HI].
Qed.
Theorem lowest_exists : exists x, lowest dims loc dx g t c x.
Proof.
  set (v := fun r => least (map (position_field dims loc dx g r c) cells)).
  assert (Hv : forall r, minimum (map (position_field dims loc dx g r c) cells) (v r)).
  { intros r. apply least_minimum. intros E. apply map_eq_nil in E. pose proof first_In as F. rewrite E in F. contradiction. }
  destruct (combines_exists Qmin v (zrange 0 (zprod dims))) as [x Hx]; [pose proof zero_rank; intros E; assert (X : In 0 (zrange 0 (zprod dims))) by (apply zrange_In; lia); rewrite E in X; contradiction|].
  exists x, v. split; [intros r _; apply Hv|exact Hx].
Qed.
End P.
