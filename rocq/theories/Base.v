(** Basic index arithmetic: integer ranges, boxes of cells, row-major
    flattening (numpy C order / MPI Cartesian rank numbering).
    No code of /repo is modelled here; these are the mathematical notions
    both the specification and the model use. *)
From Coq Require Export List ZArith Lia Bool Permutation.
Export ListNotations.
Open Scope Z_scope.
Arguments Z.mul : simpl never.
Arguments Z.add : simpl never.
Arguments Z.sub : simpl never.
Arguments Z.opp : simpl nomatch.
Arguments Z.div : simpl never.
Arguments Z.modulo : simpl never.

(** [zrange s l] = s, s+1, ..., s+l-1 (empty if l <= 0). *)
Definition zrange (s l : Z) : list Z :=
  map (fun k => s + Z.of_nat k) (seq 0 (Z.to_nat l)).

Lemma zrange_In s l x : In x (zrange s l) <-> s <= x < s + l.
Proof.
  unfold zrange. rewrite in_map_iff. split.
  - intros (k & <- & Hk). apply in_seq in Hk. lia.
  - intros H. exists (Z.to_nat (x - s)). split; [lia|]. apply in_seq. lia.
Qed.

Lemma zrange_NoDup s l : NoDup (zrange s l).
Proof.
  unfold zrange. apply FinFun.Injective_map_NoDup; [|apply seq_NoDup].
  intros a b. lia.
Qed.

Lemma zrange_length s l : length (zrange s l) = Z.to_nat l.
Proof. unfold zrange. now rewrite map_length, seq_length. Qed.

Lemma zrange_shift s l d : zrange (s + d) l = map (fun x => x + d) (zrange s l).
Proof. unfold zrange. rewrite map_map. apply map_ext. intros; lia. Qed.

(** Row-major product of ranges. *)
Fixpoint box (starts lens : list Z) : list (list Z) :=
  match starts, lens with
  | s :: ss, l :: ls => flat_map (fun i => map (cons i) (box ss ls)) (zrange s l)
  | _, _ => [[]]
  end.

Fixpoint vadd (a b : list Z) : list Z :=
  match a, b with
  | x :: a', y :: b' => (x + y) :: vadd a' b'
  | _, _ => []
  end.

Fixpoint vsub (a b : list Z) : list Z :=
  match a, b with
  | x :: a', y :: b' => (x - y) :: vsub a' b'
  | _, _ => []
  end.

Fixpoint vmul (a b : list Z) : list Z :=
  match a, b with
  | x :: a', y :: b' => (x * y) :: vmul a' b'
  | _, _ => []
  end.

Definition vneg (a : list Z) : list Z := map Z.opp a.

(** [in_box ss ls c]: cell c lies in the box with corner ss and extents ls. *)
Inductive in_box : list Z -> list Z -> list Z -> Prop :=
| in_box_nil : in_box [] [] []
| in_box_cons s ss l ls c cs :
    s <= c < s + l -> in_box ss ls cs -> in_box (s :: ss) (l :: ls) (c :: cs).

(** In-range multi-index: 0 <= c_i < d_i. *)
Inductive inb : list Z -> list Z -> Prop :=
| inb_nil : inb [] []
| inb_cons d ds c cs : 0 <= c < d -> inb ds cs -> inb (d :: ds) (c :: cs).

Lemma box_In ss ls c : length ss = length ls -> (In c (box ss ls) <-> in_box ss ls c).
Proof.
  revert ls c. induction ss as [|s ss IH]; intros [|l ls] c Hl; simpl in *; try discriminate.
  - split; [intros [<-|[]]; constructor | intros H; inversion H; auto].
  - injection Hl as Hl. rewrite in_flat_map. split.
    + intros (i & Hi & Hc). apply in_map_iff in Hc as (c' & <- & Hc).
      apply zrange_In in Hi. apply IH in Hc; [|assumption]. now constructor.
    + intros H. inversion H; subst. exists c0. split; [now apply zrange_In|].
      apply in_map_iff. exists cs. split; [reflexivity|]. now apply IH.
Qed.

Lemma NoDup_flat_map {A B} (f : A -> list B) (l : list A) :
  NoDup l -> (forall x, In x l -> NoDup (f x)) ->
  (forall x y z, In x l -> In y l -> In z (f x) -> In z (f y) -> x = y) ->
  NoDup (flat_map f l).
Proof.
  induction l as [|a l IH]; simpl; intros Hl Hf Hd; [constructor|].
  inversion Hl as [|? ? Hna Hl']; subst.
  assert (HA : NoDup (f a)) by (apply Hf; auto).
  assert (HB : NoDup (flat_map f l)).
  { apply IH; auto. intros; eapply Hd; eauto. }
  assert (HC : forall z, In z (f a) -> ~ In z (flat_map f l)).
  { intros z Hz Hz'. apply in_flat_map in Hz' as (y & Hy & Hz').
    assert (a = y) by (eapply Hd; eauto). subst. contradiction. }
  clear IH Hf Hd Hl. revert HA HC. generalize (f a). intros k. induction k as [|b k IHk]; simpl; auto.
  intros HA HC. inversion HA; subst. constructor.
  - rewrite in_app_iff. intros [H|H]; [contradiction|]. eapply HC; eauto.
  - apply IHk; auto.
Qed.

Lemma box_NoDup ss ls : NoDup (box ss ls).
Proof.
  revert ls. induction ss as [|s ss IH]; intros [|l ls]; simpl; try (constructor; [auto|constructor]).
  apply NoDup_flat_map.
  - apply zrange_NoDup.
  - intros x _. apply FinFun.Injective_map_NoDup; [intros a b; congruence | apply IH].
  - intros x y z _ _ Hx Hy. apply in_map_iff in Hx as (a & <- & _).
    apply in_map_iff in Hy as (b & E & _). congruence.
Qed.

Lemma flat_map_map' {A B C} (f : A -> B) (g : B -> list C) l :
  flat_map g (map f l) = flat_map (fun x => g (f x)) l.
Proof. induction l; simpl; congruence. Qed.

Lemma map_flat_map' {A B C} (f : A -> list B) (g : B -> C) l :
  map g (flat_map f l) = flat_map (fun x => map g (f x)) l.
Proof. induction l; simpl; [auto|]. rewrite map_app. congruence. Qed.

Lemma flat_map_ext' {A B} (f g : A -> list B) l :
  (forall x, In x l -> f x = g x) -> flat_map f l = flat_map g l.
Proof. induction l; simpl; intros H; auto. rewrite H, IHl; auto. Qed.

(** Translating a box translates its cells, in order. *)
Lemma box_shift ss ls d : length ss = length ls -> length d = length ss ->
  box (vadd ss d) ls = map (fun c => vadd c d) (box ss ls).
Proof.
  revert ls d. induction ss as [|s ss IH]; intros [|l ls] [|e d] Hl Hd; simpl in *; try discriminate; auto.
  injection Hl as Hl. injection Hd as Hd.
  rewrite zrange_shift, flat_map_map', map_flat_map'. apply flat_map_ext'.
  intros x _. rewrite IH by lia. rewrite !map_map. reflexivity.
Qed.

Lemma box_length_eq ss ss' ls : length ss = length ls -> length ss' = length ls ->
  length (box ss ls) = length (box ss' ls).
Proof.
  revert ss' ls. induction ss as [|s ss IH]; intros [|s' ss'] [|l ls]; simpl; try discriminate; auto.
  intros H H'. injection H as H. injection H' as H'.
  rewrite (flat_map_concat_map _ (zrange s l)), (flat_map_concat_map _ (zrange s' l)).
  assert (E : forall (X : list (list Z)) z, length (concat (map (fun i => map (cons i) X) (zrange z l)))
             = (Z.to_nat l * length X)%nat).
  { intros X z. unfold zrange. rewrite map_map.
    rewrite <- (seq_length (Z.to_nat l) 0) at 2.
    induction (seq 0 (Z.to_nat l)); simpl; auto. rewrite app_length, map_length, IHl0. lia. }
  rewrite !E. rewrite (IH ss' ls); auto.
Qed.

(** Row-major flattening: numpy [ravel_multi_index], MPI [Cart_rank]. *)
Fixpoint zprod (ds : list Z) : Z :=
  match ds with [] => 1 | d :: ds' => d * zprod ds' end.

Fixpoint ravel (ds cs : list Z) : Z :=
  match ds, cs with
  | _ :: ds', c :: cs' => c * zprod ds' + ravel ds' cs'
  | _, _ => 0
  end.

Fixpoint unravel (ds : list Z) (r : Z) : list Z :=
  match ds with
  | [] => []
  | _ :: ds' => (r / zprod ds') :: unravel ds' (r mod zprod ds')
  end.

Definition positive (ds : list Z) := Forall (fun d => 1 <= d) ds.

Lemma zprod_pos ds : positive ds -> 1 <= zprod ds.
Proof. induction 1; simpl; nia. Qed.

Lemma inb_length ds cs : inb ds cs -> length cs = length ds.
Proof. induction 1; simpl; lia. Qed.

Lemma in_box_length ss ls cs : in_box ss ls cs -> length cs = length ls /\ length ss = length ls.
Proof. induction 1; simpl; lia. Qed.

Lemma inb_positive ds cs : inb ds cs -> positive ds.
Proof. induction 1; constructor; [lia|assumption]. Qed.

Lemma ravel_bound ds cs : inb ds cs -> 0 <= ravel ds cs < zprod ds.
Proof.
  induction 1 as [|d ds c cs Hc H IH]; simpl; [lia|].
  pose proof (zprod_pos ds (inb_positive _ _ H)). nia.
Qed.

Lemma unravel_ravel ds cs : inb ds cs -> unravel ds (ravel ds cs) = cs.
Proof.
  induction 1 as [|d ds c cs Hc H IH]; simpl; [auto|].
  pose proof (zprod_pos ds (inb_positive _ _ H)). pose proof (ravel_bound _ _ H).
  rewrite Z.div_add_l by lia. rewrite (Z.div_small (ravel ds cs)) by lia.
  rewrite (Z.add_comm (c * zprod ds)), Z.mod_add by lia. rewrite Z.mod_small by lia.
  rewrite IH. f_equal. lia.
Qed.

Lemma unravel_inb ds r : positive ds -> 0 <= r < zprod ds -> inb ds (unravel ds r).
Proof.
  intros Hp. revert r. induction Hp as [|d ds Hd Hp IH]; simpl; intros r Hr; constructor.
  - pose proof (zprod_pos ds Hp). split; [apply Z.div_pos; lia|].
    apply Z.div_lt_upper_bound; lia.
  - apply IH. apply Z.mod_pos_bound. pose proof (zprod_pos ds Hp). lia.
Qed.

Lemma ravel_unravel ds r : positive ds -> 0 <= r < zprod ds -> ravel ds (unravel ds r) = r.
Proof.
  intros Hp. revert r. induction Hp as [|d ds Hd Hp IH]; simpl; intros r Hr; [lia|].
  pose proof (zprod_pos ds Hp). rewrite IH.
  - rewrite Z.mul_comm. symmetry. apply Z.div_mod. lia.
  - apply Z.mod_pos_bound. lia.
Qed.

Lemma ravel_inj ds a b : inb ds a -> inb ds b -> ravel ds a = ravel ds b -> a = b.
Proof. intros Ha Hb E. rewrite <- (unravel_ravel ds a Ha), <- (unravel_ravel ds b Hb). now f_equal. Qed.

Lemma unravel_length ds r : length (unravel ds r) = length ds.
Proof. revert r. induction ds; simpl; intros; auto. Qed.

Lemma ravel_add ds a b : length a = length ds -> length b = length ds ->
  ravel ds (vadd a b) = ravel ds a + ravel ds b.
Proof.
  revert a b. induction ds as [|d ds IH]; intros [|x a] [|y b]; simpl; intros; try discriminate; try lia.
  rewrite IH by lia. lia.
Qed.

Lemma vadd_length a b : length a = length b -> length (vadd a b) = length a.
Proof. revert b. induction a; intros [|]; simpl; intros; try discriminate; auto. Qed.
Lemma vsub_length a b : length a = length b -> length (vsub a b) = length a.
Proof. revert b. induction a; intros [|]; simpl; intros; try discriminate; auto. Qed.
Lemma vmul_length a b : length a = length b -> length (vmul a b) = length a.
Proof. revert b. induction a; intros [|]; simpl; intros; try discriminate; auto. Qed.
Lemma vneg_length a : length (vneg a) = length a.
Proof. apply map_length. Qed.
Lemma vneg_involutive a : vneg (vneg a) = a.
Proof. induction a; simpl; auto. unfold vneg in *. rewrite IHa. f_equal. lia. Qed.

Lemma in_box_shift ss ls c d : length d = length ls ->
  in_box ss ls c -> in_box (vadd ss d) ls (vadd c d).
Proof.
  intros Hd H. revert d Hd. induction H as [|s ss l ls c cs Hc H IH]; intros [|e d] Hd; simpl in *; try discriminate.
  - constructor.
  - constructor; [lia|apply IH; lia].
Qed.

Lemma vadd_inj a b d : length a = length d -> length b = length d -> vadd a d = vadd b d -> a = b.
Proof.
  revert b d. induction a as [|x a IH]; intros [|y b] [|z d]; simpl; intros; try discriminate; auto.
  injection H1 as H1 H2. f_equal; [lia|]. apply (IH b d); [lia|lia|assumption].
Qed.

(** membership in [combine] of two mapped lists *)
Lemma combine_map_map {A B C} (f : A -> B) (g : A -> C) l :
  combine (map f l) (map g l) = map (fun x => (f x, g x)) l.
Proof. induction l; simpl; congruence. Qed.
