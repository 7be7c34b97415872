(** The concrete kernels are instances of the common shape. *)
From Verif Require Import Base SpecGrid SpecGhost SpecStencil Cart CartFacts Comm Spmd GhostGeo Ghost2D Ghost3D GhostProofs Stencil StencilProofs HaloProofs.
Arguments run_lops : simpl never.
Arguments addr_eq : simpl never.
Arguments place_dec : simpl never.

(** ** One axis *)
Lemma IN_in g ks n i : 0 <= ks <= g -> 1 <= g -> g <= n -> slice_in ks (n + 2 * g) (IN g) i = (g + ks <=? i) && (i <? n + g - ks).
Proof.
  intros. unfold slice_in, IN. simpl. unfold py_start. replace (- g <? 0) with true by (symmetry; apply Z.ltb_lt; lia).
  replace (g <? 0) with false by (symmetry; apply Z.ltb_ge; lia). rewrite Z.min_l by lia. rewrite Z.max_r by lia. f_equal. f_equal. lia.
Qed.
Lemma LO_in g ks n i : 0 <= ks <= g -> 1 <= g -> g <= n -> slice_in ks (n + 2 * g) (LO g ks) i = (g <=? i) && (i <? g + ks).
Proof.
  intros. unfold slice_in, LO. simpl. unfold py_start.
  replace (g - ks <? 0) with false by (symmetry; apply Z.ltb_ge; lia). replace (g + 2 * ks <? 0) with false by (symmetry; apply Z.ltb_ge; lia).
  rewrite !Z.min_l by lia. f_equal; f_equal; lia.
Qed.
Lemma HI_in g ks n i : 0 <= ks <= g -> 1 <= g -> g <= n -> slice_in ks (n + 2 * g) (HI g ks (n + 2 * g)) i = (n + g - ks <=? i) && (i <? n + g).
Proof.
  intros. unfold slice_in, HI. simpl. unfold py_start.
  replace (- (g + 2 * ks) <? 0) with true by (symmetry; apply Z.ltb_lt; lia). replace (n + 2 * g - (g - ks) <? 0) with false by (symmetry; apply Z.ltb_ge; lia).
  rewrite Z.min_l by lia. rewrite Z.max_r by lia. f_equal; f_equal; lia.
Qed.
Lemma SAll_in g ks n i : 0 <= ks <= g -> g <= i < n + g -> slice_in ks (n + 2 * g) SAll i = true.
Proof. intros. unfold slice_in. simpl. rewrite andb_true_iff, Z.leb_le, Z.ltb_lt. lia. Qed.
Lemma STo_in g n i : 1 <= g -> g <= n -> g <= i < n + g -> slice_in 0 (n + 2 * g) (STo (g + 1)) i = (i - g =? 0).
Proof.
  intros. unfold slice_in. simpl. unfold py_start. replace (g + 1 <? 0) with false by (symmetry; apply Z.ltb_ge; lia).
  rewrite Z.min_l by lia. apply Bool.eq_true_iff_eq. rewrite andb_true_iff, Z.leb_le, Z.ltb_lt, Z.eqb_eq. lia.
Qed.
Lemma SFrom_in g n i : 1 <= g -> g <= n -> g <= i < n + g -> slice_in 0 (n + 2 * g) (SFrom (- g - 1)) i = (i - g =? n - 1).
Proof.
  intros. unfold slice_in. simpl. unfold py_start. replace (- g - 1 <? 0) with true by (symmetry; apply Z.ltb_lt; lia).
  rewrite Z.max_r by lia. apply Bool.eq_true_iff_eq. rewrite andb_true_iff, Z.leb_le, Z.ltb_lt, Z.eqb_eq. lia.
Qed.

Ltac axes := rewrite ?IN_in, ?LO_in, ?HI_in, ?SAll_in by lia.
Ltac cases3 := repeat match goal with
  | |- context [?a <=? ?b] => destruct (Z.leb_spec a b); try lia
  | |- context [?a <? ?b] => destruct (Z.ltb_spec a b); try lia
  end.

(** ** Every inner cell is updated exactly once (blocks at least two radii thick), and at least once otherwise. *)
Lemma passes2 ny nx g ks I : 0 <= ks <= g -> 1 <= g -> g <= ny /\ g <= nx -> inner g [ny; nx] I ->
  (2 * ks <= ny -> 2 * ks <= nx -> passes [ny; nx] g ks (strips2 g ks (shape0 ny g) (shape1 nx g)) I = 1%nat) /\
  (1 <= passes [ny; nx] g ks (strips2 g ks (shape0 ny g) (shape1 nx g)) I)%nat.
Proof.
  intros Hk Hg [Hy Hx] HI. unfold inner in HI. simpl in HI.
  inversion HI as [|? ? ? ? i0 I0 H0 HI0]; subst. inversion HI0 as [|? ? ? ? i1 I1 H1 HI1]; subst. inversion HI1; subst.
  unfold passes, strips2, shape0, shape1. simpl. axes. split; intros; cases3; simpl; lia.
Qed.

Lemma passes3 n0 n1 n2 g ks I : 0 <= ks <= g -> 1 <= g -> g <= n0 /\ g <= n1 /\ g <= n2 -> inner g [n0; n1; n2] I ->
  (2 * ks <= n0 -> 2 * ks <= n1 -> 2 * ks <= n2 -> passes [n0; n1; n2] g ks (strips3 g ks (s0 n0 g) (s1 n1 g) (s2 n2 g)) I = 1%nat) /\
  (1 <= passes [n0; n1; n2] g ks (strips3 g ks (s0 n0 g) (s1 n1 g) (s2 n2 g)) I)%nat.
Proof.
  intros Hk Hg (Hz & Hy & Hx) HI. unfold inner in HI. simpl in HI.
  inversion HI as [|? ? ? ? i0 I0 H0 HI0]; subst. inversion HI0 as [|? ? ? ? i1 I1 H1 HI1]; subst. inversion HI1 as [|? ? ? ? i2 I2 H2 HI2]; subst. inversion HI2; subst.
  unfold passes, strips3, s0, s1, s2. simpl. axes.
  assert (A : forall n i, g <= i < g + n -> g <= n ->
    let a := (g + ks <=? i) && (i <? n + g - ks) in let b := (g <=? i) && (i <? g + ks) in let c := (n + g - ks <=? i) && (i <? n + g) in
    (2 * ks <= n -> (b2n a + b2n b + b2n c = 1)%nat) /\ (1 <= b2n a + b2n b + b2n c)%nat).
  { intros n i Hi Hn. simpl. split; intros; cases3; simpl; lia. }
  pose proof (A n0 i0 H0 Hz) as A0. pose proof (A n1 i1 H1 Hy) as A1. pose proof (A n2 i2 H2 Hx) as A2. simpl in A0, A1, A2.
  repeat match goal with |- context [(?a <=? ?b) && (?c <? ?d)] => destruct ((a <=? b) && (c <? d)); simpl in * end; simpl; lia.
Qed.

(** ** Cells reset to zero are those on the physical boundary *)
Lemma isnone_spec {A} (o : option A) : match o with None => true | Some _ => false end = true <-> o = None.
Proof. destruct o; split; congruence. Qed.

Definition zeroed2 (per : bool) (py px g r : Z) : list (list pslice) :=
  zero_views2 g 1 (previous_grid_along per [py; px] r 0) (next_grid_along per [py; px] r 0)
                  (previous_grid_along per [py; px] r 1) (next_grid_along per [py; px] r 1).
Definition zeroed3 (per : bool) (pz py px g r : Z) : list (list pslice) :=
  zero_views3 g 1 (previous_grid_along per [pz; py; px] r 0) (next_grid_along per [pz; py; px] r 0)
                  (previous_grid_along per [pz; py; px] r 1) (next_grid_along per [pz; py; px] r 1)
                  (previous_grid_along per [pz; py; px] r 2) (next_grid_along per [pz; py; px] r 2).

Lemma existsb_app' {A} (f : A -> bool) a b : existsb f (a ++ b) = existsb f a || existsb f b.
Proof. apply existsb_app. Qed.

Lemma ifnone (o : option Z) (v : list pslice) (f : list pslice -> bool) :
  existsb f (if isnone o then [v] else []) = true <-> o = None /\ f v = true.
Proof. destruct o; simpl; [split; [discriminate|intros [H _]; discriminate]|]. rewrite orb_false_r. intuition. Qed.

(** One axis: block coordinate c of d, local index x of n. *)
Lemma axis_edge d n c x : 0 <= c < d -> 0 <= x < n -> (c * n + x = 0 <-> c = 0 /\ x = 0) /\ (c * n + x = d * n - 1 <-> c = d - 1 /\ x = n - 1).
Proof. intros. split; split; intros; [split; nia|destruct H1; subst; lia| |destruct H1; subst; lia]. assert (c = d - 1) by nia. subst. split; lia. Qed.

Lemma boundary2 per py px ny nx g r x : 1 <= py /\ 1 <= px -> 1 <= g -> g <= ny /\ g <= nx -> 0 <= r < zprod [py; px] -> inb [ny; nx] x ->
  (zeroed [ny; nx] g (zeroed2 per py px g) r (map (fun i => i + g) x) = true <->
   on_boundary per (global_size [py; px] [ny; nx]) (vadd (block_start [py; px] [ny; nx] r) x)).
Proof.
  intros Hp Hg [Hy Hx] Hr HI.
  assert (Hpos : positive [py; px]) by (repeat constructor; lia).
  pose proof (unravel_inb [py; px] r Hpos Hr) as Hc.
  pose proof (axis_none per [py; px] r 0 Hpos ltac:(simpl; lia) Hr) as [N0 N1].
  pose proof (axis_none per [py; px] r 1 Hpos ltac:(simpl; lia) Hr) as [N2 N3].
  unfold zeroed, zeroed2, zero_views2. rewrite !existsb_app', !orb_true_iff, !ifnone, N0, N1, N2, N3. clear N0 N1 N2 N3.
  unfold on_boundary, block_start, global_size. revert Hc. generalize (unravel [py; px] r). intros cs Hc.
  inversion Hc as [|? ? c0 C0 Hc0 HC0]; subst. inversion HC0 as [|? ? c1 C1 Hc1 HC1]; subst. inversion HC1; subst.
  inversion HI as [|? ? x0 X0 H0 HX0]; subst. inversion HX0 as [|? ? x1 X1 H1 HX1]; subst. inversion HX1; subst.
  simpl. rewrite !SAll_in, !STo_in, !SFrom_in by lia. rewrite !andb_true_r, ?andb_true_l, !Z.eqb_eq.
  rewrite !Exists_cons, Exists_nil. simpl.
  destruct (axis_edge py ny c0 x0 Hc0 H0) as [-> ->]. destruct (axis_edge px nx c1 x1 Hc1 H1) as [-> ->].
  replace (x0 + g - g) with x0 by lia. replace (x1 + g - g) with x1 by lia. tauto.
Qed.

Lemma boundary3 per pz py px n0 n1 n2 g r x : 1 <= pz /\ 1 <= py /\ 1 <= px -> 1 <= g -> g <= n0 /\ g <= n1 /\ g <= n2 -> 0 <= r < zprod [pz; py; px] -> inb [n0; n1; n2] x ->
  (zeroed [n0; n1; n2] g (zeroed3 per pz py px g) r (map (fun i => i + g) x) = true <->
   on_boundary per (global_size [pz; py; px] [n0; n1; n2]) (vadd (block_start [pz; py; px] [n0; n1; n2] r) x)).
Proof.
  intros Hp Hg (Hz & Hy & Hx) Hr HI.
  assert (Hpos : positive [pz; py; px]) by (repeat constructor; lia).
  pose proof (unravel_inb [pz; py; px] r Hpos Hr) as Hc.
  pose proof (axis_none per [pz; py; px] r 0 Hpos ltac:(simpl; lia) Hr) as [N0 N1].
  pose proof (axis_none per [pz; py; px] r 1 Hpos ltac:(simpl; lia) Hr) as [N2 N3].
  pose proof (axis_none per [pz; py; px] r 2 Hpos ltac:(simpl; lia) Hr) as [N4 N5].
  unfold zeroed, zeroed3, zero_views3. rewrite !existsb_app', !orb_true_iff, !ifnone, N0, N1, N2, N3, N4, N5. clear N0 N1 N2 N3 N4 N5.
  unfold on_boundary, block_start, global_size. revert Hc. generalize (unravel [pz; py; px] r). intros cs Hc.
  inversion Hc as [|? ? c0 C0 Hc0 HC0]; subst. inversion HC0 as [|? ? c1 C1 Hc1 HC1]; subst. inversion HC1 as [|? ? c2 C2 Hc2 HC2]; subst. inversion HC2; subst.
  inversion HI as [|? ? x0 X0 H0 HX0]; subst. inversion HX0 as [|? ? x1 X1 H1 HX1]; subst. inversion HX1 as [|? ? x2 X2 H2 HX2]; subst. inversion HX2; subst.
  simpl. rewrite !SAll_in, !STo_in, !SFrom_in by lia. rewrite !andb_true_r, ?andb_true_l, !Z.eqb_eq.
  rewrite !Exists_cons, Exists_nil. simpl.
  destruct (axis_edge pz n0 c0 x0 Hc0 H0) as [-> ->]. destruct (axis_edge py n1 c1 x1 Hc1 H1) as [-> ->]. destruct (axis_edge px n2 c2 x2 Hc2 H2) as [-> ->].
  replace (x0 + g - g) with x0 by lia. replace (x1 + g - g) with x1 by lia. replace (x2 + g - g) with x2 by lia. tauto.
Qed.

(** ** From the common shape to the specification *)
Lemma iter_over {T} (K : (nat -> list Z -> T) -> T -> T) rd c old : overwrites K -> (1 <= c)%nat -> Nat.iter c (K rd) old = K rd old.
Proof. intros H Hc. destruct c; [lia|]. simpl. apply H. Qed.

Section Serial.
Context {T : Type}.
Variables (per : bool) (dims loc : list Z) (g ks : Z) (F : list nat) (C : list (place * place)) (k : @kern T).
Variables (strips : list (list pslice)) (zv : Z -> list (list pslice)) (z : T) (zero : option T).
Hypothesis Hok : grid_ok dims loc.
Hypothesis Hks : 0 <= ks <= g.
Hypothesis Hg : 1 <= g.
Hypothesis HC : exch_facts per dims loc g F C.
Hypothesis Hnd : NoDup (map fst k).
Hypothesis Hdis : forall f, In f F -> ~ In f (map fst k).
Hypothesis Hloc : forall o K, In (o, K) k -> star_local (length loc) F ks K.
Hypothesis Hstrips : Forall (fun v => length v = length (ghosted g loc)) strips.
Hypothesis Hzv : forall r, Forall (fun v => length v = length (ghosted g loc)) (zv r).
Hypothesis Hz : match zero with None => forall r, zv r = [] | Some z' => z' = z /\
  forall r x, 0 <= r < zprod dims -> inb loc x ->
   (zeroed loc g zv r (map (fun i => i + g) x) = true <-> on_boundary per (global_size dims loc) (vadd (block_start dims loc r) x)) end.
Hypothesis Hp : forall x o K, inb loc x -> In (o, K) k ->
  passes loc g ks strips (map (fun i => i + g) x) = 1%nat \/
  (overwrites K /\ (1 <= passes loc g ks strips (map (fun i => i + g)%Z x))%nat).

Lemma add_inner x : inb loc x -> inner g loc (map (fun i => i + g) x).
Proof. intros H. clear - H. unfold inner. induction H; simpl; constructor; auto; lia. Qed.

Lemma halo_serial (m : mem T) : acts_as_serial per dims loc g ks F k zero m (halo_post dims loc g ks C k strips zv z m).
Proof.
  split.
  - intros u r x o K rd Hrep Hr Hx Hin P Hnb Hrd.
    assert (HI : inner g loc (map (fun i => i + g) x)) by (now apply add_inner).
    rewrite (halo_value per dims loc g ks F C k strips zv z) with (K := K); auto; [|apply inner_inb; auto; lia].
    replace (zeroed loc g zv r (map (fun i => i + g) x)) with false.
    2:{ destruct zero as [z'|].
        - destruct Hz as [_ Hz']. destruct Hnb as [Hnb|Hnb]; [discriminate|].
          destruct (zeroed loc g zv r (map (fun i => i + g) x)) eqn:E; auto. exfalso. apply Hnb. now apply Hz'.
        - unfold zeroed. now rewrite Hz. }
    rewrite <- (read_global per dims loc g ks F C k Hok Hks HC Hloc m u r x K o _ rd); auto.
    destruct (Hp x o K Hx Hin) as [-> | [Hov Hc]]; [reflexivity|]. now apply iter_over.
  - intros z' r x o K E Hr Hx Hin Hb.
    assert (HI : inner g loc (map (fun i => i + g) x)) by (now apply add_inner).
    rewrite (halo_value per dims loc g ks F C k strips zv z) with (K := K); auto; [|apply inner_inb; auto; lia].
    rewrite E in Hz. destruct Hz as [-> Hz']. apply Hz' in Hb; auto. now rewrite Hb.
  - intros r f x Hr Hx Hf. unfold field. rewrite (halo_frame dims loc g ks C k strips zv z); auto.
    apply (copies_inner per dims loc g F); auto. now apply add_inner.
  - intros r f a Hr Hf HF. rewrite (halo_frame dims loc g ks C k strips zv z); auto. now apply (copies_frame per dims loc g F).
Qed.

Lemma halo_correct : Forall (phase_ok (zprod dims)) (halo loc g ks C k strips zv z) /\
  forall m : mem T, acts_as_serial per dims loc g ks F k zero m (den (zprod dims) (halo loc g ks C k strips zv z) m).
Proof.
  split; [|intros m; apply halo_serial].
  now apply (halo_ok per dims loc g ks F C k strips zv z).
Qed.
End Serial.
