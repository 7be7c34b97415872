(** The convolution theorem for the discrete Fourier transform on a grid. *)
From Coq Require Import Reals Lra.
From Coquelicot Require Import Complex.
From Verif Require Import Base SpecGrid SpecFourier.
Open Scope Z_scope.

Notation "'Czero'" := (RtoC 0).
Notation "'Cone'" := (RtoC 1).

Lemma cis_0 : cis 0 = Cone. Proof. unfold cis, RtoC. now rewrite cos_0, sin_0. Qed.
Lemma cis_plus a b : cis (a + b) = (cis a * cis b)%C.
Proof. unfold cis, Cmult. cbn [fst snd]. rewrite cos_plus, sin_plus. f_equal. ring. Qed.

(** ** Sums *)
Lemma csum_cons {A} (f : A -> C) a l : csum f (a :: l) = (f a + csum f l)%C. Proof. reflexivity. Qed.
Lemma csum_nil {A} (f : A -> C) : csum f nil = Czero. Proof. reflexivity. Qed.
Lemma rsum_cons {A} (f : A -> R) a l : rsum f (a :: l) = (f a + rsum f l)%R. Proof. reflexivity. Qed.
Lemma csum_ext {A} (f g : A -> C) l : (forall x, In x l -> f x = g x) -> csum f l = csum g l.
Proof. induction l as [|a l IH]; intros H; [reflexivity|]. rewrite !csum_cons, (H a), IH; auto with datatypes. Qed.
Lemma csum_app {A} (f : A -> C) l k : csum f (l ++ k) = (csum f l + csum f k)%C.
Proof. induction l as [|a l IH]; cbn [app]; [rewrite csum_nil; ring|]. rewrite !csum_cons, IH. ring. Qed.
Lemma csum_scal {A} (f : A -> C) c l : csum (fun x => (c * f x)%C) l = (c * csum f l)%C.
Proof. induction l as [|a l IH]; [rewrite !csum_nil; ring|]. rewrite !csum_cons, IH. ring. Qed.
Lemma csum_scal_r {A} (f : A -> C) c l : csum (fun x => (f x * c)%C) l = (csum f l * c)%C.
Proof. induction l as [|a l IH]; [rewrite !csum_nil; ring|]. rewrite !csum_cons, IH. ring. Qed.
Lemma csum_plus {A} (f g : A -> C) l : csum (fun x => (f x + g x)%C) l = (csum f l + csum g l)%C.
Proof. induction l as [|a l IH]; [rewrite !csum_nil; ring|]. rewrite !csum_cons, IH. ring. Qed.
Lemma csum_zero {A} (l : list A) : csum (fun _ => Czero) l = Czero.
Proof. induction l as [|a l IH]; [reflexivity|]. rewrite !csum_cons, IH. ring. Qed.
Lemma csum_map {A B} (f : B -> C) (h : A -> B) l : csum f (map h l) = csum (fun x => f (h x)) l.
Proof. induction l as [|a l IH]; [reflexivity|]. cbn [map]. now rewrite !csum_cons, IH. Qed.
Lemma csum_flat_map {A B} (f : B -> C) (h : A -> list B) l : csum f (flat_map h l) = csum (fun x => csum f (h x)) l.
Proof. induction l as [|a l IH]; cbn [flat_map]; [reflexivity|]. rewrite csum_app, IH. reflexivity. Qed.
Lemma csum_RtoC {A} (f : A -> R) l : csum (fun x => RtoC (f x)) l = RtoC (rsum f l).
Proof. induction l as [|a l IH]; [reflexivity|]. rewrite csum_cons, rsum_cons, IH. now rewrite RtoC_plus. Qed.
Lemma csum_swap {A B} (f : A -> B -> C) l k : csum (fun x => csum (f x) k) l = csum (fun y => csum (fun x => f x y) l) k.
Proof.
  induction l as [|a l IH]. { rewrite csum_nil. symmetry. apply csum_zero. }
  rewrite csum_cons, IH, <- csum_plus. apply csum_ext. intros y _. now rewrite csum_cons.
Qed.
(** The sum over a list without repetitions of a function that vanishes except at x0. *)
Lemma csum_delta {A} (f : A -> C) l x0 : NoDup l -> In x0 l -> (forall x, In x l -> x <> x0 -> f x = Czero) -> csum f l = f x0.
Proof.
  induction l as [|a l IH]; intros ND HI H0; [destruct HI|]. inversion ND as [|? ? Ha ND']; subst. rewrite csum_cons.
  destruct HI as [->|HI].
  - rewrite (csum_ext f (fun _ => Czero)), csum_zero; [ring|]. intros x Hx. apply H0; [now right|]. intros ->. contradiction.
  - rewrite (H0 a); [|now left|intros ->; contradiction]. rewrite IH; auto; [ring|]. intros x Hx. apply H0. now right.
Qed.

(** ** Roots of unity *)
Lemma cis_period k : cis (2 * PI * IZR k) = Cone.
Proof.
  destruct (Z.le_ge_cases 0 k) as [H|H].
  - destruct (Z_of_nat_complete k H) as [n ->]. rewrite <- INR_IZR_INZ. unfold cis, RtoC.
    replace (2 * PI * INR n)%R with (0 + 2 * INR n * PI)%R by ring. now rewrite cos_period, sin_period, cos_0, sin_0.
  - destruct (Z_of_nat_complete (- k) ltac:(lia)) as [n E]. replace k with (- Z.of_nat n) by lia. rewrite opp_IZR, <- INR_IZR_INZ. unfold cis, RtoC.
    replace (2 * PI * - INR n)%R with (- (0 + 2 * INR n * PI))%R by ring. rewrite cos_neg, sin_neg, cos_period, sin_period, cos_0, sin_0. f_equal. ring.
Qed.

Lemma cis_one x : cis x = Cone -> exists k, x = (2 * PI * IZR k)%R.
Proof.
  intros E. apply (f_equal fst) in E. cbn in E.
  assert (S : sin (x / 2) = 0%R).
  { replace x with (2 * (x / 2))%R in E by field. rewrite cos_2a_sin in E. assert (H : (sin (x / 2) * sin (x / 2) = 0)%R) by lra. now apply Rmult_integral in H as [H|H]. }
  apply sin_eq_0_0 in S as [k S]. exists k. lra.
Qed.

Fixpoint Cpow (q : C) (n : nat) : C := match n with O => Cone | S k => (q * Cpow q k)%C end.
(** The geometric sum of the m-th roots of unity. *)
Lemma seq_geom (q : C) n : ((q - Cone) * csum (fun k => Cpow q k) (seq 0 n) = Cpow q n - Cone)%C.
Proof.
  induction n as [|n IH]; [cbn [seq Cpow]; rewrite csum_nil; ring|].
  rewrite seq_S, csum_app, Cmult_plus_distr_l, IH, csum_cons, csum_nil. cbn [Cpow Nat.add]. ring.
Qed.
Lemma cis_pow x k : Cpow (cis x) k = cis (INR k * x).
Proof.
  induction k as [|k IH]; [cbn [Cpow]; rewrite Rmult_0_l; symmetry; apply cis_0|].
  cbn [Cpow]. rewrite IH, <- cis_plus, S_INR. f_equal. ring.
Qed.

Lemma roots_sum m e : 1 <= m ->
  csum (fun k => cis (2 * PI * IZR (k * e) / IZR m)) (zrange 0 m) = if e mod m =? 0 then RtoC (IZR m) else Czero.
Proof.
  intros Hm. assert (Mne : IZR m <> 0%R) by (apply not_0_IZR; lia).
  unfold zrange. rewrite csum_map.
  rewrite (csum_ext _ (fun k => Cpow (cis (2 * PI * IZR e / IZR m)) k)).
  2:{ intros k _. rewrite cis_pow, mult_IZR, Z.add_0_l, <- INR_IZR_INZ. f_equal. field. exact Mne. }
  destruct (Z.eqb_spec (e mod m) 0) as [E|E].
  - replace (cis (2 * PI * IZR e / IZR m)) with Cone.
    2:{ apply Z_div_exact_full_2 in E; [|lia]. rewrite E, mult_IZR. replace (2 * PI * (IZR m * IZR (e / m)) / IZR m)%R with (2 * PI * IZR (e / m))%R by (field; exact Mne).
        symmetry. apply cis_period. }
    assert (P1 : forall k, Cpow Cone k = Cone) by (induction k as [|k IH]; cbn; [reflexivity|rewrite IH; ring]).
    rewrite (csum_ext _ (fun _ => Cone)) by (intros; apply P1).
    assert (G : forall l : list nat, csum (fun _ => Cone) l = RtoC (INR (length l))).
    { induction l as [|a l IH]; [reflexivity|]. rewrite csum_cons. cbn [length]. rewrite IH, S_INR, RtoC_plus. ring. }
    rewrite G, seq_length. f_equal. rewrite INR_IZR_INZ. f_equal. lia.
  - pose proof (seq_geom (cis (2 * PI * IZR e / IZR m)) (Z.to_nat m)) as G.
    assert (PM : Cpow (cis (2 * PI * IZR e / IZR m)) (Z.to_nat m) = Cone).
    { rewrite cis_pow, INR_IZR_INZ, Z2Nat.id by lia. replace (IZR m * (2 * PI * IZR e / IZR m))%R with (2 * PI * IZR e)%R by (field; exact Mne). apply cis_period. }
    rewrite PM in G. replace (Cone - Cone)%C with Czero in G by ring.
    set (s := csum _ _) in *.
    assert (Q : (cis (2 * PI * IZR e / IZR m) - Cone)%C <> Czero).
    { intros Q. assert (Q' : cis (2 * PI * IZR e / IZR m) = Cone).
      { replace (cis (2 * PI * IZR e / IZR m)) with ((cis (2 * PI * IZR e / IZR m) - Cone) + Cone)%C by ring. rewrite Q. ring. }
      apply cis_one in Q' as [k Q']. apply E.
      assert (R : IZR e = (IZR k * IZR m)%R).
      { apply (Rmult_eq_reg_l (2 * PI / IZR m)%R). 2:{ pose proof PI_neq0. unfold Rdiv. apply Rmult_integral_contrapositive_currified; [|apply Rinv_neq_0_compat; exact Mne]. apply Rmult_integral_contrapositive_currified; [lra|assumption]. }
        replace (2 * PI / IZR m * IZR e)%R with (2 * PI * IZR e / IZR m)%R by (field; exact Mne). rewrite Q'. field. exact Mne. }
      rewrite <- mult_IZR in R. apply eq_IZR in R. rewrite R. apply Z.mod_mul. lia. }
    replace s with (/ (cis (2 * PI * IZR e / IZR m) - Cone) * ((cis (2 * PI * IZR e / IZR m) - Cone) * s))%C.
    + rewrite G. ring.
    + rewrite Cmult_assoc, Cinv_l by exact Q. ring.
Qed.

(** ** Several axes *)
Lemma angle_plus M : forall K A B, length A = length B -> angle M K (vadd A B) = (angle M K A + angle M K B)%R.
Proof.
  induction M as [|m M IH]; intros [|k K] [|a A] [|b B] E; cbn in *; try discriminate; try ring.
  rewrite IH by lia. rewrite Z.mul_add_distr_l, plus_IZR. unfold Rdiv. ring.
Qed.
Lemma angle_sub M : forall K A B, length A = length B -> angle M K (vsub A B) = (angle M K A - angle M K B)%R.
Proof.
  induction M as [|m M IH]; intros [|k K] [|a A] [|b B] E; cbn in *; try discriminate; try ring.
  rewrite IH by lia. rewrite Z.mul_sub_distr_l, minus_IZR. unfold Rdiv. ring.
Qed.

(** Every component of E is divisible by the extent. *)
Fixpoint divides (M E : list Z) : bool := match M, E with m :: M', e :: E' => (e mod m =? 0) && divides M' E' | _, _ => true end.

Lemma orthogonality M : Forall (fun m => 1 <= m) M -> forall E, length E = length M ->
  csum (fun K => cis (angle M K E)) (all_cells M) = if divides M E then RtoC (IZR (fold_right Z.mul 1 M)) else Czero.
Proof.
  induction M as [|m M IH]; intros HM E HE; destruct E as [|e E]; try discriminate.
  - cbn. rewrite cis_0. ring.
  - inversion HM as [|? ? Hm HM']; subst. injection HE as HE. unfold all_cells. cbn [map box]. rewrite csum_flat_map.
    rewrite (csum_ext _ (fun k => (csum (fun K => cis (angle M K E)) (all_cells M) * cis (2 * PI * IZR (k * e) / IZR m))%C)).
    2:{ intros k _. rewrite csum_map. cbn [angle]. rewrite <- csum_scal_r. apply csum_ext. intros K _. rewrite cis_plus. apply Cmult_comm. }
    rewrite csum_scal, roots_sum, IH by assumption. cbn [divides fold_right].
    destruct (e mod m =? 0); cbn [andb]; [|ring]. destruct (divides M E); [|ring]. rewrite mult_IZR, RtoC_mult. ring.
Qed.

Lemma vsub_length A : forall B, length A = length B -> length (vsub A B) = length A.
Proof. induction A as [|a A IH]; intros [|b B] E; cbn in *; try discriminate; auto. Qed.
Lemma divides_eq M : Forall (fun m => 1 <= m) M -> forall D L, length D = length M -> inb M L ->
  (divides M (vsub D L) = true <-> L = vmod D M).
Proof.
  induction M as [|m M IH]; intros HM D L HD HL; destruct D as [|d D]; try discriminate; inversion HL as [|? ? l L' Hl HL']; subst.
  - split; reflexivity.
  - inversion HM as [|? ? Hm HM']; subst. injection HD as HD. cbn [vsub divides vmod].
    specialize (IH HM' D L' HD HL'). rewrite andb_true_iff, Z.eqb_eq, IH. split.
    + intros [E ->]. f_equal. rewrite <- (Z.mod_small l m) by lia. replace d with (l + (d - l)) by ring.
      rewrite <- Z.add_mod_idemp_r, E by lia. f_equal. ring.
    + intros E. injection E as El EL. split; [|exact EL]. rewrite El. rewrite Zminus_mod_idemp_r, Z.sub_diag. apply Z.mod_0_l. lia.
Qed.
Lemma vmod_inb M : Forall (fun m => 1 <= m) M -> forall D, length D = length M -> inb M (vmod D M).
Proof.
  induction M as [|m M IH]; intros HM D HD; destruct D as [|d D]; try discriminate; cbn; [constructor|].
  inversion HM; subst. constructor; [apply Z.mod_pos_bound; lia|]. apply IH; auto.
Qed.
Lemma in_box_zero N P : in_box (map (fun _ => 0) N) N P <-> inb N P.
Proof.
  revert P. induction N as [|n N IH]; intros P; cbn; split; intros H; inversion H; subst; constructor; try lia; try (apply IH; assumption).
Qed.
Lemma all_cells_In N P : In P (all_cells N) <-> inb N P.
Proof. unfold all_cells. rewrite box_In by apply map_length. apply in_box_zero. Qed.
Lemma all_cells_NoDup N : NoDup (all_cells N). Proof. apply box_NoDup. Qed.
Lemma inb_len N P : inb N P -> length P = length N.
Proof. induction 1; cbn; auto. Qed.
Lemma prod_ne M : Forall (fun m => 1 <= m) M -> RtoC (IZR (fold_right Z.mul 1 M)) <> Czero.
Proof.
  intros H. assert (1 <= fold_right Z.mul 1 M) by (induction H; cbn; nia). intros E. apply RtoC_inj in E. apply eq_IZR in E. lia.
Qed.

(** The convolution theorem. *)
Theorem convolution_theorem M a b P : Forall (fun m => 1 <= m) M -> length P = length M ->
  idft M (fun K => (dft M a K * dft M b K)%C) P = csum (fun Q => (a Q * b (vmod (vsub P Q) M))%C) (all_cells M).
Proof.
  intros HM HP. unfold idft.
  rewrite (csum_ext _ (fun K => csum (fun J => csum (fun L => a J * b L * cis (angle M K (vsub (vsub P J) L))) (all_cells M)) (all_cells M)))%C.
  2:{ intros K _. unfold dft. rewrite <- !csum_scal_r. apply csum_ext. intros J HJ.
      rewrite (Cmult_comm (a J * _)%C (csum _ _)), <- csum_scal_r, <- csum_scal_r. apply csum_ext. intros L HL.
      apply all_cells_In, inb_len in HJ. apply all_cells_In, inb_len in HL.
      rewrite !angle_sub by (rewrite ?vsub_length; congruence).
      replace (angle M K P - angle M K J - angle M K L)%R with (- angle M K L + (- angle M K J + angle M K P))%R by ring.
      rewrite !cis_plus. ring. }
  rewrite csum_swap. rewrite <- csum_scal. apply csum_ext. intros J HJ. rewrite csum_swap.
  apply all_cells_In, inb_len in HJ.
  rewrite (csum_delta _ _ (vmod (vsub P J) M)); [|apply all_cells_NoDup|apply all_cells_In, vmod_inb; [assumption|rewrite vsub_length; congruence]|].
  - rewrite csum_scal, orthogonality; [|assumption|rewrite !vsub_length; try congruence].
    2:{ rewrite vsub_length by congruence. rewrite (inb_len M (vmod (vsub P J) M)); [assumption|]. apply vmod_inb; [assumption|]. rewrite vsub_length; congruence. }
    replace (divides M (vsub (vsub P J) (vmod (vsub P J) M))) with true.
    + pose proof (prod_ne M HM). field. assumption.
    + symmetry. apply divides_eq; [assumption|rewrite vsub_length; congruence|apply vmod_inb; [assumption|rewrite vsub_length; congruence]|reflexivity].
  - intros L HL NE. apply all_cells_In in HL. rewrite csum_scal, orthogonality; [|assumption|rewrite !vsub_length; rewrite ?vsub_length; try congruence; rewrite (inb_len _ _ HL); congruence].
    destruct (divides M (vsub (vsub P J) L)) eqn:E; [|ring].
    exfalso. apply NE. apply (divides_eq M); auto. rewrite vsub_length; congruence.
Qed.

(** For real arrays the result is the (real) circular convolution. *)
Theorem dft_convolution M (a b : list Z -> R) P : Forall (fun m => 1 <= m) M -> length P = length M ->
  idft M (fun K => (dft M (fun Q => RtoC (a Q)) K * dft M (fun Q => RtoC (b Q)) K)%C) P = RtoC (circular M a b P).
Proof.
  intros HM HP. rewrite convolution_theorem by assumption. unfold circular. rewrite <- csum_RtoC. apply csum_ext. intros Q _. now rewrite RtoC_mult.
Qed.
