(** Proofs behind C37, C42, C46. *)
From Coq Require Import QArith Qfield.
From Verif Require Import Base SpecGrid Cart PyNum Penalise PenaliseProofs Filter FilterProofs Doubling DoublingProofs PoissonProofs Construct Coords.
Open Scope Z_scope.

Lemma kernel_eq g ks : kernel g ks = if g <? ks then ValueError else Ok tt.
Proof.
  unfold kernel, check_valid, py_lt. cbn [py_value]. destruct (Z.ltb_spec g ks) as [H|H].
  - destruct (Qle_bool (inject_Z ks) (inject_Z g)) eqn:E; [|reflexivity]. apply Qle_bool_iff in E. rewrite <- Zle_Qle in E. lia.
  - replace (Qle_bool (inject_Z ks) (inject_Z g)) with true; [reflexivity|]. symmetry. apply Qle_bool_iff. now rewrite <- Zle_Qle.
Qed.
Lemma check_valid_spec g ks : check_valid g ks = ValueError <-> (py_value g < py_value ks)%Q.
Proof.
  unfold check_valid, py_lt. destruct (Qle_bool (py_value ks) (py_value g)) eqn:E; cbn [negb].
  - apply Qle_bool_iff in E. split; [discriminate|]. intros H. exfalso. exact (Qlt_not_le _ _ H E).
  - split; [|reflexivity]. intros _. apply Qnot_le_lt. intros H. apply Qle_bool_iff in H. congruence.
Qed.
Lemma py_le0_spec x : py_le0 x = true <-> (py_value x <= 0)%Q.
Proof. destruct x as [z|q]; cbn [py_le0 py_value]; [rewrite Z.leb_le; change 0%Q with (inject_Z 0); now rewrite <- Zle_Qle|apply Qle_bool_iff]. Qed.
Lemma py_lt0_spec x : py_lt0 x = true <-> (py_value x < 0)%Q.
Proof.
  destruct x as [z|q]; cbn [py_lt0 py_value].
  - rewrite Z.ltb_lt. change 0%Q with (inject_Z 0). now rewrite <- Zlt_Qlt.
  - rewrite negb_true_iff. split.
    + intros E. apply Qnot_le_lt. intros H. apply Qle_bool_iff in H. congruence.
    + intros H. destruct (Qle_bool 0 q) eqn:E; [|reflexivity]. apply Qle_bool_iff in E. exfalso. exact (Qlt_not_le _ _ H E).
Qed.
Lemma guards_spec g :
  (guard_positive g = ValueError <-> (py_value g <= 0)%Q /\ is_int g = false) /\
  (guard_nonnegative g = ValueError <-> (py_value g < 0)%Q /\ is_int g = false) /\
  (guard_positive g <> ValueError -> guard_positive g = Ok tt) /\ (guard_nonnegative g <> ValueError -> guard_nonnegative g = Ok tt).
Proof.
  unfold guard_positive, guard_nonnegative. rewrite <- py_le0_spec, <- py_lt0_spec. destruct (is_int g); cbn [negb]; rewrite ?andb_false_r, ?andb_true_r.
  - repeat split; try discriminate; intuition discriminate.
  - destruct (py_le0 g), (py_lt0 g); repeat split; try discriminate; try tauto; intuition discriminate.
Qed.

Definition valid_width (w : pynum) : Prop := exists z, w = PyInt z /\ 0 <= z.
Lemma width_ok w : (to_unit (penalise_width w) = Ok tt /\ valid_width w) \/ (to_unit (penalise_width w) = ValueError /\ ~ valid_width w).
Proof.
  destruct (penalise_width_spec w) as [_ H]. unfold valid_width. destruct (penalise_width w) as [z| | |] eqn:E.
  - left. split; [reflexivity|]. exists z. now apply H.
  - right. split; [reflexivity|]. intros (z & Hz). apply H in Hz. discriminate.
  - exfalso. unfold penalise_width in E. destruct (_ || _); [discriminate|]. destruct w; discriminate.
  - exfalso. unfold penalise_width in E. destruct (_ || _); [discriminate|]. destruct w; discriminate.
Qed.
Lemma dist_ok py px : (to_unit (distributed_dim2 py px) = Ok tt /\ (py = 1 \/ px = 1)) \/ (to_unit (distributed_dim2 py px) = ValueError /\ py <> 1 /\ px <> 1).
Proof.
  unfold distributed_dim2. destruct (Z.eqb_spec py 1) as [Hy|Hy], (Z.eqb_spec px 1) as [Hx|Hx]; cbn [negb andb]; try (left; split; [|tauto]; destruct (_ =? 1); reflexivity).
  right. repeat split; auto.
Qed.
Lemma dist3_ok topo : (double3_check topo = Ok tt /\ Exists (fun t => t = 1) topo) \/ (double3_check topo = ValueError /\ Forall (fun t => t <> 1) topo).
Proof.
  destruct (check3_spec topo) as [H1 H2]. unfold double3_check in *. destruct (_ <=? _)%nat; [right; split; [reflexivity|now apply H1]|left; split; [reflexivity|now apply H2]].
Qed.

(** requirements of the kernels *)
Definition runnable_2d (f : flow_type) (topo : list Z) (g : Z) (width : pynum) : Prop :=
  2 <= g /\ (is_ns f = true -> (nth 0 topo 1 = 1 \/ nth 1 topo 1 = 1) /\ valid_width width).
Definition valid_filter (filter : option (pynum * bool)) : Prop :=
  match filter with None => True | Some (order, ty) => valid_width order /\ ty = true end.
Definition runnable_3d (f : flow_type) (topo : list Z) (g : Z) (width : pynum) (filter : option (pynum * bool)) : Prop :=
  if is_ns f then 1 <= g /\ Exists (fun t => t = 1) topo /\ valid_width width /\ valid_filter filter else 2 <= g.

Lemma mpi_construct_some grid topo : mpi_construct grid topo <> None <-> vmod_nonzero grid topo = false.
Proof. unfold mpi_construct. destruct (vmod_nonzero grid topo); split; try congruence; discriminate. Qed.

Lemma new_2d_ok f fs grid topo g width :
  (exists s, new_simulator_2d f fs grid topo g width = Ok s) <->
  ((f = PassiveScalar /\ fs = false) \/ f = NavierStokes \/ f = NavierStokesForcing) /\ mpi_construct grid topo <> None.
Proof.
  unfold new_simulator_2d. assert (G : guard_positive (PyInt g) = Ok tt) by (unfold guard_positive; cbn [is_int negb]; now rewrite andb_false_r). rewrite G.
  destruct f, fs, (mpi_construct grid topo); split;
    try (intros (s & E); discriminate); try (intros [[[E1 E2]|[E|E]] H]; try discriminate; try contradiction; eexists; reflexivity); intros (s & E);
    (split; [tauto|discriminate]).
Qed.


Lemma passing_int g : guard_positive (PyInt g) = Ok tt.
Proof. unfold guard_positive. cbn [is_int negb]. now rewrite andb_false_r. Qed.
Lemma step_2d_gen f py px g width : f <> OtherFlow -> f <> PassiveVector ->
  let s := fst (compile (kernels_2d f [py; px] g width)) in
  (snd (perform s (step_calls_2d f)) = false <-> runnable_2d f [py; px] g width).
Proof.
  intros H1 H2. cbn zeta. unfold kernels_2d, runnable_2d. cbn [nth]. rewrite !kernel_eq.
  destruct (dist_ok py px) as [[Hd Ed]|[Hd Ed]], (width_ok width) as [[Hw Ew]|[Hw Ew]];
  destruct (Z.ltb_spec g 1) as [Hg|Hg], (Z.ltb_spec g 2) as [Hg2|Hg2]; try lia;
  destruct f; try congruence; cbn [is_ns is_forcing app]; try rewrite Hd; try rewrite Hw; cbn;
  (split; [intros E; first [discriminate E|split; [exact Hg2|first [intros X; discriminate X|intros _; split; [tauto|exact Ew]]]]|
           intros [X Y]; first [reflexivity|exfalso; lia|exfalso; destruct (Y eq_refl) as [Y1 Y2]; tauto]]).
Qed.
Lemma step_2d f fs grid py px g width s : new_simulator_2d f fs grid [py; px] g width = Ok s ->
  (snd (perform s (step_calls_2d f)) = false <-> runnable_2d f [py; px] g width).
Proof.
  unfold new_simulator_2d. rewrite passing_int.
  destruct f; try discriminate; [destruct fs; [discriminate|]| |];
    (destruct (mpi_construct grid [py; px]); [|discriminate]); (intros E; match type of E with Ok ?x = Ok s => assert (Es : s = x) by congruence end; subst s; apply step_2d_gen; discriminate).
Qed.
(** what has been done when the step fails *)
Lemma half_step_2d fs grid py px g width s : new_simulator_2d NavierStokes fs grid [py; px] g width = Ok s -> 2 <= g ->
  ((py <> 1 /\ px <> 1) \/ ~ valid_width width) -> perform s (step_calls_2d NavierStokes) = ([AAdvection; ADiffusion], true).
Proof.
  unfold new_simulator_2d. rewrite passing_int. destruct (mpi_construct grid [py; px]); [|discriminate]. intros E Hg H. match type of E with Ok ?x = Ok s => assert (Es : s = x) by congruence end. subst s. clear E.
  unfold kernels_2d. cbn [nth]. rewrite !kernel_eq. destruct (Z.ltb_spec g 1); [lia|]. destruct (Z.ltb_spec g 2); [lia|].
  destruct (dist_ok py px) as [[Hd Ed]|[Hd Ed]], (width_ok width) as [[Hw Ew]|[Hw Ew]]; cbn [is_ns is_forcing app]; rewrite Hd, Hw; try reflexivity. exfalso. tauto.
Qed.

(** what a step does, in every case *)
Lemma step_done_2d f fs grid py px g width s : new_simulator_2d f fs grid [py; px] g width = Ok s ->
  let good := (py = 1 \/ px = 1) /\ valid_width width in
  (g < 2 -> perform s (step_calls_2d f) = ([], true)) /\
  (2 <= g -> f = PassiveScalar -> perform s (step_calls_2d f) = ([AAdvection; ADiffusion], false)) /\
  (2 <= g -> good -> f = NavierStokes -> perform s (step_calls_2d f) = ([AAdvection; ADiffusion; APenalise; APoisson; ACurl; AFreeStream], false)) /\
  (2 <= g -> good -> f = NavierStokesForcing -> perform s (step_calls_2d f) = ([AUpdateVorticity; AAdvection; ADiffusion; APenalise; APoisson; ACurl; AFreeStream; ASetField], false)) /\
  (2 <= g -> ~ good -> f = NavierStokes -> perform s (step_calls_2d f) = ([AAdvection; ADiffusion], true)) /\
  (2 <= g -> ~ good -> f = NavierStokesForcing -> perform s (step_calls_2d f) = ([], true)).
Proof.
  unfold new_simulator_2d. rewrite passing_int. cbn zeta.
  destruct f; try discriminate; [destruct fs; [discriminate|]| |];
    (destruct (mpi_construct grid [py; px]); [|discriminate]); (intros E; match type of E with Ok ?x = Ok s => assert (Es : s = x) by congruence end; subst s; clear E);
    unfold kernels_2d; cbn [nth]; rewrite !kernel_eq;
  destruct (dist_ok py px) as [[Hd Ed]|[Hd Ed]], (width_ok width) as [[Hw Ew]|[Hw Ew]];
  destruct (Z.ltb_spec g 1) as [Hg|Hg], (Z.ltb_spec g 2) as [Hg2|Hg2]; try lia; cbn [is_ns is_forcing app]; rewrite ?Hd, ?Hw; repeat split; intros; try discriminate; try lia; try reflexivity; tauto.
Qed.
(** the attributes of a simulator whose construction raised nothing *)
Lemma compile_names l s : compile l = (s, None) -> s = map fst l.
Proof.
  revert s. induction l as [|[a o] l IH]; intros s; cbn [compile map fst]; [now intros [= <-]|]. destruct o; try discriminate. destruct (compile l) as [s' e]. intros [= <- ->]. now rewrite (IH s' eq_refl).
Qed.
Lemma names_2d f fs grid py px g width s : new_simulator_2d f fs grid [py; px] g width = Ok s -> 2 <= g ->
  (f = NavierStokes \/ f = NavierStokesForcing -> (py = 1 \/ px = 1) /\ valid_width width) ->
  s = map fst (kernels_2d f [py; px] g width).
Proof.
  unfold new_simulator_2d. rewrite passing_int. cbn zeta.
  destruct f; try discriminate; [destruct fs; [discriminate|]| |];
    (destruct (mpi_construct grid [py; px]); [|discriminate]); (intros E Hg Hns; match type of E with Ok ?x = Ok s => assert (Es : s = x) by congruence end; subst s; clear E);
    unfold kernels_2d; cbn [nth]; rewrite !kernel_eq;
  (destruct (Z.ltb_spec g 1) as [H1|H1]; [clear -Hg H1; lia|]); (destruct (Z.ltb_spec g 2) as [H2|H2]; [clear -Hg H2; lia|]); cbn [is_ns is_forcing app];
  try reflexivity;
  (destruct (dist_ok py px) as [[Hd Ed]|[Hd Ed]], (width_ok width) as [[Hw Ew]|[Hw Ew]]; rewrite ?Hd, ?Hw; try reflexivity; exfalso; tauto).
Qed.
Lemma names_3d f grid topo g width filter s : new_simulator_3d f grid topo g width filter = Ok s -> s = map fst (kernels_3d f topo g width filter).
Proof.
  unfold new_simulator_3d. destruct f; try discriminate; (destruct (mpi_construct grid topo); [|discriminate]); (destruct (guard_positive (PyInt g)); try discriminate);
    (match goal with |- context [compile ?l] => destruct (compile l) as [s' [[]|]] eqn:E end; try discriminate; intros [= <-]; exact (compile_names _ _ E)).
Qed.
(** 3D: the constructor returned, so every kernel is there. *)
Lemma perform_all have : forall calls, snd (perform have calls) = false -> perform have calls = (calls, false).
Proof.
  induction calls as [|a l IH]; cbn [perform]; [reflexivity|]. destruct (existsb (attr_eqb a) have); [|discriminate]. destruct (perform have l) as [d e]. cbn [snd] in *. intros ->. now rewrite (f_equal fst (IH eq_refl) : d = l).
Qed.

Definition filter_check (g : Z) (filter : option (pynum * bool)) : outcome unit :=
  match filter with
  | None => Ok tt
  | Some (order, valid_type) =>
      match filter_args order (PyInt 1) with
      | Ok _ => match kernel g 1 with Ok _ => if valid_type then Ok tt else ValueError | e => e end
      | _ => ValueError
      end
  end.
Lemma filter_ok g filter : 1 <= g -> (filter_check g filter = Ok tt /\ valid_filter filter) \/ (filter_check g filter = ValueError /\ ~ valid_filter filter).
Proof.
  intros Hg. unfold filter_check. destruct filter as [[order ty]|]; [|left; split; [reflexivity|exact I]]. unfold valid_filter, valid_width, filter_args. rewrite kernel_eq. destruct (Z.ltb_spec g 1); [lia|].
  destruct order as [o|q]; cbn [py_lt0 py_le0 is_int negb]; rewrite ?orb_true_r, ?orb_false_r.
  - destruct (Z.ltb_spec o 0) as [Ho|Ho]; cbn.
    + right. split; [reflexivity|]. intros [(z & [= <-] & Hz) _]. lia.
    + destruct ty; [left; split; [reflexivity|]; split; [eauto|reflexivity]|right; split; [reflexivity|]; intros [_ E]; discriminate].
  - right. split; [reflexivity|]. intros [(z & E & _) _]. discriminate.
Qed.
Lemma new_3d_ok f grid topo g width filter :
  ((exists s, new_simulator_3d f grid topo g width filter = Ok s) <-> f <> OtherFlow /\ mpi_construct grid topo <> None /\ runnable_3d f topo g width filter) /\
  (f <> OtherFlow -> mpi_construct grid topo <> None -> ~ runnable_3d f topo g width filter -> new_simulator_3d f grid topo g width filter = ValueError) /\
  (forall s, new_simulator_3d f grid topo g width filter = Ok s -> snd (perform s (step_calls_3d f)) = false).
Proof.
  unfold new_simulator_3d, runnable_3d, kernels_3d. change (match filter with None => _ | Some p => _ end) with (filter_check g filter). rewrite passing_int.
  destruct f; [| | | |split; [split; [intros (s & E); discriminate|intros [H _]; congruence]|split; [congruence|intros s E; discriminate]]];
  (destruct (mpi_construct grid topo) as [l|]; [|split; [split; [intros (s & E); discriminate|intros (_ & H & _); congruence]|split; [congruence|intros s E; discriminate]]]);
  cbn [is_ns is_forcing app].
  1,2: rewrite !kernel_eq; destruct (Z.ltb_spec g 1) as [Hg|Hg], (Z.ltb_spec g 2) as [Hg2|Hg2]; try lia; cbn [compile];
    (split; [split; [intros (s & E); first [discriminate E|repeat split; auto; discriminate]|intros (_ & _ & H); first [lia|eexists; reflexivity]]|
             split; [intros _ _ HH; first [reflexivity|lia]|intros s E; first [discriminate E|injection E as <-; reflexivity]]]).
  all: destruct (Z.ltb_spec g 1) as [Hg|Hg];
    [rewrite kernel_eq; destruct (Z.ltb_spec g 1); [|lia]; cbn [compile]; (split; [split; [intros (s & E); discriminate E|intros (_ & _ & HH & _); lia]|split; [intros _ _ _; reflexivity|intros s E; discriminate E]])|];
    destruct (filter_ok g filter Hg) as [[Hf Ef]|[Hf Ef]]; rewrite Hf; clear Hf; rewrite !kernel_eq; (destruct (Z.ltb_spec g 1); [lia|]);
    destruct (dist3_ok topo) as [[-> Ed]|[-> Ed]], (width_ok width) as [[-> Ew]|[-> Ew]]; cbn [compile];
    (split; [split; [intros (s & E); first [discriminate E|split; [discriminate|]; split; [discriminate|]; auto]|intros (_ & _ & X1 & X2 & X3 & X4); first [eexists; reflexivity|exfalso; tauto|exfalso; apply Exists_Forall_neg in X2; [tauto|intros ? [?|?]; tauto]|exfalso; apply Exists_exists in X2 as (t & Ht & Et); rewrite Forall_forall in Ed; exact (Ed t Ht Et)]]|
             split; [intros _ _ HH; first [reflexivity|exfalso; tauto]|intros s E; first [discriminate E|injection E as <-; reflexivity]]]).
Qed.

(** C42 *)
Open Scope Q_scope.
Lemma local_axis_eq dx sub loc g i : (1 <= loc + 2 * g)%Z -> (loc + 2 * g = 1 -> i = 0)%Z ->
  local_axis dx sub loc g i == (inject_Z (sub + (i - g)) + (1 # 2)) * dx.
Proof.
  intros Hn Hi. unfold local_axis, linspace. destruct (Z.eqb_spec (loc + 2 * g) 1) as [E|E].
  - rewrite (Hi E). unfold Z.sub. rewrite !inject_Z_plus, inject_Z_opp. change (inject_Z 0) with 0. field.
  - assert (Hne : ~ inject_Z (loc + 2 * g - 1) == 0). { change 0 with (inject_Z 0). rewrite inject_Z_injective. lia. }
    assert (X : inject_Z (sub + loc) * dx - dx / 2 + inject_Z g * dx - (dx / 2 + inject_Z sub * dx - inject_Z g * dx) == inject_Z (loc + 2 * g - 1) * dx).
    { unfold Z.sub. rewrite !inject_Z_plus, inject_Z_mult. change (inject_Z 2) with 2. change (inject_Z (- (1))) with (- (1)). generalize (inject_Z sub) (inject_Z loc) (inject_Z g). intros a b c. field. }
    rewrite X. assert (Y : inject_Z (loc + 2 * g - 1) * dx / inject_Z (loc + 2 * g - 1) == dx) by (field; exact Hne). rewrite Y.
    unfold Z.sub. rewrite !inject_Z_plus, inject_Z_opp. field.
Qed.
Close Scope Q_scope.
Lemma nth_vadd k : forall a b, length a = length b -> nth k (vadd a b) 0 = nth k a 0 + nth k b 0.
Proof. induction k as [|k IH]; intros [|x a] [|y b] H; cbn in *; try discriminate; auto. Qed.
Lemma nth_vmul k : forall a b, length a = length b -> nth k (vmul a b) 0 = nth k a 0 * nth k b 0.
Proof. induction k as [|k IH]; intros [|x a] [|y b] H; cbn in *; try discriminate; auto. Qed.
Lemma position_eq dims loc dx g r c I : grid_ok dims loc -> 0 <= g -> 0 <= r < zprod dims -> (c < length loc)%nat -> inb (ghosted g loc) I ->
  (position_field dims loc dx g r c I == (inject_Z (nth (length loc - 1 - c) (ghost_pos dims loc g r I) 0%Z) + (1 # 2)) * dx)%Q.
Proof.
  intros Hok Hg Hr Hc HI. destruct Hok as [Hl Hd Hp]. unfold position_field. set (k := (length loc - 1 - c)%nat). assert (Hk : (k < length loc)%nat) by lia.
  assert (HIl : length I = length loc). { apply inb_length in HI. unfold ghosted in HI. now rewrite map_length in HI. }
  assert (HIk : 0 <= nth k I 0 < nth k loc 0 + 2 * g).
  { assert (X : forall k loc I, inb (ghosted g loc) I -> (k < length loc)%nat -> 0 <= nth k I 0 < nth k loc 0 + 2 * g).
    { clear. intros k. induction k as [|k IH]; intros loc I H Hk; destruct loc as [|n loc]; cbn in Hk; try lia; unfold ghosted in H; cbn [map] in H; inversion H; subst; cbn [nth]; [lia|]. apply IH; [assumption|lia]. }
    exact (X k loc I HI Hk). }
  assert (Hn : 1 <= nth k loc 0). { unfold positive in Hp. rewrite Forall_forall in Hp. pose proof (Hp (nth k loc 0) (nth_In _ _ Hk)). lia. }
  rewrite local_axis_eq by lia. unfold ghost_pos, block_start, cart_coords.
  assert (Hu : length (unravel dims r) = length loc). { now rewrite unravel_length, Hl. }
  rewrite nth_vadd by (rewrite vmul_length, map_length; lia). rewrite nth_vmul by exact Hu.
  replace (nth k (map (fun i => i - g) I) 0) with (nth k I 0 - g); [reflexivity|].
  symmetry. rewrite (nth_indep _ 0 (0 - g)) by (rewrite map_length; lia). exact (map_nth (fun i => i - g) I 0 k).
Qed.

Lemma covers dims loc x_range g r c I : grid_ok dims loc -> 0 <= g -> 0 <= r < zprod dims -> (c < length loc)%nat -> inb (ghosted g loc) I ->
  let n k := nth k (global_size dims loc) 0 in let last := (length loc - 1)%nat in let k := (last - c)%nat in
  let range k := other_range x_range (n k) (n last) in
  (position_field dims loc (cell_size x_range (n last)) g r c I == (inject_Z (nth k (ghost_pos dims loc g r I) 0%Z) + (1 # 2)) * (range k / inject_Z (n k)))%Q /\
  (range last == x_range)%Q /\ (range k / inject_Z (n k) == x_range / inject_Z (n last))%Q.
Proof.
  intros Hok Hg Hr Hc HI n last k range. rewrite (position_eq dims loc _ g r c I) by auto. destruct Hok as [Hl Hd Hp].
  assert (X : forall k, (k < length loc)%nat -> (~ inject_Z (n k) == 0)%Q).
  { intros i Hi. change 0%Q with (inject_Z 0). rewrite inject_Z_injective. unfold n, global_size. rewrite nth_vmul by (symmetry; exact Hl). unfold positive in *. rewrite Forall_forall in *.
    pose proof (Hd _ (nth_In dims 0 (ltac:(clear -Hi Hl; lia) : (i < length dims)%nat))). pose proof (Hp _ (nth_In loc 0 Hi)). nia. }
  assert (X1 : (~ inject_Z (n last) == 0)%Q) by (apply X; unfold last; clear -Hc; lia). assert (X2 : (~ inject_Z (n k) == 0)%Q) by (apply X; unfold k, last; clear -Hc; lia).
  unfold range, other_range, cell_size. fold last k. repeat split; try (field; auto; fail).
Qed.
