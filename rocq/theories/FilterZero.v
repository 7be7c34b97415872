(** The filter of order 0: what it subtracts. *)
From Verif Require Import Base SpecGrid SpecGhost SpecStencil SpecFilter Cart CartFacts Comm Spmd GhostGeo Ghost3D GhostProofs Stencil StencilProofs HaloProofs HaloKernels HaloThms KernelList KernelProofs SpecStep TimeStep StepProofs StepHistory PyNum Filter FilterProofs.
Arguments run_lops : simpl never.
Arguments addr_eq : simpl never.
Arguments place_dec : simpl never.

Section Z0.
Context {T : Type}.
Variables (lap : T -> T -> T -> T) (sub : T -> T -> T) (z : T).
Variables (per : bool) (pz py px n0 n1 n2 g : Z) (full : bool) (bw : Z).
Notation topo := [pz; py; px].
Notation loc := [n0; n1; n2].
Notation sizes := (ghosted g loc).
Notation N := (global_size topo loc).
Hypothesis (G : grid3 pz py px n0 n1 n2 g).
Hypothesis (Hbw : 1 <= bw /\ bw <= n0 /\ bw <= n1 /\ bw <= n2).
Let Hok : grid_ok topo loc := g3_ok _ _ _ _ _ _ _ G.
Let Hs : Forall (fun x => 0 <= x) sizes.
Proof. apply (sizes_pos topo loc g Hok); unfold grid3 in G; lia. Qed.
Let Hg0 : 0 <= g. Proof. unfold grid3 in G; lia. Qed.
Notation NP := (zprod topo).
Notation apply0 buf flux axes fld := (filter_apply lap sub z per pz py px n0 n1 n2 g full bw buf flux 0 axes fld).
Notation clear flux := (clear_boundary z per pz py px n0 n1 n2 g bw flux).

Lemma apply0_post buf flux axes fld (m : mem T) : buf <> flux -> fld <> buf -> fld <> flux ->
  let m' := den NP (apply0 buf flux axes fld) m in
  (forall r I, 0 <= r < NP -> inb sizes I -> field m' sizes r fld I = sub (field m sizes r fld I) (field m sizes r flux I)) /\
  (forall r f a, 0 <= r < NP -> f <> buf -> f <> fld -> m' (r, (f, a)) = m (r, (f, a))).
Proof.
  intros H1 H2 H3 m'. unfold m', filter_apply, filter_passes. cbn [repeat concat]. rewrite !den_app. change (den NP [] ?x) with x. set (m1 := den NP [PLoc (fun _ => copy_lops n0 n1 n2 g buf fld)] m).
  assert (F : forall r f a, 0 <= r < NP -> f <> buf -> m1 (r, (f, a)) = m (r, (f, a))) by (intros; now apply (copy_frame z)).
  split.
  - intros r I Hr HI. rewrite (sum_post sub sizes NP Hs); auto. unfold field. now rewrite !F by auto.
  - intros r f a Hr A B. rewrite (sum_frame sub z) by auto. now apply F.
Qed.
Lemma clear_post flux (m : mem T) r x : 0 <= r < NP -> inb loc x ->
  field (den NP [clear flux] m) sizes r flux (map (fun i => i + g) x) =
  if zoneb per N bw (vadd (block_start topo loc r) x) then z else field m sizes r flux (map (fun i => i + g) x).
Proof.
  intros Hr Hx. set (I := map (fun i => i + g) x). assert (HI : inb sizes I) by (apply inner_inb; [lia|now apply add_inner]).
  assert (E : zeroed loc g (zviews per pz py px g bw) r I = zoneb per N bw (vadd (block_start topo loc r) x)).
  { rewrite (zone3 per pz py px n0 n1 n2 g bw G Hbw r I Hr HI); [|left; now apply add_inner]. f_equal. unfold I, ghost_pos. rewrite map_map. rewrite (map_ext _ (fun x => x)) by (intros; lia). now rewrite map_id. }
  rewrite <- E. unfold field, den, clear_boundary. cbn [fold_left den1]. unfold den_loc. cbn [fst snd].
  replace ((0 <=? r) && (r <? NP)) with true by (symmetry; apply andb_true_iff; rewrite Z.leb_le, Z.ltb_lt; lia).
  unfold zero_lops3. rewrite set_lops_views. change (zero_views3 _ _ _ _ _ _ _ _) with (zviews per pz py px g bw r).
  rewrite run_sets; auto; [|intros J HJ; apply (zero_cells_In loc g (zviews per pz py px g bw)) in HJ; [|intros; apply zviews_l]; unfold zeroed in HJ; apply existsb_exists in HJ as (v & Hv & HJ); eapply view_in_inb; [|exact Hs|exact HJ]; lia|now left].
  destruct (in_dec ldec I _) as [Hi|Hi].
  - replace (zeroed loc g (zviews per pz py px g bw) r I) with true; [reflexivity|]. symmetry. apply zero_cells_In; [intros; apply zviews_l|exact Hi].
  - destruct (zeroed loc g (zviews per pz py px g bw) r I) eqn:Ez; [|reflexivity]. exfalso. apply Hi. apply zero_cells_In; [intros; apply zviews_l|exact Ez].
Qed.

Definition stale_value (u : nat -> list Z -> T) (flux : nat) (P : list Z) : T := if zoneb per N bw P then z else u flux P.
Definition times0 (ft : filter_type) : nat := match ft with Multiplicative => 1%nat | Convolution => 3%nat end.

(** One scalar filter of order 0. *)
Lemma filter0_post ft buf flux fld (m : mem T) : buf <> flux -> fld <> buf -> fld <> flux ->
  let m' := den NP (filter_3d lap sub z per pz py px n0 n1 n2 g full bw ft buf flux 0 fld) m in
  (forall r x, 0 <= r < NP -> inb loc x ->
     let w := if zoneb per N bw (vadd (block_start topo loc r) x) then z else field m sizes r flux (map (fun i => i + g) x) in
     field m' sizes r flux (map (fun i => i + g) x) = w /\
     field m' sizes r fld (map (fun i => i + g) x) = Nat.iter (times0 ft) (fun v => sub v w) (field m sizes r fld (map (fun i => i + g) x))) /\
  (forall r f a, 0 <= r < NP -> f <> buf -> f <> fld -> f <> flux -> m' (r, (f, a)) = m (r, (f, a))).
Proof.
  intros H1 H2 H3 m'. set (m0 := den NP [clear flux] m).
  assert (C1 : forall r x, 0 <= r < NP -> inb loc x -> field m0 sizes r flux (map (fun i => i + g) x) = if zoneb per N bw (vadd (block_start topo loc r) x) then z else field m sizes r flux (map (fun i => i + g) x)) by (intros; now apply clear_post).
  assert (C2 : forall r f a, f <> flux -> m0 (r, (f, a)) = m (r, (f, a))) by (intros; now apply clear_frame).
  assert (HI : forall x, inb loc x -> inb sizes (map (fun i => i + g) x)) by (intros x Hx; apply inner_inb; [lia|now apply add_inner]).
  destruct ft.
  - unfold m', filter_3d, multiplicative_filter. rewrite den_app. fold m0. destruct (apply0_post buf flux [2; 1; 0]%nat fld m0 H1 H2 H3) as [A B]. split.
    + intros r x Hr Hx. split; [unfold field; rewrite B by auto; now apply C1|]. rewrite A by auto. rewrite C1 by auto. cbn [times0 Nat.iter nat_rect]. f_equal. unfold field. now apply C2.
    + intros r f a Hr F1 F2 F3. rewrite B by auto. now apply C2.
  - unfold m', filter_3d, convolution_filter. rewrite !den_app. fold m0.
    destruct (apply0_post buf flux [2]%nat fld m0 H1 H2 H3) as [A1 B1]. set (m1 := den NP (apply0 buf flux [2]%nat fld) m0) in *.
    destruct (apply0_post buf flux [1]%nat fld m1 H1 H2 H3) as [A2 B2]. set (m2 := den NP (apply0 buf flux [1]%nat fld) m1) in *.
    destruct (apply0_post buf flux [0]%nat fld m2 H1 H2 H3) as [A3 B3]. split.
    + intros r x Hr Hx. split; [unfold field; rewrite B3, B2, B1 by auto; now apply C1|].
      rewrite A3, A2, A1 by auto. unfold field. rewrite !B2, !B1 by auto. rewrite C2 by auto. pose proof (C1 r x Hr Hx) as E. unfold field in E. rewrite !E. reflexivity.
    + intros r f a Hr F1 F2 F3. rewrite B3, B2, B1 by auto. now apply C2.
Qed.

(** Scalar or vector filters of order 0. *)
Lemma vector_filter0 ft buf flux flds (m : mem T) u : buf <> flux -> ~ In buf flds -> ~ In flux flds -> NoDup flds ->
  represents topo loc g (flux :: flds) m u ->
  exists m', spmd_ends NP (vector_filter_3d lap sub z per pz py px n0 n1 n2 g full bw ft buf flux 0 flds) m m' /\
    represents topo loc g flds m' (fun f P => Nat.iter (times0 ft) (fun v => sub v (stale_value u flux P)) (u f P)) /\
    (forall r f a, 0 <= r < NP -> f <> buf -> f <> flux -> ~ In f flds -> m' (r, (f, a)) = m (r, (f, a))).
Proof.
  intros Hbf Hb Hfl Hn HR. exists (den NP (vector_filter_3d lap sub z per pz py px n0 n1 n2 g full bw ft buf flux 0 flds) m). split; [apply spmd_safe; now apply vector_filter_ok|].
  assert (X : forall flds, ~ In buf flds -> ~ In flux flds -> NoDup flds -> forall m : mem T,
     let m' := den NP (vector_filter_3d lap sub z per pz py px n0 n1 n2 g full bw ft buf flux 0 flds) m in
     (forall r f x, 0 <= r < NP -> In f flds -> inb loc x ->
       let w := if zoneb per N bw (vadd (block_start topo loc r) x) then z else field m sizes r flux (map (fun i => i + g) x) in
       field m' sizes r f (map (fun i => i + g) x) = Nat.iter (times0 ft) (fun v => sub v w) (field m sizes r f (map (fun i => i + g) x))) /\
     (forall r f a, 0 <= r < NP -> f <> buf -> f <> flux -> ~ In f flds -> m' (r, (f, a)) = m (r, (f, a)))).
  { clear m HR u flds Hb Hfl Hn. intros flds. induction flds as [|fld flds IH]; intros Hb Hfl Hn m m'; [split; [intros; contradiction|reflexivity]|].
    inversion Hn as [|? ? Hn1 Hn2]; subst. cbn [In] in Hb, Hfl. unfold m', vector_filter_3d. cbn [flat_map]. rewrite den_app.
    fold (vector_filter_3d lap sub z per pz py px n0 n1 n2 g full bw ft buf flux 0 flds).
    destruct (filter0_post ft buf flux fld m ltac:(auto) ltac:(auto) ltac:(auto)) as [A B]. set (m1 := den NP (filter_3d lap sub z per pz py px n0 n1 n2 g full bw ft buf flux 0 fld) m) in *.
    destruct (IH ltac:(auto) ltac:(auto) Hn2 m1) as [C D]. split.
    - intros r f x Hr [<-|Hf] Hx.
      + unfold field at 1. rewrite D by auto. exact (proj2 (A r x Hr Hx)).
      + rewrite C by auto. destruct (A r x Hr Hx) as [A1 _]. rewrite A1.
        destruct (zoneb per N bw (vadd (block_start topo loc r) x)); (f_equal; unfold field; apply B; auto; intros ->; tauto).
    - intros r f a Hr F1 F2 F3. cbn [In] in F3. rewrite D by tauto. apply B; auto. }
  destruct (X flds Hb Hfl Hn m) as [A B]. split; [|exact B].
  intros r f x Hr Hf Hx. rewrite A by auto. unfold stale_value. rewrite (HR r f x Hr ltac:(now right) Hx), (HR r flux x Hr ltac:(now left) Hx). reflexivity.
Qed.
End Z0.
