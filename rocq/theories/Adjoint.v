(** Spreading is the adjoint of interpolation. *)
From Coq Require Import QArith Qround Permutation.
From Verif Require Import Base SpecGrid SpecPenalise SpecGhost SpecGhostSum SpecStencil SpecIB SpecLag Cart CartFacts Stencil StencilProofs FieldProofs GhostSumHops EulLag LagProofs StepProofs SpecStep EulLagProofs EulLagThms SpreadProofs IBThms HaloProofs PenaliseProofs.
Open Scope Z_scope.

Section Adj.
Context {C D T : Type}.
Variables (cell : C -> Z) (dist : Z -> C -> D) (w : Z).
Variables (add mul : T -> T -> T) (z one : T) (wt : list D -> T).
Hypothesis Hs : comm_semiring add mul z one.
Variables (dims loc : list Z) (g : Z).
Hypothesis Hg : grid_ok dims loc.
Notation tot := (total add z).
Let Hm : comm_monoid add z := cs_add _ _ _ _ Hs.

Lemma tot_scale {A} a (F : A -> T) L : mul a (tot (map F L)) = tot (map (fun x => mul a (F x)) L).
Proof. induction L as [|x L IH]; unfold total in *; cbn [map fold_right]; [apply (cs_zero _ _ _ _ Hs)|]. now rewrite (cs_dist _ _ _ _ Hs), IH. Qed.
Lemma tot_ext {A} (F G : A -> T) L : (forall x, In x L -> F x = G x) -> tot (map F L) = tot (map G L).
Proof. intros H. f_equal. apply map_ext_in. exact H. Qed.
Lemma tot_swap {A B} (F : A -> B -> T) L K : tot (map (fun x => tot (map (F x) K)) L) = tot (map (fun y => tot (map (fun x => F x y) L)) K).
Proof.
  induction L as [|a L IH].
  - cbn [map]. rewrite (total_zeros add z Hm); auto.
  - cbn [map]. unfold total at 1. cbn [fold_right]. fold (tot (map (fun x => tot (map (F x) K)) L)). rewrite IH, <- (total_add add z Hm). reflexivity.
Qed.
Lemma tot_filter {A} (h : A -> bool) (F : A -> T) L : tot (map (fun x => if h x then F x else z) L) = tot (map F (filter h L)).
Proof.
  induction L as [|a L IH]; [reflexivity|]. cbn [filter map]. unfold total at 1. cbn [fold_right]. fold (tot (map (fun x => if h x then F x else z) L)). rewrite IH.
  destruct (h a); [reflexivity|]. rewrite (cm_comm _ _ Hm). apply (cm_zero _ _ Hm).
Qed.

(** The support points of a node are inner cells, each of exactly one rank. *)
Lemma support_perm pos : length pos = length loc -> Forall (inb (global_size dims loc)) (support_points cell w pos) ->
  Permutation (filter (fun P => in_support cell w P pos) (map (fun rI => ghost_pos dims loc g (fst rI) (snd rI)) (inner_cells dims loc g))) (support_points cell w pos).
Proof.
  intros Hl Hd. assert (Hb : forall r I, In (r, I) (inner_cells dims loc g) <-> 0 <= r < zprod dims /\ inner g loc I).
  { intros r I. unfold inner_cells. rewrite in_prod_iff, zrange_In, box_In by now rewrite map_length. unfold inner. intuition lia. }
  assert (Hsp : forall P, length P = length loc -> (in_support cell w P pos = true <-> In P (support_points cell w pos))).
  { intros P HP. unfold in_support, support_points. rewrite box_In by (rewrite !map_length; unfold home; now rewrite map_length, rev_length).
    assert (Hh : length (home cell pos) = length loc) by (unfold home; rewrite map_length, rev_length; auto). revert Hh HP Hl. generalize (home cell pos). clear. intros h. revert P pos loc.
    induction h as [|x h IH]; intros [|p P] [|q pos] [|n l]; cbn; intros; try discriminate; [split; auto; constructor|].
    rewrite andb_true_iff, (IH P pos l) by lia. rewrite andb_true_iff, Z.ltb_lt, Z.leb_le. split.
    - intros [? ?]. constructor; auto. lia.
    - intros H. inversion H; subst. split; auto. lia. }
  apply NoDup_Permutation.
  - apply NoDup_filter. apply NoDup_map_on.
    + intros [r I] [s J] H1 H2 E. apply Hb in H1 as [], H2 as []. cbn [fst snd] in E. destruct (inner_unique dims loc g Hg r s I J); auto. now subst.
    + unfold inner_cells.
      generalize (zrange_NoDup 0 (zprod dims)), (box_NoDup (map (fun _ => g) loc) loc). generalize (zrange 0 (zprod dims)), (box (map (fun _ => g) loc) loc). clear.
      intros R B HR HB. induction HR as [|r R Hr HR IH]; cbn [list_prod]; [constructor|]. apply DoublingProofs.nodup_app; auto.
      * apply FinFun.Injective_map_NoDup; auto. congruence.
      * intros [s I] H1 H2. apply in_map_iff in H1 as (? & E & _). injection E as <- <-. apply in_prod_iff in H2 as []. contradiction.
  - unfold support_points. apply box_NoDup.
  - intros P. rewrite filter_In. split.
    + intros [HP HS]. apply in_map_iff in HP as ([r I] & <- & HI). apply Hb in HI as [Hr HI]. apply Hsp; auto. cbn [fst snd]. 
      assert (length I = length loc) by (apply in_box_length in HI; tauto). rewrite gp_length; auto; [|apply Hg]. unfold global_size. rewrite vmul_length; destruct Hg; lia.
    + intros HP. rewrite Forall_forall in Hd. pose proof (Hd P HP) as HN. apply inb_length in HN as HlP. unfold global_size in HlP. rewrite vmul_length in HlP by (destruct Hg; lia). split.
      * destruct (tiling dims loc P Hg HN) as (r & x & (Hr & Hx & E) & _). apply in_map_iff. exists (r, map (fun i => i + g) x). split.
        -- cbn [fst snd]. unfold ghost_pos. rewrite map_map, <- E. f_equal. rewrite <- map_id. apply map_ext. intros; lia.
        -- apply Hb. split; auto. unfold inner. clear -Hx. induction Hx; cbn; constructor; auto. lia.
      * apply Hsp; auto. destruct Hg; lia.
Qed.

Lemma adjoint_gen (force : Z -> T) (posn : Z -> list C) (s : Z -> list Z -> T) (v : list Z -> T) (h : T) (J : list Z) :
  (forall j, In j J -> length (posn j) = length loc /\ Forall (inb (global_size dims loc)) (support_points cell w (posn j))) ->
  (forall r I, 0 <= r < zprod dims -> inner g loc I -> s r I = tot (map (fun j => contribution cell dist w z mul wt (posn j) (force j) (ghost_pos dims loc g r I)) J)) ->
  tot (map (fun rI => mul h (mul (s (fst rI) (snd rI)) (v (ghost_pos dims loc g (fst rI) (snd rI))))) (inner_cells dims loc g)) =
  tot (map (fun j => mul (force j) (interpolated cell dist w (mul h) tot mul wt v (posn j))) J).
Proof.
  intros Hp Hv. pose proof (cs_mul _ _ _ _ Hs) as Hc.
  transitivity (tot (map (fun rI => tot (map (fun j => mul h (mul (contribution cell dist w z mul wt (posn j) (force j) (ghost_pos dims loc g (fst rI) (snd rI))) (v (ghost_pos dims loc g (fst rI) (snd rI))))) J)) (inner_cells dims loc g))).
  - apply tot_ext. intros [r I] HI. unfold inner_cells in HI. apply in_prod_iff in HI as [Hr HI]. apply zrange_In in Hr. apply box_In in HI; [|now rewrite map_length]. cbn [fst snd].
    rewrite Hv by (auto; lia). rewrite (cm_comm _ _ Hc (tot _)), tot_scale, tot_scale. apply tot_ext. intros j _. now rewrite (cm_comm _ _ Hc (v _)).
  - rewrite tot_swap. apply tot_ext. intros j Hj. destruct (Hp j Hj) as [Hl Hd]. unfold interpolated.
    transitivity (tot (map (fun P => if in_support cell w P (posn j) then mul h (mul (mul (force j) (wt (distances dist P (posn j)))) (v P)) else z) (map (fun rI => ghost_pos dims loc g (fst rI) (snd rI)) (inner_cells dims loc g)))).
    + rewrite map_map. apply tot_ext. intros [r I] _. cbn [fst snd]. unfold contribution. destruct (in_support cell w _ (posn j)); [reflexivity|].
      rewrite (cm_comm _ _ Hc z), (cs_zero _ _ _ _ Hs). apply (cs_zero _ _ _ _ Hs).
    + rewrite tot_filter. rewrite (total_perm add z Hm _ _ (Permutation_map _ (support_perm (posn j) Hl Hd))). rewrite tot_scale, tot_scale. apply tot_ext. intros P _.
      rewrite !(cm_assoc _ _ Hc). rewrite (cm_comm _ _ Hc (force j) h). rewrite <- !(cm_assoc _ _ Hc). f_equal. f_equal. apply (cm_comm _ _ Hc).
Qed.
End Adj.

(** ** The spreading programs *)
Section Run.
Context {T : Type}.
Variables (add mul : T -> T -> T) (z one : T) (wt : list Q -> T).
Hypothesis Hs : comm_semiring add mul z one.
Notation tot := (total add z).

Lemma in_cells_len dx ss ls xs : in_cells dx ss ls xs -> length xs = length ls.
Proof. induction 1; cbn; congruence. Qed.
Lemma in_domain_len dx shift dims loc pos : length loc = length dims -> in_domain dx shift dims loc pos -> length pos = length loc.
Proof.
  intros Hl H. apply in_cells_len in H. unfold rel in H. rewrite map_length, rev_length in H. rewrite H. unfold global_size. rewrite vmul_length; lia.
Qed.

Lemma adjoint_post dims loc g w dx shift nodes comps (force : Z -> Z -> T) (m' : Z -> Spmd.lmemT) (v : list Z -> T) (h : T) c f :
  grid_ok dims loc -> 1 <= w -> Forall (in_domain dx shift dims loc) nodes ->
  Forall (fun pos => Forall (inb (global_size dims loc)) (support_points (q_cell dx shift) w pos)) nodes ->
  (forall c f r I, 0 <= c -> nth_error comps (Z.to_nat c) = Some f -> 0 <= r < zprod dims -> inner g loc I ->
      m' r (f, ravel (ghosted g loc) I) = add z
         (tot (map (fun j => contribution (q_cell dx shift) (q_dist dx shift) w z mul wt (node_at nodes j) (force c j) (ghost_pos dims loc g r I)) (zrange 0 (Z.of_nat (length nodes)))))) ->
  0 <= c -> nth_error comps (Z.to_nat c) = Some f ->
  tot (map (fun rI => mul h (mul (m' (fst rI) (f, ravel (ghosted g loc) (snd rI))) (v (ghost_pos dims loc g (fst rI) (snd rI))))) (inner_cells dims loc g)) =
  tot (map (fun j => mul (force c j) (interpolated (q_cell dx shift) (q_dist dx shift) w (mul h) tot mul wt v (node_at nodes j))) (zrange 0 (Z.of_nat (length nodes)))).
Proof.
  intros Hg Hw Hdom Hsup Hv Hc Hf. pose proof (cs_add _ _ _ _ Hs) as Hm.
  apply (adjoint_gen (q_cell dx shift) (q_dist dx shift) w add mul z one wt Hs dims loc g Hg (force c) (node_at nodes) (fun r I => m' r (f, ravel (ghosted g loc) I)) v h (zrange 0 (Z.of_nat (length nodes)))).
  - intros j Hj. apply zrange_In in Hj. assert (Hin : In (node_at nodes j) nodes) by (apply nth_In; lia). rewrite Forall_forall in Hdom, Hsup. split; [|now apply Hsup].
    eapply in_domain_len; [apply Hg|apply (Hdom _ Hin)].
  - intros r I Hr HI. rewrite (Hv c f r I) by auto. rewrite (cm_comm _ _ Hm). apply (cm_zero _ _ Hm).
Qed.

Lemma spread_sum_2d times0 py px ny nx g w dx shift nodes address comps lagf rb cb (force : Z -> Z -> T) (m : Z -> Spmd.lmemT) (h : T) :
  let dims := [py; px] in let loc := [ny; nx] in
  KernelList.grid2 py px ny nx g -> 1 <= w <= g -> (0 < dx)%Q -> (forall x, times0 x = z) -> NoDup (lagf :: comps ++ [rb; cb]) ->
  zero_buf z (py * px) rb [g; nx + 2 * g] m -> zero_buf z (py * px) cb [ny + 2 * g; g] m -> (forall f, In f comps -> zero_buf z (py * px) f (ghosted g loc) m) ->
  Forall (in_domain dx shift dims loc) nodes -> Forall (fun pos => Forall (inb (global_size dims loc)) (support_points (q_cell dx shift) w pos)) nodes ->
  Lagrangian.map_nodes false dims loc dx shift 2 nodes = Lagrangian.Mapped address ->
  (forall r c f i j, 0 <= r < py * px -> 0 <= c -> nth_error comps (Z.to_nat c) = Some f -> ith_node address r i j -> m r (lag_local address lagf r c i) = force c j) ->
  exists m', SpecBlocking.runs_to (py * px) (spread2 (q_cell dx shift) (q_dist dx shift) wt mul add times0 false py px ny nx g w comps lagf rb cb (local_positions nodes address)) m m' /\
    forall c f v, 0 <= c -> nth_error comps (Z.to_nat c) = Some f ->
      tot (map (fun rI => mul h (mul (m' (fst rI) (f, ravel (ghosted g loc) (snd rI))) (v (ghost_pos dims loc g (fst rI) (snd rI))))) (inner_cells dims loc g)) =
      tot (map (fun j => mul (force c j) (interpolated (q_cell dx shift) (q_dist dx shift) w (mul h) tot mul wt v (node_at nodes j))) (zrange 0 (Z.of_nat (length nodes)))).
Proof.
  intros dims loc H2 Hw Hd Ht Hn B1 B2 B3 Hdom Hsup Ha Hlag. pose proof H2 as (K1 & K2 & K3 & K4 & K5).
  destruct (spread_2d add mul z wt (cs_add _ _ _ _ Hs) times0 py px ny nx g w dx shift nodes address comps lagf rb cb force m (fun _ _ => z) H2 Hw Hd Ht Hn B1 B2 Hdom Ha Hlag) as (m' & R & V & _).
  - intros f r I Hf Hr HI. apply B3; auto. apply GhostGeo.inner_inb; [lia|assumption].
  - intros f r I Hf Hr HI _. apply B3; auto.
  - exists m'. split; [exact R|]. intros c f v Hc Hf.
    apply (adjoint_post dims loc g w dx shift nodes comps force m' v h c f); auto; try lia.
    + split; [reflexivity| |]; repeat constructor; lia.
    + intros c0 f0 r I H0 H1 Hr HI. apply V; auto. cbn in Hr. lia.
Qed.
Lemma spread_sum_3d times0 pz py px n0 n1 n2 g w dx shift nodes address comps lagf bz by_ bx (force : Z -> Z -> T) (m : Z -> Spmd.lmemT) (h : T) :
  let dims := [pz; py; px] in let loc := [n0; n1; n2] in
  KernelList.grid3 pz py px n0 n1 n2 g -> 1 <= w <= g -> (0 < dx)%Q -> (forall x, times0 x = z) -> NoDup (lagf :: comps ++ [bz; by_; bx]) ->
  zero_buf z (pz * py * px) bz [g; n1 + 2 * g; n2 + 2 * g] m -> zero_buf z (pz * py * px) by_ [n0 + 2 * g; g; n2 + 2 * g] m -> zero_buf z (pz * py * px) bx [n0 + 2 * g; n1 + 2 * g; g] m ->
  (forall f, In f comps -> zero_buf z (pz * py * px) f (ghosted g loc) m) ->
  Forall (in_domain dx shift dims loc) nodes -> Forall (fun pos => Forall (inb (global_size dims loc)) (support_points (q_cell dx shift) w pos)) nodes ->
  Lagrangian.map_nodes false dims loc dx shift 3 nodes = Lagrangian.Mapped address ->
  (forall r c f i j, 0 <= r < pz * py * px -> 0 <= c -> nth_error comps (Z.to_nat c) = Some f -> ith_node address r i j -> m r (lag_local address lagf r c i) = force c j) ->
  exists m', SpecBlocking.runs_to (pz * py * px) (spread3 (q_cell dx shift) (q_dist dx shift) wt mul add times0 false pz py px n0 n1 n2 g w comps lagf bz by_ bx (local_positions nodes address)) m m' /\
    forall c f v, 0 <= c -> nth_error comps (Z.to_nat c) = Some f ->
      tot (map (fun rI => mul h (mul (m' (fst rI) (f, ravel (ghosted g loc) (snd rI))) (v (ghost_pos dims loc g (fst rI) (snd rI))))) (inner_cells dims loc g)) =
      tot (map (fun j => mul (force c j) (interpolated (q_cell dx shift) (q_dist dx shift) w (mul h) tot mul wt v (node_at nodes j))) (zrange 0 (Z.of_nat (length nodes)))).
Proof.
  intros dims loc H2 Hw Hd Ht Hn B1 B2 B3 B4 Hdom Hsup Ha Hlag. pose proof H2 as (K1 & K2 & K3 & K4 & K5 & K6 & K7).
  destruct (spread_3d add mul z wt (cs_add _ _ _ _ Hs) times0 pz py px n0 n1 n2 g w dx shift nodes address comps lagf bz by_ bx force m (fun _ _ => z) H2 Hw Hd Ht Hn B1 B2 B3 Hdom Ha Hlag) as (m' & R & V & _).
  - intros f r I Hf Hr HI. apply B4; auto. apply GhostGeo.inner_inb; [lia|assumption].
  - intros f r I Hf Hr HI _. apply B4; auto.
  - exists m'. split; [exact R|]. intros c f v Hc Hf.
    apply (adjoint_post dims loc g w dx shift nodes comps force m' v h c f); auto; try lia.
    + split; [reflexivity| |]; repeat constructor; lia.
    + intros c0 f0 r I H0 H1 Hr HI. apply V; auto. cbn in Hr. lia.
Qed.

(** Unit-sum weights: v = 1. *)
Lemma sum_one (G : Z * list Z -> T) (K : Z -> T) (I1 : Z -> T) L J h :
  tot (map (fun rI => mul h (mul (G rI) one)) L) = tot (map (fun j => mul (K j) (I1 j)) J) -> (forall j, In j J -> I1 j = one) ->
  tot (map (fun rI => mul h (G rI)) L) = tot (map K J).
Proof.
  intros E H. pose proof (cs_mul _ _ _ _ Hs) as Hc. transitivity (tot (map (fun rI => mul h (mul (G rI) one)) L)).
  - f_equal. apply map_ext. intros; f_equal. now rewrite (cm_zero _ _ Hc).
  - rewrite E. f_equal. apply map_ext_in. intros j Hj. rewrite (H j Hj). apply (cm_zero _ _ Hc).
Qed.
End Run.
