(** Property C61: spreading forces in floating-point arithmetic. *)
From Coq Require Import Reals QArith Lra.
From Flocq Require Core.
From Verif Require Import Base SpecGrid SpecGhostSum SpecLag SpecIB SpecRounding SpecRoundoff SpecReady Comm Blocking SpecBlocking Spmd Ghost2D Ghost3D Lagrangian EulLag KernelList.
From Verif Require IBThms RoundoffProofs Simulate RunsTo RoundingProofs RoundoffRefute.
Open Scope Z_scope.

(** C61.  In rounded arithmetic every inner cell ends, under every schedule and on every process grid, with its value plus the
    nodes' contributions up to the rounding of as many additions as nodes reach the cell; ghosts and buffers are zero again. *)
Theorem C61_spreading_2d (F : R -> Prop) (rnd : R -> R) (eps : R) (mul : R -> R -> R) (wt : list Q -> R) times0 py px ny nx g w dx shift nodes address comps lagf rb cb (force : Z -> Z -> R) (m : Z -> @lmem R) (u : nat -> list Z -> R) :
  let dims := [py; px] in let loc := [ny; nx] in
  rounded_sums F rnd eps -> (forall a b, F (mul a b)) -> (forall r a, F (m r a)) ->
  grid2 py px ny nx g -> 1 <= w <= g -> (0 < dx)%Q -> (forall x, times0 x = 0%R) -> NoDup (lagf :: comps ++ [rb; cb]) ->
  zero_buf 0%R (py * px) rb [g; nx + 2 * g] m -> zero_buf 0%R (py * px) cb [ny + 2 * g; g] m ->
  Forall (in_domain dx shift dims loc) nodes -> map_nodes false dims loc dx shift 2 nodes = Mapped address ->
  (forall r c f i j, 0 <= r < py * px -> 0 <= c -> nth_error comps (Z.to_nat c) = Some f -> ith_node address r i j -> m r (lag_local address lagf r c i) = force c j) ->
  (forall f r I, In f comps -> 0 <= r < py * px -> inner g loc I -> m r (f, ravel (ghosted g loc) I) = u f (ghost_pos dims loc g r I)) ->
  (forall f r I, In f comps -> 0 <= r < py * px -> inb (ghosted g loc) I -> ~ inner g loc I -> m r (f, ravel (ghosted g loc) I) = 0%R) ->
  exists m', runs_to (py * px) (spread2 (q_cell dx shift) (q_dist dx shift) wt mul (fun a b => rnd (a + b)%R) times0 false py px ny nx g w comps lagf rb cb (local_positions nodes address)) m m' /\
    (forall c f r I, 0 <= c -> nth_error comps (Z.to_nat c) = Some f -> 0 <= r < py * px -> inner g loc I ->
      let P := ghost_pos dims loc g r I in
      sums_to eps (reached dx shift w nodes P) (u f P) (contributions dx shift w mul wt nodes (force c) P) (m' r (f, ravel (ghosted g loc) I))) /\
    (forall f r I, In f comps -> 0 <= r < py * px -> inb (ghosted g loc) I -> ~ inner g loc I -> m' r (f, ravel (ghosted g loc) I) = 0%R) /\
    (zero_buf 0%R (py * px) rb [g; nx + 2 * g] m' /\ zero_buf 0%R (py * px) cb [ny + 2 * g; g] m') /\
    (forall r x, ~ In (fst x) comps -> ~ In (fst x) [rb; cb] -> m' r x = m r x) /\ (forall r a, F (m' r a)).
Proof.
  intros dims loc. subst dims loc. intros HF HM Hall H2 Hw Hd Ht Hn B1 B2 Hdom Ha Hlag Hu H0.
  assert (NL : forall x, In x (comps ++ [rb; cb]) -> x <> lagf) by (intros x Hx ->; inversion Hn; contradiction).
  set (m2 := fun r (a : addr) => if Nat.eqb (fst a) lagf then RoundoffProofs.leaf (m r a) else RoundoffProofs.conv (m r a)).
  assert (M2 : forall r f k, f <> lagf -> m2 r (f, k) = RoundoffProofs.conv (m r (f, k))) by (intros r f k Hf; unfold m2; cbn [fst]; now rewrite (proj2 (Nat.eqb_neq _ _) Hf)).
  destruct (IBThms.spread_2d RoundoffProofs.tadd (RoundoffProofs.tmul mul) RoundoffProofs.tz (fun d => RoundoffProofs.leaf (wt d)) RoundoffProofs.tri_monoid (fun _ => RoundoffProofs.tz)
    py px ny nx g w dx shift nodes address comps lagf rb cb (fun c j => RoundoffProofs.leaf (force c j)) m2 (fun f P => RoundoffProofs.conv (u f P))) as (m2' & R2 & V2 & G2 & [Z1 Z2] & K2); auto.
  - intros r K Hr HK. rewrite M2 by (apply NL, in_or_app; right; cbn; tauto). rewrite (B1 r K Hr HK). apply RoundoffProofs.conv_zero.
  - intros r K Hr HK. rewrite M2 by (apply NL, in_or_app; right; cbn; tauto). rewrite (B2 r K Hr HK). apply RoundoffProofs.conv_zero.
  - intros r c f i j Hr Hc Hf Hij. unfold m2, lag_local. cbn [fst]. rewrite Nat.eqb_refl. f_equal. exact (Hlag r c f i j Hr Hc Hf Hij).
  - intros f r I Hf Hr HI. rewrite M2 by (apply NL, in_or_app; now left). f_equal. now apply Hu.
  - intros f r I Hf Hr HI HN. rewrite M2 by (apply NL, in_or_app; now left). exact (eq_trans (f_equal RoundoffProofs.conv (H0 f r I Hf Hr HI HN)) RoundoffProofs.conv_zero).
  - destruct (Simulate.runs_rel (RoundoffProofs.rho (RoundoffProofs.near F eps) RoundoffProofs.is_leaf lagf) (RoundoffProofs.moved lagf) (RoundoffProofs.rho_moved (RoundoffProofs.near F eps) RoundoffProofs.is_leaf lagf) (py * px)
      (spread2 (q_cell dx shift) (q_dist dx shift) wt mul (fun a b => rnd (a + b)%R) times0 false py px ny nx g w comps lagf rb cb (local_positions nodes address)) _ m m2 m2' R2) as (m' & R1 & Rel).
    + intros r Hr. apply (RoundoffProofs.spread2_rel (RoundoffProofs.near F eps) RoundoffProofs.is_leaf RoundoffProofs.is_leaf).
      * exact (RoundoffProofs.near_add F rnd eps HF).
      * exact (RoundoffProofs.near_mul F eps mul HM).
      * intros x y. rewrite Ht. exact (RoundoffProofs.near_zero F rnd eps HF).
      * reflexivity.
      * intros f Hf. apply NL, in_or_app. now left.
      * apply NL, in_or_app; right; cbn; tauto.
      * apply NL, in_or_app; right; cbn; tauto.
    + intros r a. unfold m2. unfold RoundoffProofs.rho. destruct (Nat.eqb (fst a) lagf); [reflexivity|]. apply (RoundoffProofs.conv_near F rnd); auto.
    + assert (NR : forall r f k, f <> lagf -> RoundoffProofs.near F eps (m' r (f, k)) (m2' r (f, k))) by (intros r f k Hf; apply (RoundoffProofs.rho_near (RoundoffProofs.near F eps) RoundoffProofs.is_leaf lagf (f, k)); [exact Hf|apply Rel]).
      exists m'. split; [exact R1|]. split; [|split; [|split; [split|split]]].
      * intros c f r I Hc Hf Hr HI P. pose proof (NR r f (ravel (ghosted g [ny; nx]) I) ltac:(apply NL, in_or_app; left; eapply nth_error_In; exact Hf)) as N.
        rewrite (V2 c f r I Hc Hf Hr HI) in N. exact (RoundoffProofs.near_sums F rnd eps HF _ _ _ _ _ N).
      * intros f r I Hf Hr HI HN. pose proof (NR r f (ravel (ghosted g [ny; nx]) I) ltac:(apply NL, in_or_app; now left)) as N. rewrite (G2 f r I Hf Hr HI HN) in N. exact (RoundoffProofs.near_tz F eps _ N).
      * intros r K Hr HK. pose proof (NR r rb (ravel [g; nx + 2 * g] K) ltac:(apply NL, in_or_app; right; cbn; tauto)) as N. rewrite (Z1 r K Hr HK) in N. exact (RoundoffProofs.near_tz F eps _ N).
      * intros r K Hr HK. pose proof (NR r cb (ravel [ny + 2 * g; g] K) ltac:(apply NL, in_or_app; right; cbn; tauto)) as N. rewrite (Z2 r K Hr HK) in N. exact (RoundoffProofs.near_tz F eps _ N).
      * intros r [f k] Hx Hb. pose proof (Rel r (f, k)) as N. rewrite (K2 r (f, k) Hx Hb) in N. unfold m2, RoundoffProofs.rho in N. cbn [fst] in N. destruct (Nat.eqb f lagf); [injection N as N _; now symmetry|exact (RoundoffProofs.near_conv F eps _ _ N)].
      * intros r [f k]. pose proof (Rel r (f, k)) as N. unfold RoundoffProofs.rho in N. cbn [fst] in N. destruct (Nat.eqb_spec f lagf) as [->|_]; [|exact (proj1 N)].
        rewrite (K2 r (lagf, k)) in N; [| |]; try (intros Hx; inversion Hn; apply H3; apply in_or_app; tauto). unfold m2 in N. cbn [fst] in N. rewrite Nat.eqb_refl in N. injection N as N _. rewrite <- N. apply Hall.
Qed.
Theorem C61_spreading_3d (F : R -> Prop) (rnd : R -> R) (eps : R) (mul : R -> R -> R) (wt : list Q -> R) times0 pz py px n0 n1 n2 g w dx shift nodes address comps lagf bz by_ bx (force : Z -> Z -> R) (m : Z -> @lmem R) (u : nat -> list Z -> R) :
  let dims := [pz; py; px] in let loc := [n0; n1; n2] in
  rounded_sums F rnd eps -> (forall a b, F (mul a b)) -> (forall r a, F (m r a)) ->
  grid3 pz py px n0 n1 n2 g -> 1 <= w <= g -> (0 < dx)%Q -> (forall x, times0 x = 0%R) -> NoDup (lagf :: comps ++ [bz; by_; bx]) ->
  zero_buf 0%R (pz * py * px) bz [g; n1 + 2 * g; n2 + 2 * g] m -> zero_buf 0%R (pz * py * px) by_ [n0 + 2 * g; g; n2 + 2 * g] m -> zero_buf 0%R (pz * py * px) bx [n0 + 2 * g; n1 + 2 * g; g] m ->
  Forall (in_domain dx shift dims loc) nodes -> map_nodes false dims loc dx shift 3 nodes = Mapped address ->
  (forall r c f i j, 0 <= r < pz * py * px -> 0 <= c -> nth_error comps (Z.to_nat c) = Some f -> ith_node address r i j -> m r (lag_local address lagf r c i) = force c j) ->
  (forall f r I, In f comps -> 0 <= r < pz * py * px -> inner g loc I -> m r (f, ravel (ghosted g loc) I) = u f (ghost_pos dims loc g r I)) ->
  (forall f r I, In f comps -> 0 <= r < pz * py * px -> inb (ghosted g loc) I -> ~ inner g loc I -> m r (f, ravel (ghosted g loc) I) = 0%R) ->
  exists m', runs_to (pz * py * px) (spread3 (q_cell dx shift) (q_dist dx shift) wt mul (fun a b => rnd (a + b)%R) times0 false pz py px n0 n1 n2 g w comps lagf bz by_ bx (local_positions nodes address)) m m' /\
    (forall c f r I, 0 <= c -> nth_error comps (Z.to_nat c) = Some f -> 0 <= r < pz * py * px -> inner g loc I ->
      let P := ghost_pos dims loc g r I in
      sums_to eps (reached dx shift w nodes P) (u f P) (contributions dx shift w mul wt nodes (force c) P) (m' r (f, ravel (ghosted g loc) I))) /\
    (forall f r I, In f comps -> 0 <= r < pz * py * px -> inb (ghosted g loc) I -> ~ inner g loc I -> m' r (f, ravel (ghosted g loc) I) = 0%R) /\
    (zero_buf 0%R (pz * py * px) bz [g; n1 + 2 * g; n2 + 2 * g] m' /\ zero_buf 0%R (pz * py * px) by_ [n0 + 2 * g; g; n2 + 2 * g] m' /\ zero_buf 0%R (pz * py * px) bx [n0 + 2 * g; n1 + 2 * g; g] m') /\
    (forall r x, ~ In (fst x) comps -> ~ In (fst x) [bz; by_; bx] -> m' r x = m r x) /\ (forall r a, F (m' r a)).
Proof.
  intros dims loc. subst dims loc. intros HF HM Hall H2 Hw Hd Ht Hn B1 B2 B3 Hdom Ha Hlag Hu H0.
  assert (NL : forall x, In x (comps ++ [bz; by_; bx]) -> x <> lagf) by (intros x Hx ->; inversion Hn; contradiction).
  set (m2 := fun r (a : addr) => if Nat.eqb (fst a) lagf then RoundoffProofs.leaf (m r a) else RoundoffProofs.conv (m r a)).
  assert (M2 : forall r f k, f <> lagf -> m2 r (f, k) = RoundoffProofs.conv (m r (f, k))) by (intros r f k Hf; unfold m2; cbn [fst]; now rewrite (proj2 (Nat.eqb_neq _ _) Hf)).
  destruct (IBThms.spread_3d RoundoffProofs.tadd (RoundoffProofs.tmul mul) RoundoffProofs.tz (fun d => RoundoffProofs.leaf (wt d)) RoundoffProofs.tri_monoid (fun _ => RoundoffProofs.tz)
    pz py px n0 n1 n2 g w dx shift nodes address comps lagf bz by_ bx (fun c j => RoundoffProofs.leaf (force c j)) m2 (fun f P => RoundoffProofs.conv (u f P))) as (m2' & R2 & V2 & G2 & (Z1 & Z2 & Z3) & K2); auto.
  - intros r K Hr HK. rewrite M2 by (apply NL, in_or_app; right; cbn; tauto). rewrite (B1 r K Hr HK). apply RoundoffProofs.conv_zero.
  - intros r K Hr HK. rewrite M2 by (apply NL, in_or_app; right; cbn; tauto). rewrite (B2 r K Hr HK). apply RoundoffProofs.conv_zero.
  - intros r K Hr HK. rewrite M2 by (apply NL, in_or_app; right; cbn; tauto). rewrite (B3 r K Hr HK). apply RoundoffProofs.conv_zero.
  - intros r c f i j Hr Hc Hf Hij. unfold m2, lag_local. cbn [fst]. rewrite Nat.eqb_refl. f_equal. exact (Hlag r c f i j Hr Hc Hf Hij).
  - intros f r I Hf Hr HI. rewrite M2 by (apply NL, in_or_app; now left). f_equal. now apply Hu.
  - intros f r I Hf Hr HI HN. rewrite M2 by (apply NL, in_or_app; now left). exact (eq_trans (f_equal RoundoffProofs.conv (H0 f r I Hf Hr HI HN)) RoundoffProofs.conv_zero).
  - destruct (Simulate.runs_rel (RoundoffProofs.rho (RoundoffProofs.near F eps) RoundoffProofs.is_leaf lagf) (RoundoffProofs.moved lagf) (RoundoffProofs.rho_moved (RoundoffProofs.near F eps) RoundoffProofs.is_leaf lagf) (pz * py * px)
      (spread3 (q_cell dx shift) (q_dist dx shift) wt mul (fun a b => rnd (a + b)%R) times0 false pz py px n0 n1 n2 g w comps lagf bz by_ bx (local_positions nodes address)) _ m m2 m2' R2) as (m' & R1 & Rel).
    + intros r Hr. apply (RoundoffProofs.spread3_rel (RoundoffProofs.near F eps) RoundoffProofs.is_leaf RoundoffProofs.is_leaf).
      * exact (RoundoffProofs.near_add F rnd eps HF).
      * exact (RoundoffProofs.near_mul F eps mul HM).
      * intros x y. rewrite Ht. exact (RoundoffProofs.near_zero F rnd eps HF).
      * reflexivity.
      * intros f Hf. apply NL, in_or_app. now left.
      * apply NL, in_or_app; right; cbn; tauto.
      * apply NL, in_or_app; right; cbn; tauto.
      * apply NL, in_or_app; right; cbn; tauto.
    + intros r a. unfold m2. unfold RoundoffProofs.rho. destruct (Nat.eqb (fst a) lagf); [reflexivity|]. apply (RoundoffProofs.conv_near F rnd); auto.
    + assert (NR : forall r f k, f <> lagf -> RoundoffProofs.near F eps (m' r (f, k)) (m2' r (f, k))) by (intros r f k Hf; apply (RoundoffProofs.rho_near (RoundoffProofs.near F eps) RoundoffProofs.is_leaf lagf (f, k)); [exact Hf|apply Rel]).
      exists m'. split; [exact R1|]. split; [|split; [|split; [split; [|split]|split]]].
      * intros c f r I Hc Hf Hr HI P. pose proof (NR r f (ravel (ghosted g [n0; n1; n2]) I) ltac:(apply NL, in_or_app; left; eapply nth_error_In; exact Hf)) as N.
        rewrite (V2 c f r I Hc Hf Hr HI) in N. exact (RoundoffProofs.near_sums F rnd eps HF _ _ _ _ _ N).
      * intros f r I Hf Hr HI HN. pose proof (NR r f (ravel (ghosted g [n0; n1; n2]) I) ltac:(apply NL, in_or_app; now left)) as N. rewrite (G2 f r I Hf Hr HI HN) in N. exact (RoundoffProofs.near_tz F eps _ N).
      * intros r K Hr HK. pose proof (NR r bz (ravel [g; n1 + 2 * g; n2 + 2 * g] K) ltac:(apply NL, in_or_app; right; cbn; tauto)) as N. rewrite (Z1 r K Hr HK) in N. exact (RoundoffProofs.near_tz F eps _ N).
      * intros r K Hr HK. pose proof (NR r by_ (ravel [n0 + 2 * g; g; n2 + 2 * g] K) ltac:(apply NL, in_or_app; right; cbn; tauto)) as N. rewrite (Z2 r K Hr HK) in N. exact (RoundoffProofs.near_tz F eps _ N).
      * intros r K Hr HK. pose proof (NR r bx (ravel [n0 + 2 * g; n1 + 2 * g; g] K) ltac:(apply NL, in_or_app; right; cbn; tauto)) as N. rewrite (Z3 r K Hr HK) in N. exact (RoundoffProofs.near_tz F eps _ N).
      * intros r [f k] Hx Hb. pose proof (Rel r (f, k)) as N. rewrite (K2 r (f, k) Hx Hb) in N. unfold m2, RoundoffProofs.rho in N. cbn [fst] in N. destruct (Nat.eqb f lagf); [injection N as N _; now symmetry|exact (RoundoffProofs.near_conv F eps _ _ N)].
      * intros r [f k]. pose proof (Rel r (f, k)) as N. unfold RoundoffProofs.rho in N. cbn [fst] in N. destruct (Nat.eqb_spec f lagf) as [->|_]; [|exact (proj1 N)].
        rewrite (K2 r (lagf, k)) in N; [| |]; try (intros Hx; inversion Hn; apply H3; apply in_or_app; tauto). unfold m2 in N. cbn [fst] in N. rewrite Nat.eqb_refl in N. injection N as N _. rewrite <- N. apply Hall.
Qed.

Lemma sums_differ eps n base l x y : sums_to eps n base l x -> sums_to eps n base l y -> (Rabs (x - y) <= 2 * (((1 + eps) ^ n - 1) * (Rabs base + magnitude l)))%R.
Proof.
  unfold sums_to. intros H1 H2. set (e := (base + exact_sum l)%R) in *. replace (x - y)%R with ((x - e) + - (y - e))%R by ring. pose proof (Rabs_triang (x - e) (- (y - e))) as Tr. rewrite Rabs_Ropp in Tr. lra.
Qed.

(** On two process grids (of whatever shapes and ghost sizes) the values at one position differ only by the rounding of the additions. *)
Theorem C61_grids_agree_2d (F : R -> Prop) (rnd : R -> R) (eps : R) (mul : R -> R -> R) (wt : list Q -> R) times0 w dx shift nodes comps lagf rb cb (force : Z -> Z -> R) (u : nat -> list Z -> R)
    py1 px1 ny1 nx1 g1 ad1 m1 m1' py2 px2 ny2 nx2 g2 ad2 m2 m2' :
  rounded_sums F rnd eps -> (forall a b, F (mul a b)) -> (forall x, times0 x = 0%R) -> (0 < dx)%Q ->
  grid2 py1 px1 ny1 nx1 g1 -> 1 <= w <= g1 -> grid2 py2 px2 ny2 nx2 g2 -> 1 <= w <= g2 ->
  ready F [py1; px1] [ny1; nx1] g1 dx shift nodes ad1 comps lagf (buffers_2d ny1 nx1 g1 rb cb) force u m1 ->
  ready F [py2; px2] [ny2; nx2] g2 dx shift nodes ad2 comps lagf (buffers_2d ny2 nx2 g2 rb cb) force u m2 ->
  runs_to (py1 * px1) (spread2 (q_cell dx shift) (q_dist dx shift) wt mul (fun a b => rnd (a + b)%R) times0 false py1 px1 ny1 nx1 g1 w comps lagf rb cb (local_positions nodes ad1)) m1 m1' ->
  runs_to (py2 * px2) (spread2 (q_cell dx shift) (q_dist dx shift) wt mul (fun a b => rnd (a + b)%R) times0 false py2 px2 ny2 nx2 g2 w comps lagf rb cb (local_positions nodes ad2)) m2 m2' ->
  forall c f r1 I1 r2 I2 P, 0 <= c -> nth_error comps (Z.to_nat c) = Some f ->
    0 <= r1 < (py1 * px1) -> inner g1 [ny1; nx1] I1 -> ghost_pos [py1; px1] [ny1; nx1] g1 r1 I1 = P ->
    0 <= r2 < (py2 * px2) -> inner g2 [ny2; nx2] I2 -> ghost_pos [py2; px2] [ny2; nx2] g2 r2 I2 = P ->
    (Rabs (m1' r1 (f, ravel (ghosted g1 [ny1; nx1]) I1) - m2' r2 (f, ravel (ghosted g2 [ny2; nx2]) I2)) <=
      2 * (((1 + eps) ^ reached dx shift w nodes P - 1) * (Rabs (u f P) + magnitude (contributions dx shift w mul wt nodes (force c) P))))%R.
Proof.
  intros HF HM Ht Hd G1 W1 G2 W2 R1 R2 S1 S2 c f r1 I1 r2 I2 P Hc Hf Hr1 HI1 HP1 Hr2 HI2 HP2.
  assert (N1 : zprod [py1; px1] = (py1 * px1)) by (cbn [zprod fold_right]; ring).
  destruct (C61_spreading_2d F rnd eps mul wt times0 py1 px1 ny1 nx1 g1 w dx shift nodes ad1 comps lagf rb cb force m1 u) as (x1 & X1 & V1 & _); try assumption; try (rewrite <- N1); try (destruct R1; assumption).
  { destruct R1 as [_ _ HB _ _ _ _ _]. apply HB. now left. }
  { destruct R1 as [_ _ HB _ _ _ _ _]. apply HB. right; now left. }
  pose proof (RunsTo.runs_to_det _ _ _ _ _ X1 S1) as E1. subst x1. specialize (V1 c f r1 I1 Hc Hf Hr1 HI1). cbv zeta in V1. rewrite HP1 in V1.
  assert (N2 : zprod [py2; px2] = (py2 * px2)) by (cbn [zprod fold_right]; ring).
  destruct (C61_spreading_2d F rnd eps mul wt times0 py2 px2 ny2 nx2 g2 w dx shift nodes ad2 comps lagf rb cb force m2 u) as (x2 & X2 & V2 & _); try assumption; try (rewrite <- N2); try (destruct R2; assumption).
  { destruct R2 as [_ _ HB _ _ _ _ _]. apply HB. now left. }
  { destruct R2 as [_ _ HB _ _ _ _ _]. apply HB. right; now left. }
  pose proof (RunsTo.runs_to_det _ _ _ _ _ X2 S2) as E2. subst x2. specialize (V2 c f r2 I2 Hc Hf Hr2 HI2). cbv zeta in V2. rewrite HP2 in V2.
  exact (sums_differ _ _ _ _ _ _ V1 V2).
Qed.

(** On two process grids (of whatever shapes and ghost sizes) the values at one position differ only by the rounding of the additions. *)
Theorem C61_grids_agree_3d (F : R -> Prop) (rnd : R -> R) (eps : R) (mul : R -> R -> R) (wt : list Q -> R) times0 w dx shift nodes comps lagf bz by_ bx (force : Z -> Z -> R) (u : nat -> list Z -> R)
    pz1 py1 px1 nz1 ny1 nx1 g1 ad1 m1 m1' pz2 py2 px2 nz2 ny2 nx2 g2 ad2 m2 m2' :
  rounded_sums F rnd eps -> (forall a b, F (mul a b)) -> (forall x, times0 x = 0%R) -> (0 < dx)%Q ->
  grid3 pz1 py1 px1 nz1 ny1 nx1 g1 -> 1 <= w <= g1 -> grid3 pz2 py2 px2 nz2 ny2 nx2 g2 -> 1 <= w <= g2 ->
  ready F [pz1; py1; px1] [nz1; ny1; nx1] g1 dx shift nodes ad1 comps lagf (buffers_3d nz1 ny1 nx1 g1 bz by_ bx) force u m1 ->
  ready F [pz2; py2; px2] [nz2; ny2; nx2] g2 dx shift nodes ad2 comps lagf (buffers_3d nz2 ny2 nx2 g2 bz by_ bx) force u m2 ->
  runs_to (pz1 * py1 * px1) (spread3 (q_cell dx shift) (q_dist dx shift) wt mul (fun a b => rnd (a + b)%R) times0 false pz1 py1 px1 nz1 ny1 nx1 g1 w comps lagf bz by_ bx (local_positions nodes ad1)) m1 m1' ->
  runs_to (pz2 * py2 * px2) (spread3 (q_cell dx shift) (q_dist dx shift) wt mul (fun a b => rnd (a + b)%R) times0 false pz2 py2 px2 nz2 ny2 nx2 g2 w comps lagf bz by_ bx (local_positions nodes ad2)) m2 m2' ->
  forall c f r1 I1 r2 I2 P, 0 <= c -> nth_error comps (Z.to_nat c) = Some f ->
    0 <= r1 < (pz1 * py1 * px1) -> inner g1 [nz1; ny1; nx1] I1 -> ghost_pos [pz1; py1; px1] [nz1; ny1; nx1] g1 r1 I1 = P ->
    0 <= r2 < (pz2 * py2 * px2) -> inner g2 [nz2; ny2; nx2] I2 -> ghost_pos [pz2; py2; px2] [nz2; ny2; nx2] g2 r2 I2 = P ->
    (Rabs (m1' r1 (f, ravel (ghosted g1 [nz1; ny1; nx1]) I1) - m2' r2 (f, ravel (ghosted g2 [nz2; ny2; nx2]) I2)) <=
      2 * (((1 + eps) ^ reached dx shift w nodes P - 1) * (Rabs (u f P) + magnitude (contributions dx shift w mul wt nodes (force c) P))))%R.
Proof.
  intros HF HM Ht Hd G1 W1 G2 W2 R1 R2 S1 S2 c f r1 I1 r2 I2 P Hc Hf Hr1 HI1 HP1 Hr2 HI2 HP2.
  assert (N1 : zprod [pz1; py1; px1] = (pz1 * py1 * px1)) by (cbn [zprod fold_right]; ring).
  destruct (C61_spreading_3d F rnd eps mul wt times0 pz1 py1 px1 nz1 ny1 nx1 g1 w dx shift nodes ad1 comps lagf bz by_ bx force m1 u) as (x1 & X1 & V1 & _); try assumption; try (rewrite <- N1); try (destruct R1; assumption).
  { destruct R1 as [_ _ HB _ _ _ _ _]. apply HB. now left. }
  { destruct R1 as [_ _ HB _ _ _ _ _]. apply HB. right; now left. }
  { destruct R1 as [_ _ HB _ _ _ _ _]. apply HB. right; right; now left. }
  pose proof (RunsTo.runs_to_det _ _ _ _ _ X1 S1) as E1. subst x1. specialize (V1 c f r1 I1 Hc Hf Hr1 HI1). cbv zeta in V1. rewrite HP1 in V1.
  assert (N2 : zprod [pz2; py2; px2] = (pz2 * py2 * px2)) by (cbn [zprod fold_right]; ring).
  destruct (C61_spreading_3d F rnd eps mul wt times0 pz2 py2 px2 nz2 ny2 nx2 g2 w dx shift nodes ad2 comps lagf bz by_ bx force m2 u) as (x2 & X2 & V2 & _); try assumption; try (rewrite <- N2); try (destruct R2; assumption).
  { destruct R2 as [_ _ HB _ _ _ _ _]. apply HB. now left. }
  { destruct R2 as [_ _ HB _ _ _ _ _]. apply HB. right; now left. }
  { destruct R2 as [_ _ HB _ _ _ _ _]. apply HB. right; right; now left. }
  pose proof (RunsTo.runs_to_det _ _ _ _ _ X2 S2) as E2. subst x2. specialize (V2 c f r2 I2 Hc Hf Hr2 HI2). cbv zeta in V2. rewrite HP2 in V2.
  exact (sums_differ _ _ _ _ _ _ V1 V2).
Qed.

(** Binary64 (no overflow) is such an arithmetic, with eps = 2^-53. *)
Theorem C61_binary64 : rounded_sums is_double b64 (Flocq.Core.Raux.bpow Flocq.Core.Zaux.radix2 (-53)).
Proof. exact RoundoffRefute.b64_sums. Qed.

(** Finding: the rounding does depend on the process grid.  Three nodes with forces 2^53, 1 and 1 (weights 1) reach one cell; one rank
    adds them one after the other (2^53), two ranks add the two small ones first, in the ghost row (2^53 + 2). *)
Theorem C61_bitwise_refuted : exists (nodes : list (list Q)) (force : Z -> Z -> R) (ad1 ad2 : list Z) (m1 m1' m2 m2' : Z -> @lmem R),
  let prog py px ny nx ad := spread2 (q_cell 1 0) (q_dist 1 0) (fun _ => 1%R) (fun a b => b64 (a * b)) (fun a b => b64 (a + b)) (fun _ => 0%R) false py px ny nx 1 1 [1%nat] 0%nat 2%nat 3%nat (local_positions nodes ad) in
  ready is_double [1; 1] [4; 2] 1 1 0 nodes ad1 [1%nat] 0%nat (buffers_2d 4 2 1 2 3) force (fun _ _ => 0%R) m1 /\
  ready is_double [2; 1] [2; 2] 1 1 0 nodes ad2 [1%nat] 0%nat (buffers_2d 2 2 1 2 3) force (fun _ _ => 0%R) m2 /\
  runs_to 1 (prog 1 1 4 2 ad1) m1 m1' /\ runs_to 2 (prog 2 1 2 2 ad2) m2 m2' /\
  ghost_pos [1; 1] [4; 2] 1 0 [3; 1] = ghost_pos [2; 1] [2; 2] 1 1 [1; 1] /\
  m1' 0 (1%nat, ravel (ghosted 1 [4; 2]) [3; 1]) <> m2' 1 (1%nat, ravel (ghosted 1 [2; 2]) [1; 1]).
Proof.
  destruct RoundoffRefute.one_rank as (m1' & R1 & V1). destruct RoundoffRefute.two_ranks as (m2' & R2 & V2).
  exists RoundoffRefute.ex_nodes, (fun _ j => IZR (RoundoffRefute.ex_force j)), [0; 0; 0], [1; 0; 0], (fun r a => IZR (RoundoffRefute.ex_mem [0; 0; 0] r a)), m1', (fun r a => IZR (RoundoffRefute.ex_mem [1; 0; 0] r a)), m2'.
  intros prog. split; [exact RoundoffRefute.ready_one|]. split; [exact RoundoffRefute.ready_two|]. split; [exact R1|]. split; [exact R2|]. split; [reflexivity|].
  change (ghosted 1 [4; 2]) with [6; 4]. change (ghosted 1 [2; 2]) with [4; 4]. rewrite V1, V2. intros E. apply eq_IZR in E. discriminate.
Qed.

(** The hypotheses hold: the two grids of the finding are ready, so their results (which differ by 2) obey the bound; and two 3D grids. *)
Example C61_nonvacuous_2d : exists m1' m2' : Z -> @lmem R,
  m1' 0 (1%nat, ravel (ghosted 1 [4; 2]) [3; 1]) <> m2' 1 (1%nat, ravel (ghosted 1 [2; 2]) [1; 1]) /\
  (Rabs (m1' 0%Z (1%nat, (ravel (ghosted 1 [4; 2]) [3; 1])%Z) - m2' 1%Z (1%nat, (ravel (ghosted 1 [2; 2]) [1; 1])%Z)) <=
    2 * (((1 + Flocq.Core.Raux.bpow Flocq.Core.Zaux.radix2 (-53)) ^ 3 - 1) * (Rabs 0 + magnitude (contributions 1 0 1 (fun a b => b64 (a * b)) (fun _ => 1) RoundoffRefute.ex_nodes (fun j => IZR (RoundoffRefute.ex_force j)) [2; 0]%Z))))%R.
Proof.
  destruct RoundoffRefute.one_rank as (m1' & R1 & V1). destruct RoundoffRefute.two_ranks as (m2' & R2 & V2). exists m1', m2'. split.
  - change (ghosted 1 [4; 2]) with [6; 4]. change (ghosted 1 [2; 2]) with [4; 4]. rewrite V1, V2. intros E. apply eq_IZR in E. discriminate.
  - refine (C61_grids_agree_2d is_double b64 _ (fun a b => b64 (a * b)) (fun _ => 1%R) (fun _ => 0%R) 1 1 0 RoundoffRefute.ex_nodes [1%nat] 0%nat 2%nat 3%nat (fun _ j => IZR (RoundoffRefute.ex_force j)) (fun _ _ => 0%R)
      1 1 4 2 1 [0; 0; 0] _ m1' 2 1 2 2 1 [1; 0; 0] _ m2' C61_binary64 (fun a b => RoundingProofs.b64_double (a * b)) (fun _ => eq_refl) _ _ _ _ _ RoundoffRefute.ready_one RoundoffRefute.ready_two R1 R2 0 1%nat 0 [3; 1] 1 [1; 1] [2; 0] _ _ _ _ _ _ _ _); try reflexivity; try (unfold grid2; lia); try lia.
    all: repeat constructor; lia.
Qed.
Example C61_nonvacuous_3d : ready is_double [1; 1; 1] [4; 2; 2] 1 1 0 RoundoffRefute.ex_nodes_3d [0; 0; 0] [1%nat] 0%nat (buffers_3d 4 2 2 1 2 3 4) (fun _ j => IZR (RoundoffRefute.ex_force j)) (fun _ _ => 0%R) (fun r a => IZR (RoundoffRefute.ex_mem [0; 0; 0] r a)) /\
  ready is_double [2; 1; 1] [2; 2; 2] 1 1 0 RoundoffRefute.ex_nodes_3d [1; 0; 0] [1%nat] 0%nat (buffers_3d 2 2 2 1 2 3 4) (fun _ j => IZR (RoundoffRefute.ex_force j)) (fun _ _ => 0%R) (fun r a => IZR (RoundoffRefute.ex_mem [1; 0; 0] r a)).
Proof. split; apply RoundoffRefute.ready_3d; tauto. Qed.

Print Assumptions C61_spreading_2d.
Print Assumptions C61_spreading_3d.
Print Assumptions C61_grids_agree_2d.
Print Assumptions C61_grids_agree_3d.
Print Assumptions C61_binary64.
Print Assumptions C61_bitwise_refuted.
