(** Theorems about interpolation and spreading with rational node positions. *)
From Coq Require Import QArith Qround FunctionalExtensionality.
From Verif Require Import Base SpecGrid SpecPenalise SpecGhost SpecGhostSum SpecStencil SpecIB SpecLag Cart CartFacts Comm Blocking Spmd SpecBlocking BlockFacts Ghost2D
  Stencil StencilProofs HaloProofs FieldProofs KernelList GhostSum GhostSumHops StageRun RunsTo EulLag LagProofs StepProofs SpecStep PenaliseProofs GhostSumThms EulLagProofs EulLagThms SpreadProofs Lagrangian.
Open Scope Z_scope.
Arguments run_lops : simpl never.
Arguments addr_eq : simpl never.

Lemma nodup_app_l {A} (l k : list A) : NoDup (l ++ k) -> NoDup l.
Proof. induction l as [|a l IH]; cbn; intros H; [constructor|]. inversion H; subst. constructor; auto. intros Hi. apply H2. apply in_app_iff. now left. Qed.
Lemma nodup_app_r {A} (l k : list A) : NoDup (l ++ k) -> NoDup k.
Proof. induction l as [|a l IH]; cbn; intros H; [exact H|]. inversion H; subst. auto. Qed.

(** A node in rank r's half-open block has its home cell there. *)
Lemma q_floor_range dx x s l : (0 < dx)%Q -> (dx * inject_Z s <= x)%Q -> (x < dx * inject_Z (s + l))%Q -> s <= Qfloor (x / dx) < s + l.
Proof.
  intros Hd H1 H2. assert (H1' : (inject_Z s <= x / dx)%Q). { apply Qle_shift_div_l; auto. now rewrite Qmult_comm. }
  assert (H2' : (x / dx < inject_Z (s + l))%Q). { apply Qlt_shift_div_r; auto. now rewrite Qmult_comm. }
  split.
  - rewrite <- (Qfloor_Z s). now apply Qfloor_resp_le.
  - pose proof (Qfloor_le (x / dx)). assert (inject_Z (Qfloor (x / dx)) < inject_Z (s + l))%Q by (eapply Qle_lt_trans; eauto). now rewrite <- Zlt_Qlt in H0.
Qed.
Lemma in_block_home dx shift dims loc r pos : (0 < dx)%Q -> in_block dx shift dims loc r pos -> node_in_block (q_cell dx shift) dims loc r pos.
Proof.
  intros Hd H. unfold in_block, rel in H. unfold node_in_block, home. revert H. generalize (rev pos), (block_start dims loc r). intros ps ss. revert ss loc.
  induction ps as [|p ps IH]; intros ss ls H; cbn [map] in *; inversion H; subst; constructor.
  - unfold q_cell. now apply q_floor_range.
  - now apply IH.
Qed.

Section E.
Context {T : Type}.
(** After an exchange that refreshed the cell, an (owned) position carries the global value. *)
Lemma exchanged_value per dims loc g F (m : mem T) u r f J : grid_ok dims loc -> 0 <= r < zprod dims -> represents dims loc g F m u -> In f F -> inb (ghosted g loc) J ->
  per = true \/ inb (global_size dims loc) (ghost_pos dims loc g r J) ->
  refreshed m per dims loc g r f J = u f (norm per (global_size dims loc) (ghost_pos dims loc g r J)).
Proof.
  intros Hg Hr Hu Hf HJ Hp.
  assert (HlJ : length J = length loc) by (apply inb_length in HJ; unfold ghosted in HJ; rewrite map_length in HJ; lia).
  assert (HlP : length (ghost_pos dims loc g r J) = length (global_size dims loc)) by (apply gp_length; auto; apply Hg).
  destruct (wrapv per (global_size dims loc) (ghost_pos dims loc g r J)) as [q|] eqn:E.
  - rewrite <- (wrapv_norm _ _ _ _ HlP E). eapply refreshed_global; eauto.
  - exfalso. destruct Hp as [-> |Hp].
    + apply wrapv_none_per in E. discriminate.
    + rewrite (wrapv_in _ _ _ Hp) in E. discriminate.
Qed.
End E.

(** ** Interpolation *)
Section I.
Context {C D T : Type}.
Variables (cell : C -> Z) (dist : Z -> C -> D) (wt : list D -> T) (scale : T -> T) (sum : list T -> T) (mul : T -> T -> T).
Variables (per : bool) (dims loc : list Z) (g w : Z) (F : list nat).
Hypothesis Hg : grid_ok dims loc.
Hypothesis Hw : 1 <= w <= g.
Notation N := (global_size dims loc).
Notation e2l := (e2l_lops cell dist wt scale sum mul dims loc g w).
Notation interp u pos := (interpolated cell dist w scale sum mul wt (fun P => u (norm per N P)) pos).

Lemma interp_full (m m' : mem T) u r comps lagf nodes c f i pos :
  full_exchanged per dims loc g F m m' -> represents dims loc g F m u -> 0 <= r < zprod dims -> (forall f, In f comps -> In f F) -> ~ In lagf comps ->
  0 <= c -> nth_error comps (Z.to_nat c) = Some f -> 0 <= i -> nth_error nodes (Z.to_nat i) = Some pos -> node_in_block cell dims loc r pos ->
  per = true \/ Forall (inb N) (support_points cell w pos) ->
  run_lops (e2l r comps lagf nodes) (fun a => m' (r, a)) (lagf, c * Z.of_nat (length nodes) + i) = interp (u f) pos.
Proof.
  intros Hx Hu Hr HF Hlag H0 Hc H1 Hi Hb Hd.
  apply (e2l_correct cell dist wt dims loc g w Hg Hw scale sum mul r comps lagf nodes _ (fun P => u f (norm per N P)) c f i pos); auto.
  intros J HJ HP. assert (Hf : In f F) by (apply HF; eapply nth_error_In; eauto).
  pose proof (Hx r f J Hr HJ) as E. unfold field in E at 1. etransitivity; [exact E|]. clear E. destruct (in_dec Nat.eq_dec f F); [|contradiction].
  apply (exchanged_value per dims loc g F); auto. destruct Hd as [-> |Hd]; [now left|right]. rewrite Forall_forall in Hd. now apply Hd.
Qed.

(** Face-only exchange: enough if at most one axis is distributed. *)
Lemma one_axis_ghosts (r : Z) J : 0 <= r < zprod dims -> (length (filter (fun d => (1 <? d)%Z) dims) <= 1)%nat -> inb (ghosted g loc) J -> inb N (ghost_pos dims loc g r J) -> (ghost_axes g loc J <= 1)%nat.
Proof.
  intros Hr Hone HJ HP.
  assert (Hc : inb dims (unravel dims r)) by (apply unravel_inb; auto; apply Hg).
  assert (G : (ghost_axes g loc J <= length (filter (fun d => (1 <? d)%Z) dims))%nat); [|lia].
  unfold ghost_pos, block_start, global_size in HP. pose proof (ok_len _ _ Hg) as Hl. pose proof (ok_loc _ _ Hg) as Hp. revert Hc HJ HP Hl Hp. generalize (unravel dims r). clear.
  intros cs Hc. revert loc J. induction Hc as [|d ds c cs Hcd Hc IH]; intros [|k l] J HJ HP Hl Hp; cbn in Hl; try discriminate.
  - cbn in HJ. inversion HJ; subst. cbn. lia.
  - unfold ghosted in HJ. cbn [map] in HJ. inversion HJ as [|? ? j J' Hj HJ']; subst. inversion Hp as [|? ? Hk Hp']; subst. cbn in HP. inversion HP as [|? ? ? ? HP1 HP2]; subst.
    specialize (IH l J' HJ' HP2 ltac:(lia) Hp'). cbn [ghost_axes filter]. 
    destruct ((j <? g) || (g + k <=? j)) eqn:E.
    + apply orb_true_iff in E. rewrite Z.ltb_lt, Z.leb_le in E. assert (1 <? d = true) as ->. { apply Z.ltb_lt. nia. } cbn [length]. lia.
    + destruct (1 <? d); cbn [length]; lia.
Qed.

Lemma interp_face (m m' : mem T) u r comps lagf nodes c f i pos :
  per = false -> face_exchanged per dims loc g F m m' -> (length (filter (fun d => (1 <? d)%Z) dims) <= 1)%nat ->
  represents dims loc g F m u -> 0 <= r < zprod dims -> (forall f, In f comps -> In f F) -> ~ In lagf comps ->
  0 <= c -> nth_error comps (Z.to_nat c) = Some f -> 0 <= i -> nth_error nodes (Z.to_nat i) = Some pos -> node_in_block cell dims loc r pos ->
  Forall (inb N) (support_points cell w pos) ->
  run_lops (e2l r comps lagf nodes) (fun a => m' (r, a)) (lagf, c * Z.of_nat (length nodes) + i) = interp (u f) pos.
Proof.
  intros Ep Hx Hone Hu Hr HF Hlag H0 Hc H1 Hi Hb Hd.
  apply (e2l_correct cell dist wt dims loc g w Hg Hw scale sum mul r comps lagf nodes _ (fun P => u f (norm per N P)) c f i pos); auto.
  intros J HJ HP. assert (Hf : In f F) by (apply HF; eapply nth_error_In; eauto). rewrite Forall_forall in Hd. specialize (Hd _ HP).
  pose proof (Hx r f J Hr HJ) as E. unfold field in E at 1. etransitivity; [exact E|]. clear E. destruct (in_dec Nat.eq_dec f F); [|contradiction].
  pose proof (one_axis_ghosts r J Hr Hone HJ Hd) as Hga. apply Nat.leb_le in Hga. rewrite Hga.
  apply (exchanged_value per dims loc g F); auto.
Qed.
End I.

(** ** Spreading *)
Section Sp.
Context {T : Type}.
Variables (add mul : T -> T -> T) (z : T) (wt : list Q -> T).
Hypothesis Hm : comm_monoid add z.

(** What the distributed spreading must produce (specification used by the theorems). *)

Lemma local_in_block dims loc dx shift nodes address : (0 < dx)%Q -> grid_ok dims loc -> Forall (in_domain dx shift dims loc) nodes ->
  map_nodes false dims loc dx shift (Z.of_nat (length dims)) nodes = Mapped address ->
  length address = length nodes /\ Forall (fun r => 0 <= r < zprod dims) address /\
  forall r, 0 <= r < zprod dims -> Forall (node_in_block (q_cell dx shift) dims loc r) (local_positions nodes address r).
Proof.
  intros Hd Hg Hn Ha. destruct (map_in_domain false dims loc dx shift Hd nodes Hg Hn) as (a' & E & H). rewrite E in Ha. injection Ha as ->.
  assert (Hl : length address = length nodes) by (clear -H; induction H; cbn; congruence).
  assert (G : forall j, (j < length nodes)%nat -> 0 <= nth j address (-1) < zprod dims /\ in_block dx shift dims loc (nth j address (-1)) (nth j nodes [])).
  { clear -H. induction H as [|p a ps as_ Hpa H IH]; intros [|j] Hj; cbn in *; try lia; [tauto|]. apply IH. lia. }
  split; [exact Hl|]. split.
  - apply Forall_forall. intros a Ha. apply (In_nth _ _ (-1)) in Ha as (j & Hj & <-). apply G. lia.
  - intros r Hr. apply Forall_forall. intros p Hp. unfold local_positions in Hp. apply in_map_iff in Hp as (j & <- & Hj). apply nodes_of_In in Hj as [Hj1 Hj2].
    apply in_block_home; auto. unfold node_at. rewrite <- Hj2. apply G. lia.
Qed.

Lemma spread_post dims loc g w dx shift nodes address comps lagf (bufs : list nat) (Z0 : (Z -> @lmemT T) -> Prop) (gs : nat -> Z -> list (@bop T)) (force : Z -> Z -> T) (m : Z -> @lmemT T) (u : nat -> list Z -> T) :
  grid_ok dims loc -> 1 <= w <= g -> (0 < dx)%Q ->
  (forall f m, In f comps -> Z0 m -> exists m', runs_to (zprod dims) (gs f) m m' /\ sums add z dims loc g f m m' /\ Z0 m' /\ forall r x, fst x <> f -> ~ In (fst x) bufs -> m' r x = m r x) ->
  (forall m1 m2 : Z -> @lmemT T, (forall r x, In (fst x) bufs -> m1 r x = m2 r x) -> Z0 m1 -> Z0 m2) ->
  NoDup (lagf :: comps ++ bufs) -> Z0 m ->
  Forall (in_domain dx shift dims loc) nodes -> map_nodes false dims loc dx shift (Z.of_nat (length dims)) nodes = Mapped address ->
  (forall r c f i j, 0 <= r < zprod dims -> 0 <= c -> nth_error comps (Z.to_nat c) = Some f -> ith_node address r i j -> m r (lag_local address lagf r c i) = force c j) ->
  (forall f r I, In f comps -> 0 <= r < zprod dims -> inner g loc I -> m r (f, ravel (ghosted g loc) I) = u f (ghost_pos dims loc g r I)) ->
  (forall f r I, In f comps -> 0 <= r < zprod dims -> inb (ghosted g loc) I -> ~ inner g loc I -> m r (f, ravel (ghosted g loc) I) = z) ->
  exists m', runs_to (zprod dims) (fun r => BLocal (run_lops (l2e_lops (q_cell dx shift) (q_dist dx shift) wt mul add dims loc g w r comps lagf (local_positions nodes address r))) :: flat_map (fun f => gs f r) comps) m m' /\
    (forall c f r I, 0 <= c -> nth_error comps (Z.to_nat c) = Some f -> 0 <= r < zprod dims -> inner g loc I ->
      m' r (f, ravel (ghosted g loc) I) = add (u f (ghost_pos dims loc g r I))
         (total add z (map (fun j => contribution (q_cell dx shift) (q_dist dx shift) w z mul wt (node_at nodes j) (force c j) (ghost_pos dims loc g r I)) (zrange 0 (Z.of_nat (length nodes)))))) /\
    (forall f r I, In f comps -> 0 <= r < zprod dims -> inb (ghosted g loc) I -> ~ inner g loc I -> m' r (f, ravel (ghosted g loc) I) = z) /\ Z0 m' /\
    (forall r x, ~ In (fst x) comps -> ~ In (fst x) bufs -> m' r x = m r x).
Proof.
  intros Hg Hw Hd Hgs HZ Hn Hz Hdom Ha Hlag Hu H0. destruct (local_in_block dims loc dx shift nodes address Hd Hg Hdom Ha) as (Hl & Hr & Hb).
  inversion Hn as [|? ? Hn1 Hn2]; subst. rewrite in_app_iff in Hn1.
  assert (Hnc : NoDup comps) by (now apply nodup_app_l in Hn2).
  assert (Hcb : forall f, In f comps -> ~ In f bufs). { clear -Hn2. induction comps as [|a comps IH]; cbn in *; [tauto|]. inversion Hn2; subst. rewrite in_app_iff in H1. intros f [<-|Hf]; [tauto|]. now apply IH. }
  destruct (spread_generic (q_cell dx shift) (q_dist dx shift) wt mul add z dims loc g w Hm Hg Hw (local_positions nodes address) comps lagf bufs Z0 gs m u Hgs HZ Hnc ltac:(tauto) ltac:(tauto) Hcb Hz Hb Hu H0)
    as (m' & R & V & G & Z1 & Fr).
  exists m'. split; [exact R|]. split; [|auto]. intros c f r I Hc0 Hc Hr0 HI. rewrite (V c f r I Hc0 Hc Hr0 HI). f_equal. rewrite <- Hl.
  apply (all_nodes add z dims Hm address _ (local_positions nodes address) (node_at nodes)
     (fun s i p => contribution (q_cell dx shift) (q_dist dx shift) w z mul wt p (m s (lagf, c * Z.of_nat (length (local_positions nodes address s)) + i)) (ghost_pos dims loc g r I))); auto.
  intros s i j Hs Hij. f_equal. unfold local_positions. rewrite map_length. exact (Hlag s c f i j Hs Hc0 Hc Hij).
Qed.


Lemma spread_2d times0 py px ny nx g w dx shift nodes address comps lagf rb cb (force : Z -> Z -> T) (m : Z -> @lmemT T) (u : nat -> list Z -> T) :
  let dims := [py; px] in let loc := [ny; nx] in
  grid2 py px ny nx g -> 1 <= w <= g -> (0 < dx)%Q -> (forall x, times0 x = z) -> NoDup (lagf :: comps ++ [rb; cb]) ->
  zero_buf z (py * px) rb [g; nx + 2 * g] m -> zero_buf z (py * px) cb [ny + 2 * g; g] m ->
  Forall (in_domain dx shift dims loc) nodes -> map_nodes false dims loc dx shift 2 nodes = Mapped address ->
  (forall r c f i j, 0 <= r < py * px -> 0 <= c -> nth_error comps (Z.to_nat c) = Some f -> ith_node address r i j -> m r (lag_local address lagf r c i) = force c j) ->
  (forall f r I, In f comps -> 0 <= r < py * px -> inner g loc I -> m r (f, ravel (ghosted g loc) I) = u f (ghost_pos dims loc g r I)) ->
  (forall f r I, In f comps -> 0 <= r < py * px -> inb (ghosted g loc) I -> ~ inner g loc I -> m r (f, ravel (ghosted g loc) I) = z) ->
  exists m', runs_to (py * px) (spread2 (q_cell dx shift) (q_dist dx shift) wt mul add times0 false py px ny nx g w comps lagf rb cb (local_positions nodes address)) m m' /\
    (forall c f r I, 0 <= c -> nth_error comps (Z.to_nat c) = Some f -> 0 <= r < py * px -> inner g loc I ->
      m' r (f, ravel (ghosted g loc) I) = add (u f (ghost_pos dims loc g r I))
         (total add z (map (fun j => contribution (q_cell dx shift) (q_dist dx shift) w z mul wt (node_at nodes j) (force c j) (ghost_pos dims loc g r I)) (zrange 0 (Z.of_nat (length nodes)))))) /\
    (forall f r I, In f comps -> 0 <= r < py * px -> inb (ghosted g loc) I -> ~ inner g loc I -> m' r (f, ravel (ghosted g loc) I) = z) /\
    (zero_buf z (py * px) rb [g; nx + 2 * g] m' /\ zero_buf z (py * px) cb [ny + 2 * g; g] m') /\
    (forall r x, ~ In (fst x) comps -> ~ In (fst x) [rb; cb] -> m' r x = m r x).
Proof.
  intros dims loc H2 Hw Hd Ht Hn B1 B2 Hdom Ha Hlag Hu H0.
  assert (En : zprod dims = py * px) by (cbn; lia). rewrite <- En in *.
  apply (spread_post dims loc g w dx shift nodes address comps lagf [rb; cb] (fun m => zero_buf z (zprod dims) rb [g; nx + 2 * g] m /\ zero_buf z (zprod dims) cb [ny + 2 * g; g] m)
    (fun f => ghost_sum2 add times0 false py px ny nx g f rb cb) force m u); auto.
  - destruct H2 as (? & ? & ? & ? & ?). split; [reflexivity| |]; repeat constructor; lia.
  - intros f m0 Hf [Z1 Z2]. assert (Hd3 : NoDup [f; rb; cb]).
    { inversion Hn; subst. clear -Hf H4. induction comps as [|a comps IH]; cbn in *; [tauto|]. inversion H4; subst. destruct Hf as [-> |Hf]; [|now apply IH]. 
      apply nodup_app_r in H2. constructor; auto. intros Hi. apply H1. apply in_app_iff. now right. }
    destruct (ghost_sum2_correct add z py px ny nx g f rb cb H2 Hd3 Hm times0 m0 Ht) as (m' & R & V & G & X1 & X2 & Fr); [rewrite <- En; exact Z1|rewrite <- En; exact Z2|].
    exists m'. rewrite <- En in *. split; [exact R|]. split; [split; assumption|]. split; [split; assumption|]. intros r x Hx Hx'. apply Fr; intros E0; [now apply Hx| |]; apply Hx'; cbn; auto.
  - intros m1 m2 E [Z1 Z2]. split; intros r K Hr HK; rewrite <- E by (cbn; auto); auto.
Qed.

Lemma spread_3d times0 pz py px n0 n1 n2 g w dx shift nodes address comps lagf bz by_ bx (force : Z -> Z -> T) (m : Z -> @lmemT T) (u : nat -> list Z -> T) :
  let dims := [pz; py; px] in let loc := [n0; n1; n2] in
  grid3 pz py px n0 n1 n2 g -> 1 <= w <= g -> (0 < dx)%Q -> (forall x, times0 x = z) -> NoDup (lagf :: comps ++ [bz; by_; bx]) ->
  zero_buf z (pz * py * px) bz [g; n1 + 2 * g; n2 + 2 * g] m -> zero_buf z (pz * py * px) by_ [n0 + 2 * g; g; n2 + 2 * g] m -> zero_buf z (pz * py * px) bx [n0 + 2 * g; n1 + 2 * g; g] m ->
  Forall (in_domain dx shift dims loc) nodes -> map_nodes false dims loc dx shift 3 nodes = Mapped address ->
  (forall r c f i j, 0 <= r < pz * py * px -> 0 <= c -> nth_error comps (Z.to_nat c) = Some f -> ith_node address r i j -> m r (lag_local address lagf r c i) = force c j) ->
  (forall f r I, In f comps -> 0 <= r < pz * py * px -> inner g loc I -> m r (f, ravel (ghosted g loc) I) = u f (ghost_pos dims loc g r I)) ->
  (forall f r I, In f comps -> 0 <= r < pz * py * px -> inb (ghosted g loc) I -> ~ inner g loc I -> m r (f, ravel (ghosted g loc) I) = z) ->
  exists m', runs_to (pz * py * px) (spread3 (q_cell dx shift) (q_dist dx shift) wt mul add times0 false pz py px n0 n1 n2 g w comps lagf bz by_ bx (local_positions nodes address)) m m' /\
    (forall c f r I, 0 <= c -> nth_error comps (Z.to_nat c) = Some f -> 0 <= r < pz * py * px -> inner g loc I ->
      m' r (f, ravel (ghosted g loc) I) = add (u f (ghost_pos dims loc g r I))
         (total add z (map (fun j => contribution (q_cell dx shift) (q_dist dx shift) w z mul wt (node_at nodes j) (force c j) (ghost_pos dims loc g r I)) (zrange 0 (Z.of_nat (length nodes)))))) /\
    (forall f r I, In f comps -> 0 <= r < pz * py * px -> inb (ghosted g loc) I -> ~ inner g loc I -> m' r (f, ravel (ghosted g loc) I) = z) /\
    (zero_buf z (pz * py * px) bz [g; n1 + 2 * g; n2 + 2 * g] m' /\ zero_buf z (pz * py * px) by_ [n0 + 2 * g; g; n2 + 2 * g] m' /\ zero_buf z (pz * py * px) bx [n0 + 2 * g; n1 + 2 * g; g] m') /\
    (forall r x, ~ In (fst x) comps -> ~ In (fst x) [bz; by_; bx] -> m' r x = m r x).
Proof.
  intros dims loc H2 Hw Hd Ht Hn B1 B2 B3 Hdom Ha Hlag Hu H0.
  assert (En : zprod dims = pz * py * px) by (cbn; lia). rewrite <- En in *.
  apply (spread_post dims loc g w dx shift nodes address comps lagf [bz; by_; bx] (fun m => zero_buf z (zprod dims) bz [g; n1 + 2 * g; n2 + 2 * g] m /\ zero_buf z (zprod dims) by_ [n0 + 2 * g; g; n2 + 2 * g] m /\ zero_buf z (zprod dims) bx [n0 + 2 * g; n1 + 2 * g; g] m)
    (fun f => ghost_sum3 add times0 false pz py px n0 n1 n2 g f bz by_ bx) force m u); auto.
  - destruct H2 as (? & ? & ? & ? & ? & ? & ?). split; [reflexivity| |]; repeat constructor; lia.
  - intros f m0 Hf (Z1 & Z2 & Z3). assert (Hd3 : NoDup [f; bz; by_; bx]).
    { inversion Hn; subst. clear -Hf H4. induction comps as [|a comps IH]; cbn in *; [tauto|]. inversion H4; subst. destruct Hf as [-> |Hf]; [|now apply IH]. 
      apply nodup_app_r in H2. constructor; auto. intros Hi. apply H1. apply in_app_iff. now right. }
    destruct (ghost_sum3_correct add z pz py px n0 n1 n2 g f bz by_ bx H2 Hd3 Hm times0 m0 Ht) as (m' & R & V & G & X1 & X2 & X3 & Fr); [rewrite <- En; exact Z1|rewrite <- En; exact Z2|rewrite <- En; exact Z3|].
    exists m'. rewrite <- En in *. split; [exact R|]. split; [split; assumption|]. split; [repeat split; assumption|]. intros r x Hx Hx'. apply Fr; intros E0; [now apply Hx| | |]; apply Hx'; cbn; auto.
  - intros m1 m2 E (Z1 & Z2 & Z3). repeat split; intros r K Hr HK; rewrite <- E by (cbn; auto); auto.
Qed.
End Sp.
