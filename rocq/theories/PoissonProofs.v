(** Proofs behind C24-C26. *)
From Verif Require Import Base SpecGrid SpecGhost SpecStencil SpecStep SpecDouble Cart CartFacts Comm Spmd Ghost3D Stencil HaloThms StepProofs StepHistory FieldProofs PenaliseProofs PyNum Doubling DoublingProofs.
Arguments run_lops : simpl never.
Arguments addr_eq : simpl never.
Arguments place_dec : simpl never.

Lemma dist2_spec py px : (distributed_dim2 py px = ValueError <-> py <> 1 /\ px <> 1) /\
  (forall dd, distributed_dim2 py px = Ok dd -> (dd = 0%nat /\ px = 1) \/ (dd = 1%nat /\ py = 1)).
Proof.
  unfold distributed_dim2. destruct (Z.eqb_spec py 1) as [Hy|Hy], (Z.eqb_spec px 1) as [Hx|Hx]; cbn [negb andb]; destruct (Z.eqb_spec (py * px) 1) as [H1|H1];
    (split; [split; [try discriminate; auto|intros [? ?]; first [lia|reflexivity]]|intros dd E; try discriminate; injection E as <-; first [now auto|exfalso; nia]]).
Qed.

Lemma dist2_slab per py px dd : distributed_dim2 py px = Ok dd -> per = false \/ (py * px) mod 2 = 0 -> slab2 per py px dd.
Proof.
  intros H Hp. apply (proj2 (dist2_spec py px)) in H. unfold slab2. destruct H as [[-> ->]|[-> ->]]; [left|right]; rewrite ?Z.mul_1_r, ?Z.mul_1_l in Hp; auto.
Qed.

Lemma ok2 py px ny nx : 1 <= py -> 1 <= px -> 1 <= ny -> 1 <= nx -> grid_ok [py; px] [ny; nx].
Proof. intros. split; simpl; auto; repeat constructor; auto. Qed.
Lemma ok3 pz py px n0 n1 n2 : 1 <= pz -> 1 <= py -> 1 <= px -> 1 <= n0 -> 1 <= n1 -> 1 <= n2 -> grid_ok [pz; py; px] [n0; n1; n2].
Proof. intros. split; simpl; auto; repeat constructor; auto. Qed.

(** *** Generic statements *)
Section G.
Context {T : Type}.
Variables (dims loc : list Z) (g : Z).
Hypothesis Hok : grid_ok dims loc.
Hypothesis Hg : 0 <= g.
Notation n := (zprod dims).

Lemma to_gen f D p (m : mem T) u w : f <> D -> to_shape dims loc g f D p ->
  represents dims loc g [f] m u -> represents dims (doubled loc) 0 [D] m (fun _ => w) ->
  all_matched n p /\ exists m', spmd_ends n [PExch (all_copies n p) (fun _ => [])] m m' /\
    represents dims (doubled loc) 0 [D] m' (fun _ => pad (global_size dims loc) (u f) w) /\
    (forall r h a, h <> D -> m' (r, (h, a)) = m (r, (h, a))).
Proof.
  intros Hf H Hu Hw. split; [now apply (to_matched dims loc g Hok f D)|]. eexists. split.
  - apply spmd_safe. constructor; [|constructor]. eapply to_ok; eauto.
  - eapply to_post; eauto.
Qed.
Lemma from_gen f D p (m : mem T) w : f <> D -> from_shape dims loc g f D p ->
  represents dims (doubled loc) 0 [D] m (fun _ => w) ->
  all_matched n p /\ exists m', spmd_ends n [PExch (all_copies n p) (fun _ => [])] m m' /\
    represents dims loc g [f] m' (fun _ => w) /\
    (forall r I, 0 <= r < n -> inb (ghosted g loc) I -> ~ inner g loc I -> field m' (ghosted g loc) r f I = field m (ghosted g loc) r f I) /\
    (forall r h a, h <> f -> m' (r, (h, a)) = m (r, (h, a))).
Proof.
  intros Hf H Hw. split; [now apply (from_matched dims loc g Hok f D)|]. eexists. split.
  - apply spmd_safe. constructor; [|constructor]. eapply from_ok; eauto.
  - eapply from_post; eauto.
Qed.

Lemma pad_in N (u w : list Z -> T) P : inb N P -> pad N u w P = u P.
Proof. intros H. apply inbb_spec in H. unfold pad. now rewrite H. Qed.

Lemma roundtrip_gen f f' D p q (m : mem T) u w : f <> D -> f' <> D -> to_shape dims loc g f D p -> from_shape dims loc g f' D q ->
  represents dims loc g [f] m u -> represents dims (doubled loc) 0 [D] m (fun _ => w) ->
  exists m', spmd_ends n [PExch (all_copies n p) (fun _ => []); PExch (all_copies n q) (fun _ => [])] m m' /\
    represents dims loc g [f'] m' (fun _ => u f).
Proof.
  intros Hf Hf' Hp Hq Hu Hw. eexists. split.
  - apply spmd_safe. constructor; [eapply (to_ok dims loc g Hok f D); eauto|]. constructor; [|constructor]. eapply (from_ok dims loc g Hok Hg f' D); eauto.
  - change [PExch (all_copies n p) (fun _ => []); PExch (all_copies n q) (fun _ => [])] with ([PExch (all_copies n p) (fun _ : Z => @nil (@lop T))] ++ [PExch (all_copies n q) (fun _ => [])]). rewrite den_app.
    destruct (to_post dims loc g Hok f D Hf p m u w Hp Hu Hw) as [V _].
    destruct (from_post dims loc g Hok Hg f' D Hf' q _ _ Hq V) as [V' _].
    intros r h x Hr Hh Hx. rewrite (V' r h x Hr Hh Hx). apply pad_in. now apply block_inside.
Qed.

(** Sequences of solves. *)
Variables (per : bool) (conv : (list Z -> T) -> list Z -> T) (z : T) (D S : nat) (to_ from_ : nat -> Z -> list op).
Hypothesis HDS : D <> S.
Hypothesis Hto : forall f, to_shape dims loc g f D (to_ f).
Hypothesis Hfrom : forall f, from_shape dims loc g f D (from_ f).
Notation N := (global_size dims loc).
Definition solve1 (sr : nat * nat) : list (@phase T) := solve_phases conv z dims loc (to_ (snd sr)) (from_ (fst sr)) D S.

Lemma solves_ok solves : Forall (fun sr => ~ In (fst sr) [D; S] /\ ~ In (snd sr) [D; S]) solves -> Forall (phase_ok n) (flat_map solve1 solves).
Proof.
  induction 1 as [|[s r] l [H1 H2] H IH]; cbn [flat_map]; [constructor|]. apply Forall_app. split; auto. cbn [fst snd In] in *.
  unfold solve1. apply (solve_ok dims loc g Hok Hg conv z D S s r); auto; lia.
Qed.
Lemma solve1_post sr (m : mem T) u Fs : ~ In D Fs -> ~ In S Fs -> In (fst sr) Fs -> In (snd sr) Fs ->
  (represents dims loc g Fs m u -> represents dims loc g Fs (den n (solve1 sr) m) (solve_effect conv z N u sr)) /\
  (represents_ext per dims loc g Fs m u -> represents_ext per dims loc g Fs (den n (solve1 sr) m) (solve_effect conv z N u sr)).
Proof.
  destruct sr as [s r]. cbn [fst snd]. intros HD HS Hs Hr.
  assert (Hs' : s <> D /\ s <> S) by (split; intros ->; contradiction). assert (Hr' : r <> D /\ r <> S) by (split; intros ->; contradiction).
  pose proof (fun u => solve_post dims loc g Hok Hg conv z D S s r (to_ r) (from_ s) HDS Hr' Hs' (Hto r) (Hfrom s) m u) as HP. cbn zeta in HP.
  unfold solve1. cbn [fst snd]. set (m' := den n (solve_phases conv z dims loc (to_ r) (from_ s) D S) m) in *.
  assert (A : forall u, represents dims loc g Fs m u -> represents dims loc g Fs m' (solve_effect conv z N u (s, r))).
  { intros v Hv. destruct (HP v) as (V & _ & F). { intros q f x Hq [<-|[]] Hx. now apply Hv. }
    intros q f x Hq Hf Hx. unfold solve_effect. cbn [fst snd]. destruct (Nat.eqb_spec f s) as [-> |Hn].
    - rewrite pad_in by (now apply block_inside). apply V; auto. now left.
    - unfold field. rewrite F; [now apply Hv| auto | |]; intros ->; contradiction. }
  split; [apply A|]. intros Hv.
  assert (Hu : represents dims loc g Fs m u).
  { apply rep_inner; auto. intros q f I Hq Hf HI HQ. apply Hv; auto. }
  intros q f I Hq Hf HI [HQ|[HQ HO]].
  - apply (proj1 (rep_inner dims loc g Fs m' _ Hg) (A u Hu)); auto.
  - destruct (HP u) as (_ & G & F). { intros q' f' x Hq' [<-|[]] Hx. now apply Hu. }
    unfold solve_effect. cbn [fst snd]. destruct (Nat.eqb_spec f s) as [-> |Hn].
    + assert (E : inbb N (ghost_pos dims loc g q I) = false).
      { unfold owner in HO. destruct (wrapv per N (ghost_pos dims loc g q I)) eqn:W; [discriminate|]. pose proof (wrapv_none_per _ _ _ W). subst.
        apply wrapv_false_none; auto. apply gp_length; [apply Hok|]. rewrite (inb_length _ _ HI). unfold ghosted. now rewrite map_length. }
      unfold pad. rewrite E. rewrite <- (Hv q s I Hq Hf HI (or_intror (conj HQ HO))). apply G; auto. eapply none_not_inner; eauto.
    + rewrite <- (Hv q f I Hq Hf HI (or_intror (conj HQ HO))). unfold field. apply F; auto; intros ->; contradiction.
Qed.
Lemma solves_gen Fs solves (m : mem T) u : ~ In D Fs -> ~ In S Fs -> Forall (fun sr => In (fst sr) Fs /\ In (snd sr) Fs) solves ->
  exists m', spmd_ends n (flat_map solve1 solves) m m' /\
  (represents dims loc g Fs m u -> represents dims loc g Fs m' (solve_all conv z N solves u)) /\
  (represents_ext per dims loc g Fs m u -> represents_ext per dims loc g Fs m' (solve_all conv z N solves u)).
Proof.
  intros HD HS HF. eexists. split.
  - apply spmd_safe, solves_ok. eapply Forall_impl; [|exact HF]. intros [s r] [H1 H2]. cbn [fst snd In] in *. split; intros [-> | [-> | [] ]]; contradiction.
  - revert m u. induction HF as [|sr l [H1 H2] HF IH]; intros m u; cbn [flat_map]; [unfold solve_all, den; cbn [fold_left]; tauto|].
    rewrite den_app. destruct (solve1_post sr m u Fs HD HS H1 H2) as [A B]. destruct (IH (den n (solve1 sr) m) (solve_effect conv z N u sr)) as [A' B'].
    unfold solve_all in *. cbn [fold_left]. auto.
Qed.
Lemma solve_frame sr (m : mem T) : ~ In (fst sr) [D; S] -> ~ In (snd sr) [D; S] ->
  (forall r I, 0 <= r < n -> inb (ghosted g loc) I -> ~ inner g loc I -> field (den n (solve1 sr) m) (ghosted g loc) r (fst sr) I = field m (ghosted g loc) r (fst sr) I) /\
  (forall r h a, ~ In h [fst sr; D; S] -> den n (solve1 sr) m (r, (h, a)) = m (r, (h, a))).
Proof.
  destruct sr as [s r]. cbn [fst snd In]. intros H1 H2.
  destruct (solve_post dims loc g Hok Hg conv z D S s r (to_ r) (from_ s) HDS ltac:(lia) ltac:(lia) (Hto r) (Hfrom s) m _ (assembled dims loc g [r] m Hok)) as (_ & G & F).
  split; [exact G|]. intros q h a Hh. apply F; lia.
Qed.
End G.

(** *** 3D: when does the code raise *)
Lemma seq_in l : In None l -> sequence l = RuntimeError.
Proof. induction l as [|[x|] l IH]; intros H; cbn [sequence]; auto; [destruct H|]. destruct H as [H|H]; [discriminate|]. now rewrite IH. Qed.

Lemma odd_child ts : positive ts -> ~ evenly ts -> exists cb o, inb ts cb /\ below_half ts cb = true /\ In o (offsets3 ts) /\ wrapv false ts (child_coord ts cb o) = None.
Proof.
  induction 1 as [|t ts Ht Hts IH]; intros He; [exfalso; apply He; constructor|].
  destruct (Z.eq_dec t 1) as [-> |H1]; [|destruct (Z.eq_dec (t mod 2) 0) as [H2|H2]].
  - destruct IH as (cb & o & I1 & I2 & I3 & I4). { intros H. apply He. constructor; auto. }
    exists (0 :: cb), (0 :: o). split; [constructor; auto; lia|]. split; [simpl; now rewrite I2|]. split.
    + apply offsets_In. constructor; auto. now apply offsets_In.
    + cbn [child_coord wrapv]. rewrite I4. destruct (wrap _ _ _); auto.
  - destruct IH as (cb & o & I1 & I2 & I3 & I4). { intros H. apply He. constructor; auto. }
    exists (0 :: cb), (0 :: o). split; [constructor; auto; lia|]. split; [cbn [below_half]; rewrite I2, andb_true_r; apply Z.ltb_lt; lia|]. split.
    + apply offsets_In. constructor; auto. now apply offsets_In.
    + cbn [child_coord wrapv]. rewrite I4. destruct (wrap _ _ _); auto.
  - exists ((t - 1) / 2 :: map (fun _ => 0) ts), (1 :: map (fun _ => 0) ts). pose proof (Z.div_mod t 2 ltac:(lia)). pose proof (Z.mod_pos_bound t 2 ltac:(lia)).
    assert (E : 2 * ((t - 1) / 2) = t - 1). { pose proof (Z.div_mod (t - 1) 2 ltac:(lia)). pose proof (Z.mod_pos_bound (t - 1) 2 ltac:(lia)). lia. }
    split; [|split; [|split]].
    + constructor; [lia|]. clear - Hts. induction Hts; simpl; constructor; auto. lia.
    + cbn [below_half]. rewrite E. apply andb_true_iff. split; [apply Z.ltb_lt; lia|]. clear - Hts. induction Hts; cbn [map below_half]; auto. rewrite IHHts, andb_true_r. apply Z.ltb_lt. lia.
    + apply offsets_In. constructor; auto. clear. induction ts; cbn [map]; constructor; auto.
    + cbn [child_coord wrapv]. rewrite (proj2 (Z.eqb_neq t 1) H1), E. unfold wrap.
      replace ((0 <=? t - 1 + 1) && (t - 1 + 1 <? t)) with false; auto. symmetry. apply andb_false_iff. right. apply Z.ltb_ge. lia.
Qed.

Lemma raises_iff topo loc g f D : positive topo -> length loc = length topo -> positive loc ->
  ((forall r, 0 <= r < zprod topo -> exists p, to_doubled3 false topo loc g f D r = Ok p) <-> evenly topo) /\
  ((forall r, 0 <= r < zprod topo -> exists p, from_doubled3 false topo loc g f D r = Ok p) <-> evenly topo).
Proof.
  intros Hd Hl Hn. assert (Hok : grid_ok topo loc) by (split; auto).
  assert (De : evenly topo \/ ~ evenly topo).
  { unfold evenly. clear. induction topo as [|t ts IH]; [left; constructor|]. destruct (Z.eq_dec t 1), (Z.eq_dec (t mod 2) 0), IH as [IH|IH];
     first [left; constructor; auto; fail|right; intros H; inversion H; subst; tauto]. }
  assert (X : ~ evenly topo -> exists r, 0 <= r < zprod topo /\ to_doubled3 false topo loc g f D r = RuntimeError /\ from_doubled3 false topo loc g f D r = RuntimeError).
  { intros He. destruct (odd_child topo Hd He) as (cb & o & I1 & I2 & I3 & I4). exists (ravel topo cb). split; [now apply ravel_bound|].
    assert (E : cart_coords topo (ravel topo cb) = cb) by (now apply unravel_ravel).
    unfold to_doubled3, from_doubled3. rewrite E, I2. split; apply seq_in.
    - right. apply in_map_iff. exists o. split; auto. unfold get_cart_rank. now rewrite I4.
    - apply in_app_iff. left. apply in_map_iff. exists o. split; auto. unfold get_cart_rank. now rewrite I4. }
  split; (split; [intros H; destruct De as [De|De]; auto; destruct (X De) as (r & Hr & E1 & E2); destruct (H r Hr) as (p & Hp); congruence|]).
  - intros He r Hr. rewrite (to3_ok false topo loc g f D Hok He r Hr). eauto.
  - intros He r Hr. rewrite (from3_ok false topo loc g f D Hok He r Hr). eauto.
Qed.

Lemma check3_spec topo : (double3_check topo = ValueError <-> Forall (fun t => t <> 1) topo) /\ (double3_check topo = Ok tt <-> Exists (fun t => t = 1) topo).
Proof.
  unfold double3_check, num_distributed.
  assert (H : length topo = length (filter (fun t => negb (t =? 1)) topo) /\ Forall (fun t => t <> 1) topo \/
    (length (filter (fun t => negb (t =? 1)%Z) topo) < length topo)%nat /\ Exists (fun t => t = 1) topo).
  { induction topo as [|t ts IH]; [left; split; auto|]. cbn [filter length]. destruct (Z.eqb_spec t 1) as [-> |Ht]; cbn [negb length].
    - right. split; [|now left]. destruct IH as [[IH _]|[IH _]]; lia.
    - destruct IH as [[IH IH']|[IH IH']]; [left|right]; split; auto; lia. }
  assert (N : Forall (fun t => t <> 1) topo -> Exists (fun t => t = 1) topo -> False).
  { intros A B. apply Exists_exists in B as (x & Hx & E). rewrite Forall_forall in A. now apply (A x). }
  destruct H as [[H1 H2]|[H1 H2]]; destruct (Nat.leb_spec (length topo) (length (filter (fun t => negb (t =? 1)) topo))); try lia;
    split; split; auto; try discriminate; intros; exfalso; auto.
Qed.

(** *** Instances *)
Section I2.
Context {T : Type}.
Variables (conv : (list Z -> T) -> list Z -> T) (z : T).
Lemma prod2 py px : zprod [py; px] = py * px. Proof. cbn [zprod]. now rewrite Z.mul_1_r. Qed.

Lemma to_2d per py px ny nx g dd f D (m : mem T) u w :
  1 <= py -> 1 <= px -> 1 <= ny -> 1 <= nx -> 0 <= g -> distributed_dim2 py px = Ok dd -> per = false \/ (py * px) mod 2 = 0 -> f <> D ->
  represents [py; px] [ny; nx] g [f] m u -> represents [py; px] (doubled [ny; nx]) 0 [D] m (fun _ => w) ->
  let p := to_doubled2 per py px ny nx g dd f D in
  all_matched (py * px) p /\
  exists m', spmd_ends (py * px) [PExch (all_copies (py * px) p) (fun _ => [])] m m' /\
    represents [py; px] (doubled [ny; nx]) 0 [D] m' (fun _ => pad [py * ny; px * nx] (u f) w) /\
    (forall r h a, h <> D -> m' (r, (h, a)) = m (r, (h, a))).
Proof.
  intros H1 H2 H3 H4 Hg Hdd Hper Hf Hu Hw p. rewrite <- prod2. apply (to_gen [py; px] [ny; nx] g (ok2 py px ny nx H1 H2 H3 H4)); auto.
  apply to2_shape; auto. eapply dist2_slab; eauto.
Qed.
Lemma from_2d per py px ny nx g dd f D (m : mem T) w :
  1 <= py -> 1 <= px -> 1 <= ny -> 1 <= nx -> 0 <= g -> distributed_dim2 py px = Ok dd -> per = false \/ (py * px) mod 2 = 0 -> f <> D ->
  represents [py; px] (doubled [ny; nx]) 0 [D] m (fun _ => w) ->
  let p := from_doubled2 per py px ny nx g dd f D in
  all_matched (py * px) p /\
  exists m', spmd_ends (py * px) [PExch (all_copies (py * px) p) (fun _ => [])] m m' /\
    represents [py; px] [ny; nx] g [f] m' (fun _ => w) /\
    (forall r I, 0 <= r < py * px -> inb (ghosted g [ny; nx]) I -> ~ inner g [ny; nx] I -> field m' (ghosted g [ny; nx]) r f I = field m (ghosted g [ny; nx]) r f I) /\
    (forall r h a, h <> f -> m' (r, (h, a)) = m (r, (h, a))).
Proof.
  intros H1 H2 H3 H4 Hg Hdd Hper Hf Hw p. rewrite <- prod2. apply (from_gen [py; px] [ny; nx] g (ok2 py px ny nx H1 H2 H3 H4) Hg f D p m w); auto.
  apply to2_shape; auto. eapply dist2_slab; eauto.
Qed.
Lemma roundtrip_2d per py px ny nx g dd f f' D (m : mem T) u w :
  1 <= py -> 1 <= px -> 1 <= ny -> 1 <= nx -> 0 <= g -> distributed_dim2 py px = Ok dd -> per = false \/ (py * px) mod 2 = 0 -> f <> D -> f' <> D ->
  represents [py; px] [ny; nx] g [f] m u -> represents [py; px] (doubled [ny; nx]) 0 [D] m (fun _ => w) ->
  exists m', spmd_ends (py * px) [PExch (all_copies (py * px) (to_doubled2 per py px ny nx g dd f D)) (fun _ => []);
                                  PExch (all_copies (py * px) (from_doubled2 per py px ny nx g dd f' D)) (fun _ => [])] m m' /\
    represents [py; px] [ny; nx] g [f'] m' (fun _ => u f).
Proof.
  intros H1 H2 H3 H4 Hg Hdd Hper Hf Hf' Hu Hw. rewrite <- prod2. pose proof (dist2_slab _ _ _ _ Hdd Hper) as Hs.
  apply (roundtrip_gen [py; px] [ny; nx] g (ok2 py px ny nx H1 H2 H3 H4) Hg f f' D _ _ m u w); auto; apply to2_shape; auto.
Qed.
Lemma solves_2d per py px ny nx g dd D S Fs solves (m : mem T) u :
  1 <= py -> 1 <= px -> 1 <= ny -> 1 <= nx -> 0 <= g -> distributed_dim2 py px = Ok dd -> per = false \/ (py * px) mod 2 = 0 -> D <> S ->
  ~ In D Fs -> ~ In S Fs -> Forall (fun sr => In (fst sr) Fs /\ In (snd sr) Fs) solves ->
  exists m', spmd_ends (py * px) (flat_map (fun sr => poisson_solve_2d conv z per py px ny nx g dd D S (fst sr) (snd sr)) solves) m m' /\
    let u' := solve_all conv z [py * ny; px * nx] solves u in
    (represents [py; px] [ny; nx] g Fs m u -> represents [py; px] [ny; nx] g Fs m' u') /\
    (represents_ext per [py; px] [ny; nx] g Fs m u -> represents_ext per [py; px] [ny; nx] g Fs m' u').
Proof.
  intros H1 H2 H3 H4 Hg Hdd Hper HDS HD HS HF. rewrite <- prod2. pose proof (dist2_slab _ _ _ _ Hdd Hper) as Hs.
  apply (solves_gen [py; px] [ny; nx] g (ok2 py px ny nx H1 H2 H3 H4) Hg per conv z D S (fun f => to_doubled2 per py px ny nx g dd f D) (fun f => from_doubled2 per py px ny nx g dd f D)); auto;
    intros f; apply to2_shape; auto.
Qed.

Lemma to_3d per pz py px n0 n1 n2 g f D (m : mem T) u w :
  1 <= pz -> 1 <= py -> 1 <= px -> 1 <= n0 -> 1 <= n1 -> 1 <= n2 -> 0 <= g -> evenly [pz; py; px] -> f <> D ->
  let topo := [pz; py; px] in let loc := [n0; n1; n2] in let n := zprod topo in
  represents topo loc g [f] m u -> represents topo (doubled loc) 0 [D] m (fun _ => w) ->
  let p r := ops_of (to_doubled3 per topo loc g f D r) in
  (forall r, 0 <= r < n -> to_doubled3 per topo loc g f D r = Ok (p r)) /\ all_matched n p /\
  exists m', spmd_ends n [PExch (all_copies n p) (fun _ => [])] m m' /\
    represents topo (doubled loc) 0 [D] m' (fun _ => pad [pz * n0; py * n1; px * n2] (u f) w) /\
    (forall r h a, h <> D -> m' (r, (h, a)) = m (r, (h, a))).
Proof.
  intros H1 H2 H3 H4 H5 H6 Hg He Hf topo loc n Hu Hw p. pose proof (ok3 pz py px n0 n1 n2 H1 H2 H3 H4 H5 H6) as Hok. split.
  - intros r Hr. unfold p. unfold topo, loc. rewrite to3_ok by auto. reflexivity.
  - apply (to_gen topo loc g Hok); auto. apply to3_shape; auto.
Qed.
Lemma from_3d per pz py px n0 n1 n2 g f D (m : mem T) w :
  1 <= pz -> 1 <= py -> 1 <= px -> 1 <= n0 -> 1 <= n1 -> 1 <= n2 -> 0 <= g -> evenly [pz; py; px] -> f <> D ->
  let topo := [pz; py; px] in let loc := [n0; n1; n2] in let n := zprod topo in
  represents topo (doubled loc) 0 [D] m (fun _ => w) ->
  let p r := ops_of (from_doubled3 per topo loc g f D r) in
  (forall r, 0 <= r < n -> from_doubled3 per topo loc g f D r = Ok (p r)) /\ all_matched n p /\
  exists m', spmd_ends n [PExch (all_copies n p) (fun _ => [])] m m' /\
    represents topo loc g [f] m' (fun _ => w) /\
    (forall r I, 0 <= r < n -> inb (ghosted g loc) I -> ~ inner g loc I -> field m' (ghosted g loc) r f I = field m (ghosted g loc) r f I) /\
    (forall r h a, h <> f -> m' (r, (h, a)) = m (r, (h, a))).
Proof.
  intros H1 H2 H3 H4 H5 H6 Hg He Hf topo loc n Hw p. pose proof (ok3 pz py px n0 n1 n2 H1 H2 H3 H4 H5 H6) as Hok. split.
  - intros r Hr. unfold p. unfold topo, loc. rewrite from3_ok by auto. reflexivity.
  - apply (from_gen topo loc g Hok Hg f D p m w); auto. apply from3_shape; auto.
Qed.
Lemma roundtrip_3d per pz py px n0 n1 n2 g f f' D (m : mem T) u w :
  1 <= pz -> 1 <= py -> 1 <= px -> 1 <= n0 -> 1 <= n1 -> 1 <= n2 -> 0 <= g -> evenly [pz; py; px] -> f <> D -> f' <> D ->
  let topo := [pz; py; px] in let loc := [n0; n1; n2] in let n := zprod topo in
  represents topo loc g [f] m u -> represents topo (doubled loc) 0 [D] m (fun _ => w) ->
  exists m', spmd_ends n [PExch (all_copies n (fun r => ops_of (to_doubled3 per topo loc g f D r))) (fun _ => []);
                          PExch (all_copies n (fun r => ops_of (from_doubled3 per topo loc g f' D r))) (fun _ => [])] m m' /\
    represents topo loc g [f'] m' (fun _ => u f).
Proof.
  intros H1 H2 H3 H4 H5 H6 Hg He Hf Hf' topo loc n Hu Hw. pose proof (ok3 pz py px n0 n1 n2 H1 H2 H3 H4 H5 H6) as Hok.
  apply (roundtrip_gen topo loc g Hok Hg f f' D _ _ m u w); auto; [apply to3_shape|apply from3_shape]; auto.
Qed.
Lemma solves_3d per pz py px n0 n1 n2 g D S Fs solves (m : mem T) u :
  1 <= pz -> 1 <= py -> 1 <= px -> 1 <= n0 -> 1 <= n1 -> 1 <= n2 -> 0 <= g -> evenly [pz; py; px] -> D <> S ->
  ~ In D Fs -> ~ In S Fs -> Forall (fun sr => In (fst sr) Fs /\ In (snd sr) Fs) solves ->
  exists m', spmd_ends (zprod [pz; py; px]) (flat_map (fun sr => poisson_solve_3d conv z per pz py px n0 n1 n2 g D S (fst sr) (snd sr)) solves) m m' /\
    let u' := solve_all conv z [pz * n0; py * n1; px * n2] solves u in
    (represents [pz; py; px] [n0; n1; n2] g Fs m u -> represents [pz; py; px] [n0; n1; n2] g Fs m' u') /\
    (represents_ext per [pz; py; px] [n0; n1; n2] g Fs m u -> represents_ext per [pz; py; px] [n0; n1; n2] g Fs m' u').
Proof.
  intros H1 H2 H3 H4 H5 H6 Hg He HDS HD HS HF. pose proof (ok3 pz py px n0 n1 n2 H1 H2 H3 H4 H5 H6) as Hok.
  set (topo := [pz; py; px]) in *. set (loc := [n0; n1; n2]) in *.
  apply (solves_gen topo loc g Hok Hg per conv z D S (fun f r => ops_of (to_doubled3 per topo loc g f D r)) (fun f r => ops_of (from_doubled3 per topo loc g f D r))); auto;
    intros f; [apply to3_shape|apply from3_shape]; auto.
Qed.
Lemma frames per py px ny nx pz n0 n1 n2 g dd D S s r (m m2 m3 : mem T) :
  1 <= pz -> 1 <= py -> 1 <= px -> 1 <= n0 -> 1 <= n1 -> 1 <= n2 -> 1 <= ny -> 1 <= nx -> 0 <= g -> NoDup [D; S; s] -> NoDup [D; S; r] ->
  (distributed_dim2 py px = Ok dd -> per = false \/ (py * px) mod 2 = 0 -> spmd_ends (py * px) (poisson_solve_2d conv z per py px ny nx g dd D S s r) m m2 ->
    (forall q h a, ~ In h [s; D; S] -> m2 (q, (h, a)) = m (q, (h, a))) /\
    (forall q I, 0 <= q < py * px -> inb (ghosted g [ny; nx]) I -> ~ inner g [ny; nx] I -> field m2 (ghosted g [ny; nx]) q s I = field m (ghosted g [ny; nx]) q s I)) /\
  (evenly [pz; py; px] -> spmd_ends (zprod [pz; py; px]) (poisson_solve_3d conv z per pz py px n0 n1 n2 g D S s r) m m3 ->
    (forall q h a, ~ In h [s; D; S] -> m3 (q, (h, a)) = m (q, (h, a))) /\
    (forall q I, 0 <= q < zprod [pz; py; px] -> inb (ghosted g [n0; n1; n2]) I -> ~ inner g [n0; n1; n2] I -> field m3 (ghosted g [n0; n1; n2]) q s I = field m (ghosted g [n0; n1; n2]) q s I)).
Proof.
  intros H1 H2 H3 H4 H5 H6 H7 H8 Hg N1 N2.
  assert (X : D <> S /\ ~ In s [D; S] /\ ~ In r [D; S]).
  { inversion N1 as [|? ? A N1']; subst. inversion N1' as [|? ? B N1'']; subst. inversion N2 as [|? ? A' N2']; subst. inversion N2' as [|? ? B' N2'']; subst. simpl in *. lia. }
  destruct X as (HDS & Xs & Xr). split.
  - intros Hdd Hper He. pose proof (dist2_slab _ _ _ _ Hdd Hper) as Hsl. rewrite <- prod2 in He |- *.
    assert (Hto : forall f, to_shape [py; px] [ny; nx] g f D (to_doubled2 per py px ny nx g dd f D)) by (intros; apply to2_shape; auto).
    assert (Hfr : forall f, from_shape [py; px] [ny; nx] g f D (from_doubled2 per py px ny nx g dd f D)) by (intros; apply to2_shape; auto).
    pose proof (ok2 py px ny nx H2 H3 H7 H8) as Hok.
    pose proof (solves_ok [py; px] [ny; nx] g Hok Hg conv z D S _ _ HDS Hto Hfr [(s, r)] (Forall_cons (s, r) (conj Xs Xr) (Forall_nil _))) as Ok'. cbn [flat_map] in Ok'. rewrite app_nil_r in Ok'.
    rewrite (spmd_ends_det _ _ _ _ _ He (spmd_safe _ _ m Ok')).
    destruct (solve_frame [py; px] [ny; nx] g Hok Hg conv z D S _ _ HDS Hto Hfr (s, r) m Xs Xr) as [A B]. auto.
  - intros Hev He.
    assert (Hok : grid_ok [pz; py; px] [n0; n1; n2]) by (apply ok3; auto).
    assert (Hto : forall f, to_shape [pz; py; px] [n0; n1; n2] g f D (fun r => ops_of (to_doubled3 per [pz; py; px] [n0; n1; n2] g f D r))) by (intros; apply to3_shape; auto).
    assert (Hfr : forall f, from_shape [pz; py; px] [n0; n1; n2] g f D (fun r => ops_of (from_doubled3 per [pz; py; px] [n0; n1; n2] g f D r))) by (intros; apply from3_shape; auto).
    pose proof (solves_ok [pz; py; px] [n0; n1; n2] g Hok Hg conv z D S _ _ HDS Hto Hfr [(s, r)] (Forall_cons (s, r) (conj Xs Xr) (Forall_nil _))) as Ok'. cbn [flat_map] in Ok'. rewrite app_nil_r in Ok'.
    rewrite (spmd_ends_det _ _ _ _ _ He (spmd_safe _ _ m Ok')).
    destruct (solve_frame [pz; py; px] [n0; n1; n2] g Hok Hg conv z D S _ _ HDS Hto Hfr (s, r) m Xs Xr) as [A B]. auto.
Qed.
Lemma vector_solve_3d per pz py px n0 n1 n2 g D S s0 s1 s2 r0 r1 r2 (m : mem T) u :
  1 <= pz -> 1 <= py -> 1 <= px -> 1 <= n0 -> 1 <= n1 -> 1 <= n2 -> 0 <= g -> evenly [pz; py; px] ->
  NoDup [D; S; s0; s1; s2; r0; r1; r2] ->
  represents [pz; py; px] [n0; n1; n2] g [r0; r1; r2] m u ->
  exists m', spmd_ends (zprod [pz; py; px]) (poisson_vector_solve_3d conv z per pz py px n0 n1 n2 g D S [s0; s1; s2] [r0; r1; r2]) m m' /\
    (forall s r, In (s, r) [(s0, r0); (s1, r1); (s2, r2)] ->
      represents [pz; py; px] [n0; n1; n2] g [s] m' (fun _ => poisson conv z [pz * n0; py * n1; px * n2] (u r))) /\
    (forall q r a, In r [r0; r1; r2] -> m' (q, (r, a)) = m (q, (r, a))).
Proof.
  intros H1 H2 H3 H4 H5 H6 Hg Hev ND Hu.
  assert (Hok : grid_ok [pz; py; px] [n0; n1; n2]) by (apply ok3; auto).
  assert (Hto : forall f, to_shape [pz; py; px] [n0; n1; n2] g f D (fun r => ops_of (to_doubled3 per [pz; py; px] [n0; n1; n2] g f D r))) by (intros; apply to3_shape; auto).
  assert (Hfr : forall f, from_shape [pz; py; px] [n0; n1; n2] g f D (fun r => ops_of (from_doubled3 per [pz; py; px] [n0; n1; n2] g f D r))) by (intros; apply from3_shape; auto).
  assert (ND' : forall i j, (i < 8)%nat -> (j < 8)%nat -> nth i [D; S; s0; s1; s2; r0; r1; r2] 0%nat = nth j [D; S; s0; s1; s2; r0; r1; r2] 0%nat -> i = j) by (exact (proj1 (NoDup_nth _ 0%nat) ND)).
  assert (X : forall i j, (i < 8)%nat -> (j < 8)%nat -> i <> j -> nth i [D; S; s0; s1; s2; r0; r1; r2] 0%nat <> nth j [D; S; s0; s1; s2; r0; r1; r2] 0%nat) by (intros i j Hi Hj Hij E; apply Hij, ND'; auto).
  pose proof (X 0%nat 1%nat ltac:(lia) ltac:(lia) ltac:(lia)) as HDS. cbn [nth] in HDS.
  set (Fs := [s0; s1; s2; r0; r1; r2]).
  set (topo := [pz; py; px]) in *. set (loc := [n0; n1; n2]) in *. set (v := fun f P => field m (ghosted g loc) (ravel topo (vdiv P loc)) f (map (fun i => i + g) (vmod P loc))).
  assert (HD : ~ In D Fs) by (unfold Fs; inversion ND as [|? ? A _]; subst; simpl in *; tauto).
  assert (HS : ~ In S Fs) by (unfold Fs; inversion ND as [|? ? _ A]; subst; inversion A; subst; simpl in *; tauto).
  set (sl := [(s0, r0); (s1, r1); (s2, r2)]).
  assert (HF : Forall (fun sr => In (fst sr) Fs /\ In (snd sr) Fs) sl) by (unfold sl, Fs; repeat constructor; simpl; auto 10).
  assert (HF' : Forall (fun sr => ~ In (fst sr) [D; S] /\ ~ In (snd sr) [D; S]) sl).
  { eapply Forall_impl; [|exact HF]. intros [s r] [A B]. cbn [fst snd In] in *. split; intros [-> | [-> | [] ]]; contradiction. }
  exists (den (zprod topo) (flat_map (solve1 topo loc conv z D S (fun f r => ops_of (to_doubled3 per topo loc g f D r)) (fun f r => ops_of (from_doubled3 per topo loc g f D r))) sl) m).
  assert (SO : Forall (phase_ok (zprod topo)) (flat_map (solve1 topo loc conv z D S (fun f r => ops_of (to_doubled3 per topo loc g f D r)) (fun f r => ops_of (from_doubled3 per topo loc g f D r))) sl)).
  { apply (solves_ok topo loc g Hok Hg conv z D S _ _ HDS Hto Hfr sl HF'). }
  split; [exact (spmd_safe _ _ m SO)|]. split.
  - destruct (solves_gen topo loc g Hok Hg per conv z D S _ _ HDS Hto Hfr Fs sl m v HD HS HF) as (m' & E1 & E2 & _).
    rewrite (spmd_ends_det _ _ _ _ _ (spmd_safe _ _ m SO) E1). specialize (E2 (assembled topo loc g Fs m Hok)).
    assert (Pe : forall r, In r [r0; r1; r2] -> pad (global_size topo loc) (v r) (fun _ => z) = pad (global_size topo loc) (u r) (fun _ => z)).
    { intros r Hr. apply FunctionalExtensionality.functional_extensionality. intros P. unfold pad. destruct (inbb _ P) eqn:E; auto. apply inbb_spec in E.
      destruct (FieldProofs.tile topo loc Hok P E) as (q & x & Hq & Hx & ->). rewrite vadd_comm.
      rewrite <- (Hu q r x Hq Hr Hx). symmetry. apply (assembled topo loc g [r] m Hok q r x); auto. now left. }
    intros s r Hsr q f x Hq [<- | [] ] Hx. rewrite (E2 q s x Hq); auto.
    2: { unfold Fs. simpl in Hsr. decompose [or] Hsr; try contradiction; match goal with H : (_, _) = _ |- _ => injection H as <- <- end; simpl; auto 10. }
    unfold solve_all, sl. cbn [fold_left]. unfold solve_effect. cbn [fst snd]. set (P := vadd (block_start topo loc q) x).
    assert (HP : inb (global_size topo loc) P) by (now apply block_inside).
    pose proof (X 2%nat 3%nat ltac:(lia) ltac:(lia) ltac:(lia)). pose proof (X 2%nat 4%nat ltac:(lia) ltac:(lia) ltac:(lia)). pose proof (X 3%nat 4%nat ltac:(lia) ltac:(lia) ltac:(lia)).
    pose proof (X 6%nat 2%nat ltac:(lia) ltac:(lia) ltac:(lia)). pose proof (X 7%nat 2%nat ltac:(lia) ltac:(lia) ltac:(lia)). pose proof (X 7%nat 3%nat ltac:(lia) ltac:(lia) ltac:(lia)). cbn [nth] in *.
    rewrite !(proj2 (Nat.eqb_neq r2 s1)), !(proj2 (Nat.eqb_neq r2 s0)), !(proj2 (Nat.eqb_neq r1 s0)) by auto.
    simpl in Hsr. decompose [or] Hsr; try contradiction; match goal with H : (_, _) = _ |- _ => injection H as <- <- end.
    + rewrite !(proj2 (Nat.eqb_neq s0 s1)), !(proj2 (Nat.eqb_neq s0 s2)), Nat.eqb_refl by auto. rewrite pad_in by auto. unfold poisson. rewrite Pe by (simpl; auto). reflexivity.
    + rewrite !(proj2 (Nat.eqb_neq s1 s2)), Nat.eqb_refl by auto. rewrite pad_in by auto. unfold poisson. rewrite Pe by (simpl; auto). reflexivity.
    + rewrite Nat.eqb_refl. rewrite pad_in by auto. unfold poisson. rewrite Pe by (simpl; auto). reflexivity.
  - intros q r a Hr.
    assert (Fr : forall l m, incl l sl -> den (zprod topo) (flat_map (solve1 topo loc conv z D S (fun f r => ops_of (to_doubled3 per topo loc g f D r)) (fun f r => ops_of (from_doubled3 per topo loc g f D r))) l) m (q, (r, a)) = m (q, (r, a))).
    { induction l as [|sr l IH]; intros m0 Hl; [reflexivity|]. cbn [flat_map]. rewrite den_app, IH by (eapply incl_cons_inv; eauto).
      assert (Hsr : In sr sl) by (apply Hl; now left). rewrite Forall_forall in HF'. destruct (HF' sr Hsr) as [A B].
      apply (solve_frame topo loc g Hok Hg conv z D S _ _ HDS Hto Hfr sr m0 A B).
      assert (In r Fs) by (unfold Fs; simpl in *; tauto). assert (r <> fst sr).
      { unfold sl in Hsr. simpl in Hsr, Hr.
        pose proof (X 2%nat 5%nat ltac:(lia) ltac:(lia) ltac:(lia)); pose proof (X 2%nat 6%nat ltac:(lia) ltac:(lia) ltac:(lia)); pose proof (X 2%nat 7%nat ltac:(lia) ltac:(lia) ltac:(lia)); pose proof (X 3%nat 5%nat ltac:(lia) ltac:(lia) ltac:(lia)); pose proof (X 3%nat 6%nat ltac:(lia) ltac:(lia) ltac:(lia)); pose proof (X 3%nat 7%nat ltac:(lia) ltac:(lia) ltac:(lia)); pose proof (X 4%nat 5%nat ltac:(lia) ltac:(lia) ltac:(lia)); pose proof (X 4%nat 6%nat ltac:(lia) ltac:(lia) ltac:(lia)); pose proof (X 4%nat 7%nat ltac:(lia) ltac:(lia) ltac:(lia)); cbn [nth] in *.
        clear ND ND' X. destruct Hsr as [<- | [<- | [<- | [] ]]]; cbn [fst]; lia. }
      intros [E | [E | [E | [] ]]]; subst; auto. }
    apply Fr. apply incl_refl.
Qed.
End I2.

Lemma periodic_odd_refuted :
  ~ (forall py px ny nx g dd f D, 1 <= py -> 1 <= px -> 1 <= ny -> 1 <= nx -> 0 <= g -> distributed_dim2 py px = Ok dd -> f <> D ->
       all_matched (py * px) (to_doubled2 true py px ny nx g dd f D)).
Proof.
  intros H. specialize (H 1 1 1 1 1 0%nat 0%nat 1%nat ltac:(lia) ltac:(lia) ltac:(lia) ltac:(lia) ltac:(lia) eq_refl ltac:(lia) 0 0 ltac:(lia) ltac:(lia)).
  vm_compute in H. inversion H as [|? ? ? ? _ H']. inversion H'.
Qed.
