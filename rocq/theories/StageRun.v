(** Runs of programs made of stages "blocking send, blocking receive, local computation" on a
    non-periodic line of ranks. *)
From Coq Require Import FunctionalExtensionality.
From Verif Require Import Base Comm Blocking SpecBlocking BlockFacts.

Section Stage.
Context {T : Type}.
Notation bop := (@bop T). Notation config := (@config T). Notation lmem := (@lmem T).

Record stage := { dst : Z -> option Z; src : Z -> option Z; sd : list addr; rd : list addr; act : lmem -> lmem }.

Definition stage_prog (st : stage) (r : Z) : list bop := [BSend (dst st r) (sd st); BRecv (src st r) (rd st); BLocal (act st)].
Definition received (st : stage) (m : Z -> lmem) (r : Z) : lmem :=
  match src st r with Some q => write (rd st) (map (m q) (sd st)) (m r) | None => m r end.
Definition stage_mem (n : Z) (st : stage) (m : Z -> lmem) : Z -> lmem :=
  fun r => if (0 <=? r) && (r <? n) then act st (received st m r) else m r.

Record stage_ok (n : Z) (st : stage) : Prop := {
  so_dst : forall r b, 0 <= r < n -> dst st r = Some b -> 0 <= b < n /\ src st b = Some r;
  so_src : forall r b, 0 <= b < n -> src st b = Some r -> 0 <= r < n /\ dst st r = Some b;
  so_len : length (sd st) = length (rd st);
  so_order : (forall r b, 0 <= r < n -> dst st r = Some b -> r < b) \/ (forall r b, 0 <= r < n -> dst st r = Some b -> b < r) }.

Section One.
Variables (n : Z) (st : stage) (rest : Z -> list bop) (m : Z -> lmem).
Hypothesis Hok : stage_ok n st.

Definition rdone (S : list Z) (r : Z) : bool := match src st r with Some q => mem_dec q S | None => true end.
(** The configuration in which exactly the ranks of S have sent. *)
Definition mid (S : list Z) : config :=
  {| pr := fun r => if (0 <=? r) && (r <? n) then
             if mem_dec r S then (if rdone S r then BLocal (act st) :: rest r else BRecv (src st r) (rd st) :: BLocal (act st) :: rest r)
             else stage_prog st r ++ rest r
           else [];
     mm := fun r => if (0 <=? r) && (r <? n) then if mem_dec r S && rdone S r then received st m r else m r else m r;
     ch := fun _ _ => [] |}.

Lemma mem_cons r x S : mem_dec r (x :: S) = (r =? x) || mem_dec r S.
Proof. reflexivity. Qed.
Lemma rangeb r : (0 <=? r) && (r <? n) = true <-> 0 <= r < n.
Proof. rewrite andb_true_iff, Z.leb_le, Z.ltb_lt. reflexivity. Qed.

Lemma dst_neq r b : 0 <= r < n -> dst st r = Some b -> b <> r.
Proof. intros Hr Hd. destruct (so_order n st Hok) as [O|O]; specialize (O r b Hr Hd); lia. Qed.

(** r sends, when its destination (if any) has already sent and its source has not. *)
Lemma mid_step S r : 0 <= r < n -> mem_dec r S = false -> (forall x, mem_dec x S = true -> 0 <= x < n) ->
  (forall b, dst st r = Some b -> mem_dec b S = true) -> (forall q, src st r = Some q -> mem_dec q S = false) ->
  bsteps false (mid S) (mid (r :: S)).
Proof.
  intros Hr HrS HS Hd Hs.
  assert (Er : (0 <=? r) && (r <? n) = true) by now apply rangeb.
  assert (Pr : pr (mid S) r = BSend (dst st r) (sd st) :: BRecv (src st r) (rd st) :: BLocal (act st) :: rest r).
  { simpl. rewrite Er, HrS. reflexivity. }
  (* after the send *)
  set (c1 := {| pr := fun x => if x =? r then BRecv (src st r) (rd st) :: BLocal (act st) :: rest r else pr (mid (r :: S)) x;
                mm := mm (mid (r :: S)); ch := fun _ _ => [] |} : config).
  assert (S1 : bsteps false (mid S) c1).
  { apply bsteps_one. destruct (dst st r) as [b|] eqn:Ed.
    - pose proof (Hd b eq_refl) as Hb. destruct (so_dst n st Hok r b Hr Ed) as [Hbn Hsb]. pose proof (dst_neq r b Hr Ed) as Hne.
      assert (Eb : (0 <=? b) && (b <? n) = true) by now apply rangeb.
      assert (Pb : pr (mid S) b = BRecv (Some r) (rd st) :: BLocal (act st) :: rest b).
      { simpl. rewrite Eb, Hb. unfold rdone. rewrite Hsb, HrS. reflexivity. }
      pose proof (st_rdv false r b (sd st) (rd st) _ _ (mid S) (not_eq_sym Hne) Pr Pb eq_refl (so_len n st Hok)) as St.
      match type of St with bstep _ _ ?x => replace c1 with x; [exact St|] end.
      apply config_eq; [| |reflexivity]; apply functional_extensionality; intros x.
      + unfold upd. cbn [mid pr]. destruct (Z.eqb_spec x b) as [-> |Hxb].
        * rewrite (proj2 (Z.eqb_neq b r) Hne), Eb. rewrite mem_cons, Hb, orb_true_r. unfold rdone. rewrite Hsb, mem_cons, Z.eqb_refl. reflexivity.
        * destruct (Z.eqb_spec x r) as [-> |Hxr]; [reflexivity|]. destruct ((0 <=? x) && (x <? n)) eqn:Ex; [|reflexivity]. apply rangeb in Ex.
          rewrite mem_cons, (proj2 (Z.eqb_neq x r) Hxr). cbn [orb]. destruct (mem_dec x S); [|reflexivity].
          assert (R : rdone (r :: S) x = rdone S x); [|now rewrite R]. unfold rdone. destruct (src st x) as [q|] eqn:Eq; [|reflexivity]. rewrite mem_cons.
          destruct (Z.eqb_spec q r) as [-> |]; [|reflexivity]. destruct (so_src n st Hok r x Ex Eq) as [_ E']. congruence.
      + unfold upd. cbn [mid mm]. destruct (Z.eqb_spec x b) as [-> |Hxb].
        * rewrite Eb, mem_cons, Hb, orb_true_r, Er, HrS. cbn [andb orb]. unfold rdone. rewrite Hsb, HrS, mem_cons, Z.eqb_refl. cbn [orb]. unfold received. now rewrite Hsb.
        * destruct ((0 <=? x) && (x <? n)) eqn:Ex; [|reflexivity]. apply rangeb in Ex. rewrite mem_cons.
          destruct (Z.eqb_spec x r) as [-> |Hxr].
          -- rewrite HrS. cbn [orb andb]. unfold rdone, received. destruct (src st r) as [q|] eqn:Eq; [|reflexivity]. rewrite mem_cons, (Hs q eq_refl), orb_false_r.
             destruct (Z.eqb_spec q r) as [-> |]; [|reflexivity]. destruct (so_src n st Hok r r Hr Eq) as [_ E']. assert (b = r) by congruence. contradiction.
          -- cbn [orb]. assert (R : rdone (r :: S) x = rdone S x); [|now rewrite R]. unfold rdone. destruct (src st x) as [q|] eqn:Eq; [|reflexivity]. rewrite mem_cons.
             destruct (Z.eqb_spec q r) as [-> |]; [|reflexivity]. destruct (so_src n st Hok r x Ex Eq) as [_ E']. congruence.
    - pose proof (st_snull false r (sd st) _ (mid S) Pr) as St. match type of St with bstep _ _ ?x => replace c1 with x; [exact St|] end.
      assert (Rx : forall x, 0 <= x < n -> rdone (r :: S) x = rdone S x).
      { intros x Ex. unfold rdone. destruct (src st x) as [q|] eqn:Eq; [|reflexivity]. rewrite mem_cons. destruct (Z.eqb_spec q r) as [-> |]; [|reflexivity].
        destruct (so_src n st Hok r x Ex Eq) as [_ E']. congruence. }
      apply config_eq; [| |reflexivity]; apply functional_extensionality; intros x.
      + unfold upd. cbn [mid pr]. destruct (Z.eqb_spec x r) as [-> |Hxr]; [reflexivity|]. destruct ((0 <=? x) && (x <? n)) eqn:Ex; [|reflexivity]. apply rangeb in Ex.
        rewrite mem_cons, (proj2 (Z.eqb_neq x r) Hxr), Rx by auto. reflexivity.
      + cbn [mid mm]. destruct ((0 <=? x) && (x <? n)) eqn:Ex; [|reflexivity]. apply rangeb in Ex. rewrite mem_cons, Rx by auto.
        destruct (Z.eqb_spec x r) as [-> |Hxr]; [|reflexivity]. rewrite HrS. cbn [orb andb]. unfold rdone, received. destruct (src st r) as [q|] eqn:Eq; [|reflexivity]. now rewrite (Hs q eq_refl). }
  eapply bsteps_trans; [exact S1|].
  destruct (src st r) as [q|] eqn:Eq.
  - eapply bsteps_eq; [constructor|]. apply config_eq; [|reflexivity|reflexivity]. apply functional_extensionality. intros x. unfold c1. cbn [pr].
    destruct (Z.eqb_spec x r) as [-> |]; [|reflexivity]. cbn [mid pr]. rewrite Er, mem_cons, Z.eqb_refl. cbn [orb]. unfold rdone. rewrite Eq, mem_cons, (Hs q eq_refl), orb_false_r.
    destruct (Z.eqb_spec q r) as [-> |]; [|reflexivity]. destruct (so_src n st Hok r r Hr Eq) as [_ E']. exfalso. exact (dst_neq r r Hr E' eq_refl).
  - apply bsteps_one. assert (P1 : pr c1 r = BRecv None (rd st) :: BLocal (act st) :: rest r) by (unfold c1; cbn [pr]; now rewrite Z.eqb_refl).
    pose proof (st_rnull false r (rd st) _ c1 P1) as St. match type of St with bstep _ _ ?x => replace (mid (r :: S)) with x; [exact St|] end.
    apply config_eq; [|reflexivity|reflexivity]. apply functional_extensionality. intros x. unfold upd, c1. cbn [pr]. destruct (Z.eqb_spec x r) as [-> |]; [|reflexivity].
    cbn [mid pr]. rewrite Er, mem_cons, Z.eqb_refl. cbn [orb]. unfold rdone. now rewrite Eq.
Qed.

Lemma mids L : NoDup L -> (forall x, In x L -> 0 <= x < n) ->
  (forall A r B, L = A ++ r :: B -> (forall b, dst st r = Some b -> In b B) /\ (forall q, src st r = Some q -> ~ In q B)) ->
  bsteps false (mid []) (mid L).
Proof.
  induction L as [|r L IH]; intros Hn Hr Hd; [constructor|]. inversion Hn; subst. eapply bsteps_trans; [apply IH|].
  - assumption.
  - intros x Hx. apply Hr. now right.
  - intros A x B E. apply (Hd (r :: A) x B). now rewrite E.
  - destruct (Hd [] r L eq_refl) as [D1 D2]. apply mid_step.
    + apply Hr. now left.
    + destruct (mem_dec r L) eqn:E; auto. apply mem_dec_spec in E. contradiction.
    + intros x Hx. apply mem_dec_spec in Hx. apply Hr. now right.
    + intros b Hb. apply mem_dec_spec. auto.
    + intros q Hq. destruct (mem_dec q L) eqn:E; auto. apply mem_dec_spec in E. exfalso. eapply D2; eauto.
Qed.
End One.

Definition at_rest (n : Z) (rest : Z -> list bop) (m : Z -> lmem) : config :=
  {| pr := fun r => if (0 <=? r) && (r <? n) then rest r else []; mm := m; ch := fun _ _ => [] |}.

(** All ranks run one local computation. *)
Lemma locals_run n (f : lmem -> lmem) rest m : 
  bsteps false (at_rest n (fun r => BLocal f :: rest r) m) (at_rest n rest (fun r => if (0 <=? r) && (r <? n) then f (m r) else m r)).
Proof.
  assert (G : forall L, NoDup L -> (forall x, In x L -> 0 <= x < n) -> bsteps false (at_rest n (fun r => BLocal f :: rest r) m)
    {| pr := fun r => if (0 <=? r) && (r <? n) then if mem_dec r L then rest r else BLocal f :: rest r else [];
       mm := fun r => if mem_dec r L then f (m r) else m r; ch := fun _ _ => [] |}).
  { induction L as [|x L IH]; intros Hn Hr.
    - eapply bsteps_eq; [constructor|]. reflexivity.
    - inversion Hn as [|? ? Hx Hn']; subst. eapply bsteps_trans; [apply IH; auto; intros; apply Hr; now right|]. apply bsteps_one.
      assert (Ex : (0 <=? x) && (x <? n) = true) by (rewrite andb_true_iff, Z.leb_le, Z.ltb_lt; apply Hr; now left).
      assert (Mx : mem_dec x L = false) by (destruct (mem_dec x L) eqn:E; auto; apply mem_dec_spec in E; contradiction).
      match goal with |- bstep _ ?c _ => assert (P : pr c x = BLocal f :: rest x) by (cbn [pr]; rewrite Ex, Mx; reflexivity); pose proof (st_local false x f (rest x) c P) as St end.
      match type of St with bstep _ _ ?y => match goal with |- bstep _ _ ?w => replace w with y; [exact St|] end end.
      apply config_eq; [| |reflexivity]; apply functional_extensionality; intros y; unfold upd; cbn [pr mm]; rewrite mem_cons; destruct (Z.eqb_spec y x) as [-> |Hy]; cbn [orb]; try reflexivity.
      + now rewrite Ex.
      + now rewrite Mx. }
  eapply bsteps_eq; [apply (G (zrange 0 n)); [apply zrange_NoDup|intros x Hx; apply zrange_In in Hx; lia]|].
  assert (M : forall r, mem_dec r (zrange 0 n) = (0 <=? r) && (r <? n)).
  { intros r. apply Bool.eq_true_iff_eq. rewrite mem_dec_spec, zrange_In, andb_true_iff, Z.leb_le, Z.ltb_lt. lia. }
  apply config_eq; [| |reflexivity]; apply functional_extensionality; intros r; rewrite M; destruct (_ && _); reflexivity.
Qed.

Lemma zrange_split n A r B : zrange 0 n = A ++ r :: B -> forall x, (In x A -> x < r) /\ (In x B -> r < x).
Proof.
  assert (G : forall k lo A B, map (fun j => 0 + Z.of_nat j) (seq lo k) = A ++ r :: B -> forall x, (In x A -> x < r) /\ (In x B -> r < x)).
  { induction k as [|k IH]; intros lo A' B' E x; [destruct A'; discriminate|]. cbn [seq map] in E. destruct A' as [|a A']; cbn [app] in E; injection E as E0 E.
    - split; [intros []|]. intros Hx. rewrite <- E in Hx. apply in_map_iff in Hx as (j & <- & Hj). apply in_seq in Hj. lia.
    - destruct (IH _ _ _ E x) as [I1 I2]. split; auto. intros [<- |Hx]; auto.
      assert (Hr : In r (A' ++ r :: B')) by (apply in_app_iff; right; now left). rewrite <- E in Hr. apply in_map_iff in Hr as (j & <- & Hj). apply in_seq in Hj. lia. }
  intros E. exact (G _ _ _ _ E).
Qed.

Lemma stage_run n st rest m : stage_ok n st ->
  bsteps false (at_rest n (fun r => stage_prog st r ++ rest r) m) (at_rest n rest (stage_mem n st m)).
Proof.
  intros Hok.
  assert (E : exists L, NoDup L /\ (forall x, In x L <-> 0 <= x < n) /\
    (forall A r B, L = A ++ r :: B -> (forall b, dst st r = Some b -> In b B) /\ (forall q, src st r = Some q -> ~ In q B))).
  { destruct (so_order n st Hok) as [O|O].
    - exists (zrange 0 n). split; [apply zrange_NoDup|]. split; [intros; rewrite zrange_In; lia|]. intros A r B E.
      assert (Hr : 0 <= r < n) by (assert (In r (zrange 0 n)) as H by (rewrite E; apply in_app_iff; right; now left); apply zrange_In in H; lia). split.
      + intros b Hb. destruct (so_dst n st Hok r b Hr Hb) as [Hbn _]. pose proof (O r b Hr Hb) as Hlt.
        assert (Hi : In b (zrange 0 n)) by (apply zrange_In; lia). rewrite E in Hi. apply in_app_iff in Hi as [Hi|[Hi|Hi]]; auto; [|lia].
        apply (proj1 (zrange_split n A r B E b)) in Hi. lia.
      + intros q Hq Hi. destruct (so_src n st Hok q r Hr Hq) as [Hqn Hd]. specialize (O q r Hqn Hd). apply (proj2 (zrange_split n A r B E q)) in Hi. lia.
    - exists (rev (zrange 0 n)). split; [apply NoDup_rev, zrange_NoDup|]. split; [intros; rewrite <- in_rev, zrange_In; lia|]. intros A r B E0.
      assert (E : zrange 0 n = rev B ++ r :: rev A).
      { rewrite <- (rev_involutive (zrange 0 n)), E0, rev_app_distr. cbn [rev]. now rewrite <- app_assoc. }
      assert (Hr : 0 <= r < n) by (assert (In r (zrange 0 n)) as H by (rewrite E; apply in_app_iff; right; now left); apply zrange_In in H; lia). split.
      + intros b Hb. destruct (so_dst n st Hok r b Hr Hb) as [Hbn _]. pose proof (O r b Hr Hb) as Hlt.
        assert (Hi : In b (zrange 0 n)) by (apply zrange_In; lia). rewrite E in Hi. apply in_app_iff in Hi as [Hi|[Hi|Hi]]; [now apply in_rev|lia|].
        apply (proj2 (zrange_split n _ r _ E b)) in Hi. lia.
      + intros q Hq Hi. destruct (so_src n st Hok q r Hr Hq) as [Hqn Hd]. specialize (O q r Hqn Hd). apply in_rev in Hi. apply (proj1 (zrange_split n _ r _ E q)) in Hi. lia. }
  destruct E as (L & E1 & E2 & E3).
  assert (M : forall r, mem_dec r L = (0 <=? r) && (r <? n)).
  { intros r. apply Bool.eq_true_iff_eq. rewrite mem_dec_spec, E2, andb_true_iff, Z.leb_le, Z.ltb_lt. lia. }
  assert (R : forall r, 0 <= r < n -> rdone st L r = true).
  { intros r Hr. unfold rdone. destruct (src st r) as [q|] eqn:Eq; auto. destruct (so_src n st Hok q r Hr Eq) as [Hq _]. now apply mem_dec_spec, E2. }
  eapply bsteps_trans; [|eapply bsteps_trans].
  - eapply bsteps_eq; [constructor|]. instantiate (1 := mid n st rest m []). apply config_eq; [reflexivity| |reflexivity].
    apply functional_extensionality. intros r. cbn. now destruct (_ && _).
  - apply (mids n st rest m Hok L E1); [intros; now apply E2|exact E3].
  - eapply bsteps_trans; [|eapply bsteps_eq; [apply (locals_run n (act st) rest (fun r => if (0 <=? r) && (r <? n) then received st m r else m r))|]].
    + eapply bsteps_eq; [constructor|]. apply config_eq; [| |reflexivity]; apply functional_extensionality; intros r; rewrite M;
        destruct ((0 <=? r) && (r <? n)) eqn:Er; auto; apply andb_true_iff in Er; rewrite Z.leb_le, Z.ltb_lt in Er; now rewrite R by lia.
    + apply config_eq; [reflexivity| |reflexivity]. apply functional_extensionality. intros r. unfold stage_mem. now destruct (_ && _).
Qed.

Definition local_mem (n : Z) (f : lmem -> lmem) (m : Z -> lmem) : Z -> lmem := fun r => if (0 <=? r) && (r <? n) then f (m r) else m r.

(** A whole program: stages, then a local computation. *)
Lemma stages_run n sts fin m : Forall (stage_ok n) sts ->
  runs_to n (fun r => flat_map (fun st => stage_prog st r) sts ++ [BLocal fin]) m (local_mem n fin (fold_left (fun m st => stage_mem n st m) sts m)).
Proof.
  intros H. apply runs_to_intro. change (start n ?p m) with (at_rest n p m). revert m. induction H as [|st sts Hst H IH]; intros m; cbn [flat_map fold_left].
  - cbn [app]. eapply bsteps_eq; [apply (locals_run n fin (fun _ => []) m)|]. apply config_eq; auto. apply functional_extensionality. intros r. now destruct (_ && _).
  - eapply bsteps_trans; [|apply IH]. eapply bsteps_eq; [|reflexivity].
    replace (fun r => (stage_prog st r ++ flat_map (fun st => stage_prog st r) sts) ++ [BLocal fin]) with (fun r => stage_prog st r ++ (flat_map (fun st => stage_prog st r) sts ++ [BLocal fin])).
    + now apply stage_run.
    + apply functional_extensionality. intros r. now rewrite app_assoc.
Qed.
End Stage.
