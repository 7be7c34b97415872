(** What a serial Navier-Stokes step forgets (used for restarts, C56). *)
From Coq Require Import FunctionalExtensionality.
From Verif Require Import Base SpecGrid SpecGhost SpecStencil SpecStep SpecPenalise SpecFilter SpecDouble SpecNS Comm Spmd GhostGeo HaloProofs HaloKernels PenaliseProofs StepProofs NSBase NSHalo NSSteps NS3D.
From Verif Require IoLagProofs.

(** At least k cells away from the boundary. *)
Definition deep (k : Z) (N P : list Z) : Prop := length P = length N /\ forall a, (a < length N)%nat -> k <= nth a P 0 < nth a N 0 - k.
Lemma deep_inb k N P : 0 <= k -> deep k N P -> inb N P.
Proof. intros Hk [L H]. apply inb_by_nth; auto. intros a Ha. specialize (H a Ha). lia. Qed.
Lemma deep_star k j N P d : deep (k + j) N P -> star (length N) j d -> deep k N (vadd P d).
Proof.
  intros [L H] (b & c & Hb & Hc & ->). split; [rewrite vadd_length; rewrite ?axis_len; lia|]. intros a Ha. specialize (H a Ha).
  rewrite nth_vadd by (rewrite ?axis_len; lia). rewrite axis_nth by lia. destruct (Nat.eqb_spec a b); lia.
Qed.
Lemma deep_le k k' N P : k <= k' -> deep k' N P -> deep k N P.
Proof. intros Hk [L H]. split; auto. intros a Ha. specialize (H a Ha). lia. Qed.

(** *** A sponge of width w only looks at cells at distance w-1 from the boundary *)
Section Sponge.
Context {T C : Type}.
Variables (damp : C -> C -> T -> T) (coord : nat -> Z -> C) (N : list Z) (w : Z).
Hypothesis Hw : 1 <= w.
Hypothesis HwN : Forall (fun n => 2 * w <= n) N.
Definition core_except (S : list nat) (u u' : list Z -> T) : Prop :=
  forall P, length P = length N -> (forall b, (b < length N)%nat -> ~ In b S -> w - 1 <= nth b P 0 <= nth b N 0 - w) -> u P = u' P.
Lemma sponge_axis_core S a u u' : (a < length N)%nat -> core_except S u u' ->
  core_except (a :: S) (sponge_back damp coord N w a (sponge_front damp coord w a u)) (sponge_back damp coord N w a (sponge_front damp coord w a u')).
Proof.
  intros Ha H P Hl HP.
  assert (HaN : 2 * w <= nth a N 0) by (rewrite Forall_forall in HwN; apply HwN; now apply nth_In).
  assert (K : forall v, w - 1 <= v <= nth a N 0 - w -> u (setn P a v) = u' (setn P a v)).
  { intros v Hv. apply H; [now rewrite setn_len|]. intros b Hb Hn. destruct (Nat.eq_dec a b) as [<-|Hne].
    - rewrite nth_setn_eq by lia. auto.
    - rewrite nth_setn_neq by auto. apply HP; auto. simpl. tauto. }
  unfold sponge_back. destruct (Z.leb_spec (nth a N 0 - w) (nth a P 0)) as [H1|H1].
  - f_equal. unfold sponge_front. rewrite nth_setn_eq by lia. rewrite setn_setn. destruct (Z.ltb_spec (nth a N 0 - w) w); [lia|]. apply K; lia.
  - unfold sponge_front. destruct (Z.ltb_spec (nth a P 0) w) as [H2|H2]; [f_equal; apply K; lia|].
    apply H; auto. intros b Hb Hn. destruct (Nat.eq_dec a b) as [<-|Hne]; [lia|]. apply HP; auto. simpl. tauto.
Qed.
Lemma sponge_deep axes k u u' : k + 1 <= w -> Forall (fun a => (a < length N)%nat) axes -> (forall a, (a < length N)%nat -> In a axes) ->
  (forall P, deep k N P -> u P = u' P) -> forall P, length P = length N ->
  sponge damp coord N w false axes u P = sponge damp coord N w false axes u' P.
Proof.
  intros Hk Hax Hall HU. unfold sponge. replace (w =? 0) with false by (symmetry; apply Z.eqb_neq; lia). cbn [orb].
  assert (X : forall l S v v', Forall (fun a => (a < length N)%nat) l -> core_except S v v' ->
    core_except (rev l ++ S) (fold_left (fun u a => sponge_back damp coord N w a (sponge_front damp coord w a u)) l v)
      (fold_left (fun u a => sponge_back damp coord N w a (sponge_front damp coord w a u)) l v')).
  { induction l as [|a l IH]; intros S v v' Hl H; [exact H|]. inversion Hl; subst. cbn [fold_left rev]. rewrite <- app_assoc. apply IH; auto. now apply sponge_axis_core. }
  assert (B : core_except [] u u').
  { intros P Hl HP. apply HU. split; auto. intros a Ha. specialize (HP a Ha (fun x => x)). lia. }
  intros P Hl. apply (X axes [] u u' Hax B P Hl). intros b Hb Hn. exfalso. apply Hn. rewrite app_nil_r, <- in_rev. auto.
Qed.
End Sponge.

(** *** Pieces of a step *)
Section Pieces.
Context {T : Type}.
Variables (add : T -> T -> T) (z : T) (N : list Z).
Notation kfn := ((nat -> list Z -> T) -> T -> T).
Implicit Types u : nat -> list Z -> T.

Lemma euler_deep reset fld K ins k j u u' : 0 <= k -> 0 <= j -> star_local (length N) ins j K ->
  (forall P, deep k N P -> u fld P = u' fld P) -> (forall f P, In f ins -> deep k N P -> u f P = u' f P) ->
  forall P, deep (k + j) N P -> euler_step false N add z reset fld K u fld P = euler_step false N add z reset fld K u' fld P.
Proof.
  intros Hk Hj HK Hf HU P HP. unfold euler_step. rewrite Nat.eqb_refl. rewrite (Hf P) by (eapply deep_le; [|exact HP]; lia). f_equal.
  destruct (inbb N P && negb (reset && edgeb false N P)); auto.
  apply HK. intros f d Hin Hd. unfold norm. apply HU; auto. eapply deep_star; eauto.
Qed.
Lemma euler_off per reset fld K u f P : f <> fld -> euler_step per N add z reset fld K u f P = u f P.
Proof. intros H. unfold euler_step. now rewrite (proj2 (Nat.eqb_neq f fld) H). Qed.
Lemma solve_same conv u u' s r : (forall P, inb N P -> u r P = u' r P) -> forall P, inb N P -> solve_effect conv z N u (s, r) s P = solve_effect conv z N u' (s, r) s P.
Proof.
  intros H P HP. unfold solve_effect. cbn [fst snd]. rewrite Nat.eqb_refl. unfold pad. rewrite (proj2 (inbb_spec N P) HP).
  unfold poisson. f_equal. apply functional_extensionality. intros Q. unfold pad. destruct (inbb N Q) eqn:E; auto. apply H. now apply inbb_spec.
Qed.
Lemma solve_off conv u s r f P : f <> s -> solve_effect conv z N u (s, r) f P = u f P.
Proof. intros H. unfold solve_effect. cbn [fst]. now rewrite (proj2 (Nat.eqb_neq f s) H). Qed.
Lemma over_same (k : list (nat * kfn)) ins u u' o K P : NoDup (map fst k) -> In (o, K) k -> star_local (length N) ins 1 K ->
  (forall f Q, In f ins -> inb N Q -> u f Q = u' f Q) -> overwrite_interior z N k u o P = overwrite_interior z N k u' o P.
Proof.
  intros Hn Hin HK HU. unfold overwrite_interior. rewrite !(apply_at k _ _ _ _ o K) by auto.
  destruct (inbb N P) eqn:E1; [|reflexivity]. destruct (edgeb false N P) eqn:E2; [reflexivity|]. cbn [andb negb].
  apply HK. intros f d Hf Hd. apply HU; auto. apply inside_star; auto. now apply inbb_spec.
Qed.
Lemma over_off (k : list (nat * kfn)) u f P : ~ In f (map fst k) -> overwrite_interior z N k u f P = u f P.
Proof. intros H. unfold overwrite_interior. now apply apply_off. Qed.
Lemma free_same vs u u' f P : NoDup (map fst vs) -> u f P = u' f P -> free_stream add vs u f P = free_stream add vs u' f P.
Proof.
  intros Hn H. unfold free_stream, update_everywhere. set (k := map _ vs).
  assert (Ek : map fst k = map fst vs) by (unfold k; rewrite map_map; apply map_ext; reflexivity).
  destruct (in_dec Nat.eq_dec f (map fst vs)) as [Hi|Hi].
  - apply in_map_iff in Hi as ((f' & a) & <- & Hi). cbn [fst] in *.
    assert (Hk : In (f', fun (_ : nat -> list Z -> T) v => add v a) k) by (unfold k; apply in_map_iff; exists (f', a); auto).
    rewrite <- Ek in Hn. rewrite !(apply_at k _ _ _ _ f' (fun (_ : nat -> list Z -> T) v => add v a) P Hn Hk). now rewrite H.
  - rewrite <- Ek in Hi. rewrite !(apply_off k _ _ _ _ f P Hi). exact H.
Qed.
Lemma fill_off fs v u f P : ~ In f fs -> fill fs v u f P = u f P.
Proof. intros H. unfold fill. destruct (in_dec Nat.eq_dec f fs); [contradiction|reflexivity]. Qed.
Lemma put_off F fv u f P : ~ In f F -> put_forcing z N F fv u f P = u f P.
Proof. intros H. unfold put_forcing. destruct (in_dec Nat.eq_dec f F); [contradiction|reflexivity]. Qed.
Lemma put_on F fv u u' f P : In f F -> put_forcing z N F fv u f P = put_forcing z N F fv u' f P.
Proof. intros H. unfold put_forcing. destruct (in_dec Nat.eq_dec f F); [reflexivity|contradiction]. Qed.
Lemma upd_same (k : list (nat * kfn)) ins j u u' o K P : NoDup (map fst k) -> In (o, K) k -> star_local (length N) ins j K ->
  (forall f d, In f ins -> star (length N) j d -> u f (vadd P d) = u' f (vadd P d)) -> u o P = u' o P -> update_inside N k u o P = update_inside N k u' o P.
Proof.
  intros Hn Hin HK HU Ho. unfold update_inside. rewrite !(apply_at k _ _ _ _ o K) by auto. destruct (inbb N P); auto. rewrite Ho. now apply HK.
Qed.
Lemma upd_off (k : list (nat * kfn)) u f P : ~ In f (map fst k) -> update_inside N k u f P = u f P.
Proof. intros H. unfold update_inside. now apply apply_off. Qed.
End Pieces.

(** *** 2D *)
Section Two.
Context {T C : Type}.
Notation kfn := ((nat -> list Z -> T) -> T -> T).
Variables (add : T -> T -> T) (z : T) (damp : C -> C -> T -> T) (coord : nat -> Z -> C) (width : Z)
          (conv : (list Z -> T) -> list Z -> T) (Kcx Kcy : kfn) (N : list Z).
Variables (w psi vx vy fx fy : nat).
Hypothesis Hnd : NoDup [w; psi; vx; vy; fx; fy].
Hypothesis HN : length N = 2%nat.
Hypothesis HKx : star_local 2 [psi] 1 Kcx.
Hypothesis HKy : star_local 2 [psi] 1 Kcy.
Notation serial := (serial_ns_2d add z damp coord width conv Kcx Kcy N w psi vx vy fx fy).

Lemma ne2 : w <> psi /\ w <> vx /\ w <> vy /\ w <> fx /\ w <> fy /\ psi <> vx /\ psi <> vy /\ psi <> fx /\ psi <> fy /\ vx <> vy /\ vx <> fx /\ vx <> fy /\ vy <> fx /\ vy <> fy.
Proof. clear - Hnd. repeat match goal with H : NoDup (_ :: _) |- _ => apply NoDup_cons_iff in H as [? H] end. simpl in *. repeat split; intros E; subst; tauto. Qed.

(** The last part of a step: from the penalised vorticity on. *)
Lemma tail2 (s : @ns2_step T) (u u' : nat -> list Z -> T) :
  (forall P, length P = 2%nat -> u w P = u' w P) ->
  let fin v := let v6 := overwrite_interior z N [(vx, Kcx); (vy, Kcy)] (solve_effect conv z N v (psi, w)) in
               let v7 := match n2_free s with Some (a, b) => free_stream add [(vx, a); (vy, b)] v6 | None => v6 end in
               match n2_frc s with Some _ => fill [fx; fy] z v7 | None => v7 end in
  (forall P, length P = 2%nat -> fin u w P = fin u' w P) /\ (forall P, inb N P -> fin u psi P = fin u' psi P) /\
  (forall f P, In f [vx; vy] -> fin u f P = fin u' f P).
Proof.
  intros Hu fin. pose proof ne2 as D.
  assert (Hk : NoDup (map fst [(vx, Kcx); (vy, Kcy)])) by (cbn; constructor; [cbn; intuition congruence|constructor; [tauto|constructor]]).
  assert (Hf2 : forall a b : T, NoDup (map fst [(vx, a); (vy, b)])) by (intros; cbn; constructor; [cbn; intuition congruence|constructor; [tauto|constructor]]).
  assert (H5 : forall P, inb N P -> solve_effect conv z N u (psi, w) psi P = solve_effect conv z N u' (psi, w) psi P).
  { apply solve_same. intros P HP. apply Hu. apply inb_length in HP. congruence. }
  assert (H5w : forall P, length P = 2%nat -> solve_effect conv z N u (psi, w) w P = solve_effect conv z N u' (psi, w) w P).
  { intros P HP. rewrite !solve_off by (intuition congruence). auto. }
  set (v5 := solve_effect conv z N u (psi, w)) in *. set (v5' := solve_effect conv z N u' (psi, w)) in *.
  assert (Gen : forall f P, In f [w; psi; vx; vy] ->
    overwrite_interior z N [(vx, Kcx); (vy, Kcy)] v5 f P = overwrite_interior z N [(vx, Kcx); (vy, Kcy)] v5' f P -> fin u f P = fin u' f P).
  { intros f P Hf E. unfold fin. fold v5 v5'.
    assert (E7 : match n2_free s with Some (a, b) => free_stream add [(vx, a); (vy, b)] (overwrite_interior z N [(vx, Kcx); (vy, Kcy)] v5) | None => overwrite_interior z N [(vx, Kcx); (vy, Kcy)] v5 end f P
      = match n2_free s with Some (a, b) => free_stream add [(vx, a); (vy, b)] (overwrite_interior z N [(vx, Kcx); (vy, Kcy)] v5') | None => overwrite_interior z N [(vx, Kcx); (vy, Kcy)] v5' end f P).
    { destruct (n2_free s) as [[a b]|]; auto. apply free_same; auto. }
    destruct (n2_frc s); [|exact E7]. rewrite !fill_off; auto; clear - D Hf; simpl in *; intuition congruence. }
  split; [|split].
  - intros P HP. apply Gen; [simpl; auto|]. rewrite !over_off by (cbn; intuition congruence). auto.
  - intros P HP. apply Gen; [simpl; auto|]. rewrite !over_off by (cbn; intuition congruence). auto.
  - intros f P [<-|[<-|[]]]; (apply Gen; [simpl; auto|]).
    + apply (over_same z N _ [psi] v5 v5' vx Kcx); auto; [simpl; auto|rewrite HN; auto|]. intros f Q [<-|[]]. auto.
    + apply (over_same z N _ [psi] v5 v5' vy Kcy); auto; [simpl; auto|rewrite HN; auto|]. intros f Q [<-|[]]. auto.
Qed.

(** With a sponge at least four cells wide a step only looks at the domain. *)
Lemma step2_forgets (s : @ns2_step T) u u' : 4 <= width -> Forall (fun n => 2 * width <= n) N -> ns2_shapes w vx vy fx fy s ->
  (forall f P, In f [w; vx; vy] -> inb N P -> u f P = u' f P) ->
  forall f P, In f [w; psi; vx; vy] -> inb N P -> serial u s f P = serial u' s f P.
Proof.
  intros Hw HwN (HA & HD & _ & HF) HU f P Hf HP.
  unfold serial_ns_2d. set (u1 := match n2_frc s with Some (K, fv) => update_inside N [(w, K)] (put_forcing z N [fx; fy] fv u) | None => u end).
  set (u1' := match n2_frc s with Some (K, fv) => update_inside N [(w, K)] (put_forcing z N [fx; fy] fv u') | None => u' end).
  assert (H1 : forall f P, In f [w; vx; vy] -> inb N P -> u1 f P = u1' f P).
  { clear f P Hf HP. intros f P Hf HP. pose proof ne2 as D. unfold u1, u1'. destruct (n2_frc s) as [[K fv]|]; [|auto].
    assert (Hnf : ~ In f [fx; fy]) by (clear - D Hf; simpl in *; intuition congruence).
    destruct (Nat.eq_dec f w) as [->|Hne].
    - apply (upd_same N _ [fx; fy] 1 _ _ w K); [repeat constructor; simpl; tauto|simpl; auto|rewrite HN; exact HF| |].
      + intros f d Hin _. now apply put_on.
      + rewrite !put_off by auto. auto.
    - rewrite !upd_off by (simpl; intuition congruence). rewrite !put_off by auto. auto. }
  clearbody u1 u1'. revert u1 u1' H1. intros u1 u1' H1.
  set (u2 := euler_step false N add z false w (n2_adv s) u1). set (u2' := euler_step false N add z false w (n2_adv s) u1').
  assert (H2 : forall P, deep 2 N P -> u2 w P = u2' w P).
  { intros Q HQ. apply (euler_deep add z N false w _ [w; vx; vy] 0 2); auto; try lia; [rewrite HN; exact HA| |].
    - intros R HR. apply H1; [simpl; auto|]. eapply deep_inb; [|exact HR]. lia.
    - intros h R Hh HR. apply H1; auto. eapply deep_inb; [|exact HR]. lia. }
  clearbody u2 u2'. revert u2 u2' H2. intros u2 u2' H2.
  set (u3 := euler_step false N add z true w (n2_dif s) u2). set (u3' := euler_step false N add z true w (n2_dif s) u2').
  assert (H3 : forall P, deep 3 N P -> u3 w P = u3' w P).
  { intros Q HQ. apply (euler_deep add z N true w _ [w] 2 1); auto; try lia; [rewrite HN; exact HD|]. intros h R [<-|[]]. auto. }
  clearbody u3 u3'. revert u3 u3' H3. intros u3 u3' H3.
  set (u4 := on_fields [w] (sponge damp coord N width false [1; 0]%nat) u3). set (u4' := on_fields [w] (sponge damp coord N width false [1; 0]%nat) u3').
  assert (H4 : forall P, length P = 2%nat -> u4 w P = u4' w P).
  { intros Q HQ. unfold u4, u4', on_fields. destruct (in_dec Nat.eq_dec w [w]) as [_|n]; [|exfalso; apply n; simpl; auto].
    apply (sponge_deep damp coord N width ltac:(lia) HwN [1; 0]%nat 3); auto; try lia.
    - repeat constructor; lia.
    - intros a Ha. simpl. lia. }
  clearbody u4 u4'. revert u4 u4' H4. intros u4 u4' H4.
  destruct (tail2 s u4 u4' H4) as (A & B & E).
  destruct Hf as [<-|[<-|[<-|[<-|[]]]]]; [apply A|apply B|apply E|apply E]; simpl; auto. apply inb_length in HP. congruence.
Qed.

(** Whatever the sponge, a step does not look at the old stream function. *)
Lemma step2_no_psi (s : @ns2_step T) u u' : ns2_shapes w vx vy fx fy s ->
  (forall f P, In f [w; vx; vy] -> length P = 2%nat -> u f P = u' f P) ->
  (forall f P, In f [w; vx; vy] -> length P = 2%nat -> serial u s f P = serial u' s f P) /\ (forall P, inb N P -> serial u s psi P = serial u' s psi P).
Proof.
  intros (HA & HD & _ & HF) HU.
  unfold serial_ns_2d. set (u1 := match n2_frc s with Some (K, fv) => update_inside N [(w, K)] (put_forcing z N [fx; fy] fv u) | None => u end).
  set (u1' := match n2_frc s with Some (K, fv) => update_inside N [(w, K)] (put_forcing z N [fx; fy] fv u') | None => u' end).
  assert (H1 : forall f P, In f [w; vx; vy] -> length P = 2%nat -> u1 f P = u1' f P).
  { intros f P Hf HP. pose proof ne2 as D. unfold u1, u1'. destruct (n2_frc s) as [[K fv]|]; [|auto].
    assert (Hnf : ~ In f [fx; fy]) by (clear - D Hf; simpl in *; intuition congruence).
    destruct (Nat.eq_dec f w) as [->|Hne].
    - apply (upd_same N _ [fx; fy] 1 _ _ w K); [repeat constructor; simpl; tauto|simpl; auto|rewrite HN; exact HF| |].
      + intros f d Hin _. now apply put_on.
      + rewrite !put_off by auto. auto.
    - rewrite !upd_off by (simpl; intuition congruence). rewrite !put_off by auto. auto. }
  assert (St : forall j d (Q : list Z), star 2 j d -> length Q = 2%nat -> length (vadd Q d) = 2%nat).
  { intros j d Q (b & c & _ & _ & ->) HQ. rewrite vadd_length; rewrite ?axis_len; lia. }
  set (u2 := euler_step false N add z false w (n2_adv s) u1). set (u2' := euler_step false N add z false w (n2_adv s) u1').
  assert (H2 : forall P, length P = 2%nat -> u2 w P = u2' w P).
  { intros Q HQ. unfold u2, u2', euler_step. rewrite Nat.eqb_refl. rewrite (H1 w Q) by (simpl; auto). f_equal. destruct (inbb N Q && _); auto.
    apply HA. intros f d Hf Hd. unfold norm. apply H1; auto. eapply St; eauto. }
  set (u3 := euler_step false N add z true w (n2_dif s) u2). set (u3' := euler_step false N add z true w (n2_dif s) u2').
  assert (H3 : forall P, length P = 2%nat -> u3 w P = u3' w P).
  { intros Q HQ. unfold u3, u3', euler_step. rewrite Nat.eqb_refl. rewrite (H2 Q) by auto. f_equal. destruct (inbb N Q && _); auto.
    apply HD. intros f d [<-|[]] Hd. unfold norm. apply H2. eapply St; eauto. }
  set (u4 := on_fields [w] (sponge damp coord N width false [1; 0]%nat) u3). set (u4' := on_fields [w] (sponge damp coord N width false [1; 0]%nat) u3').
  assert (H4 : forall P, length P = 2%nat -> u4 w P = u4' w P).
  { unfold u4, u4', on_fields. destruct (in_dec Nat.eq_dec w [w]) as [_|n]; [|exfalso; apply n; simpl; auto].
    unfold sponge. destruct (false || (width =? 0)); auto. cbn [fold_left].
    assert (X : forall a v v', (forall P, length P = 2%nat -> v P = v' P) -> forall P : list Z, length P = 2%nat ->
      sponge_back damp coord N width a (sponge_front damp coord width a v) P = sponge_back damp coord N width a (sponge_front damp coord width a v') P).
    { intros a v v' Hv Q HQ. unfold sponge_back, sponge_front. rewrite !(Hv _) by (rewrite ?setn_len; auto). reflexivity. }
    apply X. apply X. exact H3. }
  destruct (tail2 s u4 u4' H4) as (A & B & E). split; [|exact B].
  intros f P [<-|[<-|[<-|[]]]] HP; [apply A|apply E|apply E]; simpl; auto.
Qed.
End Two.

(** *** The filter with a wide boundary zone *)
Section Filt.
Context {T : Type}.
Variables (lap : T -> T -> T -> T) (sub : T -> T -> T) (z : T) (N : list Z) (bw : Z).
Lemma not_zone P : length P = length N -> zoneb false N bw P = false -> deep bw N P.
Proof.
  intros Hl Hz. split; auto. intros a Ha. unfold zoneb in Hz. cbn [negb andb] in Hz.
  assert (X : forall ab, In ab (combine P N) -> bw <= fst ab < snd ab - bw).
  { intros ab Hin. destruct (Z.leb_spec bw (fst ab)) as [H1|H1].
    - destruct (Z.ltb_spec (fst ab) (snd ab - bw)) as [H2|H2]; [lia|]. exfalso. assert (E : existsb (fun ab => (fst ab <? bw) || (snd ab - bw <=? fst ab)) (combine P N) = true); [|congruence].
      apply existsb_exists. exists ab. split; auto. apply orb_true_iff. right. apply Z.leb_le. lia.
    - exfalso. assert (E : existsb (fun ab => (fst ab <? bw) || (snd ab - bw <=? fst ab)) (combine P N) = true); [|congruence].
      apply existsb_exists. exists ab. split; auto. apply orb_true_iff. left. apply Z.ltb_lt. lia. }
  specialize (X (nth a (combine P N) (0, 0))). rewrite combine_nth in X by auto. cbn [fst snd] in X. apply X.
  rewrite <- (combine_nth P N a 0 0) by auto. apply nth_In. rewrite combine_length. lia.
Qed.
Notation deq := (fun v v' : list Z -> T => forall P, deep (bw - 1) N P -> v P = v' P).
Lemma filt_deep a v v' : (a < length N)%nat -> deq v v' -> forall P, length P = length N -> filt lap z false N bw a v P = filt lap z false N bw a v' P.
Proof.
  intros Ha H P HP. unfold filt. destruct (zoneb false N bw P) eqn:E; auto. apply not_zone in E; auto. unfold norm.
  assert (S : forall d, Z.abs d <= 1 -> v (vadd P (axis_vec (length N) a d)) = v' (vadd P (axis_vec (length N) a d))).
  { intros d Hd. apply H. apply (deep_star (bw - 1) 1); [now replace (bw - 1 + 1) with bw by lia|]. exists a, d. auto. }
  now rewrite !S by lia.
Qed.
Lemma filts_deep axes : Forall (fun a => (a < length N)%nat) axes -> forall v v', deq v v' -> axes <> [] -> forall P, length P = length N -> filts lap z false N bw axes v P = filts lap z false N bw axes v' P.
Proof.
  unfold filts. induction 1 as [|a axes Ha Hax IH]; intros v v' H Hne; [congruence|]. cbn [fold_left].
  assert (H1 : forall P, length P = length N -> filt lap z false N bw a v P = filt lap z false N bw a v' P) by (now apply filt_deep).
  destruct axes as [|b axes']; [exact H1|]. apply IH; [|congruence]. intros P [HP _]. auto.
Qed.
Lemma filts_n_deep n axes v v' : Forall (fun a => (a < length N)%nat) axes -> axes <> [] -> (1 <= n)%nat -> deq v v' ->
  forall P, length P = length N -> filts_n lap z false N bw n axes v P = filts_n lap z false N bw n axes v' P.
Proof.
  intros Hax Hne Hn H. unfold filts_n. destruct n as [|n]; [lia|]. clear Hn. induction n as [|n IH].
  - cbn [Nat.iter nat_rect]. now apply filts_deep.
  - cbn [Nat.iter nat_rect] in *. apply filts_deep; auto. intros P [HP _]. apply IH. auto.
Qed.
(** The filtered field agrees wherever the field does, and everywhere else only the zone matters. *)
Lemma filter_deep k ft order v v' : length N = 3%nat -> (1 <= order)%nat -> k + 1 <= bw ->
  (forall P, deep k N P -> v P = v' P) -> forall P, deep k N P ->
  serial_filter lap sub z false N bw ft order v P = serial_filter lap sub z false N bw ft order v' P.
Proof.
  intros HN Ho Hk H.
  assert (X : forall axes u u', Forall (fun a => (a < 3)%nat) axes -> axes <> [] -> (forall P, deep k N P -> u P = u' P) ->
    forall P, deep k N P -> sub (u P) (filts_n lap z false N bw order axes u P) = sub (u' P) (filts_n lap z false N bw order axes u' P)).
  { intros axes u u' Hax Hne Hu P HP. rewrite (Hu P HP). f_equal. apply filts_n_deep; auto; [now rewrite HN| |now destruct HP].
    intros Q HQ. apply Hu. eapply deep_le; [|exact HQ]. lia. }
  destruct ft; unfold serial_filter, multiplicative, convolution.
  - apply X; [repeat constructor; lia|discriminate|exact H].
  - unfold conv1. do 2 (apply X; [repeat constructor; lia|discriminate|]). apply X; [repeat constructor; lia|discriminate|exact H].
Qed.
End Filt.

(** *** 3D *)
Section Three.
Context {T C : Type}.
Notation kfn := ((nat -> list Z -> T) -> T -> T).
Variables (add : T -> T -> T) (z : T) (damp : C -> C -> T -> T) (coord : nat -> Z -> C) (width : Z)
          (conv : (list Z -> T) -> list Z -> T) (Kcx Kcy Kcz : kfn)
          (lap : T -> T -> T -> T) (sub : T -> T -> T) (filt : option (filter_type * nat * Z)) (N : list Z).
Variables (w0 w1 w2 p0 p1 p2 vx vy vz b0 b1 b2 fx fy fz : nat).
Notation ws := [w0; w1; w2].
Notation ps := [p0; p1; p2].
Notation vs := [vx; vy; vz].
Notation bs := [b0; b1; b2].
Notation fs := [fx; fy; fz].
Hypothesis Hnd : NoDup (ws ++ ps ++ vs ++ fs ++ bs).
Hypothesis HN : length N = 3%nat.
Hypothesis HK : forall K, In K [Kcx; Kcy; Kcz] -> star_local 3 ps 1 K.
Notation serial := (serial_ns_3d add z damp coord width conv Kcx Kcy Kcz lap sub filt N w0 w1 w2 p0 p1 p2 vx vy vz b0 b1 b2 fx fy fz).

Lemma parts : NoDup ws /\ NoDup ps /\ NoDup vs /\ NoDup fs /\ NoDup bs /\
  (forall f, In f ws -> ~ In f (ps ++ vs ++ fs ++ bs)) /\ (forall f, In f ps -> ~ In f (vs ++ fs ++ bs)) /\ (forall f, In f vs -> ~ In f (fs ++ bs)) /\ (forall f, In f fs -> ~ In f bs).
Proof.
  clear - Hnd. apply IoLagProofs.NoDup_app_split in Hnd as (A1 & A & D1). apply IoLagProofs.NoDup_app_split in A as (A2 & A & D2).
  apply IoLagProofs.NoDup_app_split in A as (A3 & A & D3). apply IoLagProofs.NoDup_app_split in A as (A4 & A5 & D4). repeat (split; auto).
Qed.
Lemma three_fst x y t (K : kfn * kfn * kfn) : map fst (three x y t K) = [x; y; t].
Proof. destruct K as [[a b] c]. reflexivity. Qed.
Lemma three_in x y t (K : kfn * kfn * kfn) o : In o [x; y; t] -> exists K', In (o, K') (three x y t K) /\ in3 K' K.
Proof. destruct K as [[a b] c]. intros [<-|[<-|[<-|[]]]]; [exists a|exists b|exists c]; simpl; auto. Qed.

Lemma fold_solve u u' : (forall f P, In f ws -> inb N P -> u f P = u' f P) ->
  (forall f P, In f ps -> inb N P -> solve_all conv z N [(p0, w0); (p1, w1); (p2, w2)] u f P = solve_all conv z N [(p0, w0); (p1, w1); (p2, w2)] u' f P) /\
  (forall f P, ~ In f ps -> solve_all conv z N [(p0, w0); (p1, w1); (p2, w2)] u f P = u f P).
Proof.
  intros Hu. destruct parts as (_ & Hp & _ & _ & _ & Dw & _). unfold solve_all. cbn [fold_left].
  assert (W : forall f, In f ws -> f <> p0 /\ f <> p1 /\ f <> p2).
  { intros f Hf. specialize (Dw f Hf). clear - Dw. simpl in Dw. repeat split; intros ->; tauto. }
  assert (P3 : p0 <> p1 /\ p0 <> p2 /\ p1 <> p2).
  { clear - Hp. inversion Hp as [|? ? A B]; subst. inversion B as [|? ? A' B']; subst. simpl in *. repeat split; intros ->; tauto. }
  destruct P3 as (q1 & q2 & q3). split.
  - intros f P [<-|[<-|[<-|[]]]] HP.
    + rewrite !(solve_off _ _ _ _ p2 _ p0), !(solve_off _ _ _ _ p1 _ p0) by congruence. apply solve_same; auto. intros Q HQ. apply Hu; simpl; auto.
    + rewrite !(solve_off _ _ _ _ p2 _ p1) by congruence. apply solve_same; auto. intros Q HQ. destruct (W w1 ltac:(simpl; auto)) as (a & b & c).
      rewrite !(solve_off _ _ _ _ p0) by congruence. apply Hu; simpl; auto.
    + apply solve_same; auto. intros Q HQ. destruct (W w2 ltac:(simpl; auto)) as (a & b & c).
      rewrite !(solve_off _ _ _ _ p1) by congruence. rewrite !(solve_off _ _ _ _ p0) by congruence. apply Hu; simpl; auto.
  - intros f P Hf. rewrite !solve_off; auto; intros ->; apply Hf; simpl; auto.
Qed.

(** From the penalised vorticity on. *)
Lemma tail3 (s : @ns3_step T) (u u' : nat -> list Z -> T) :
  (forall f P, In f ws -> length P = 3%nat -> u f P = u' f P) ->
  let fin v := let v8 := overwrite_interior z N [(vx, Kcx); (vy, Kcy); (vz, Kcz)] (solve_all conv z N [(p0, w0); (p1, w1); (p2, w2)] v) in
               let v9 := match n3_free s with Some (a, b, c) => free_stream add [(vx, a); (vy, b); (vz, c)] v8 | None => v8 end in
               match n3_frc s with Some _ => fill [fx; fy; fz] z v9 | None => v9 end in
  (forall f P, In f ws -> length P = 3%nat -> fin u f P = fin u' f P) /\ (forall f P, In f ps -> inb N P -> fin u f P = fin u' f P) /\
  (forall f P, In f vs -> fin u f P = fin u' f P).
Proof.
  intros Hu fin. destruct parts as (_ & _ & Hv & _ & _ & Dw & Dp & Dv & _).
  assert (HuN : forall f P, In f ws -> inb N P -> u f P = u' f P) by (intros f P Hf HP; apply Hu; auto; apply inb_length in HP; congruence).
  destruct (fold_solve u u' HuN) as [S1 S2]. assert (S2' : forall f P, ~ In f ps -> solve_all conv z N [(p0, w0); (p1, w1); (p2, w2)] u' f P = u' f P) by (apply (fold_solve u' u'); auto).
  set (v5 := solve_all conv z N _ u) in *. set (v5' := solve_all conv z N _ u') in *. set (k := [(vx, Kcx); (vy, Kcy); (vz, Kcz)]).
  assert (Gen : forall f P, In f (ws ++ ps ++ vs) -> overwrite_interior z N k v5 f P = overwrite_interior z N k v5' f P -> fin u f P = fin u' f P).
  { intros f P Hf E. unfold fin. fold v5 v5' k.
    assert (E7 : match n3_free s with Some (a, b, c) => free_stream add [(vx, a); (vy, b); (vz, c)] (overwrite_interior z N k v5) | None => overwrite_interior z N k v5 end f P
      = match n3_free s with Some (a, b, c) => free_stream add [(vx, a); (vy, b); (vz, c)] (overwrite_interior z N k v5') | None => overwrite_interior z N k v5' end f P).
    { destruct (n3_free s) as [[[a b] c]|]; auto. apply free_same; auto. }
    destruct (n3_frc s); [|exact E7]. rewrite !fill_off; auto; intros Hin; apply in_app_or in Hf as [Hf|Hf].
    1,3: apply (Dw f Hf); apply in_or_app; right; apply in_or_app; right; apply in_or_app; left; exact Hin.
    all: apply in_app_or in Hf as [Hf|Hf]; [apply (Dp f Hf)|apply (Dv f Hf)]; repeat (apply in_or_app; (left; exact Hin) || right); exact Hin. }
  assert (Off : forall f, In f (ws ++ ps) -> ~ In f (map fst k)).
  { intros f Hf Hin. cbn [map fst k] in Hin. apply in_app_or in Hf as [Hf|Hf]; [apply (Dw f Hf); apply in_or_app; right|apply (Dp f Hf)]; apply in_or_app; left; exact Hin. }
  assert (Nw : forall f, In f ws -> ~ In f ps) by (intros f Hf Hin; apply (Dw f Hf); apply in_or_app; left; exact Hin).
  split; [|split].
  - intros f P Hf HP. apply Gen; [apply in_or_app; left; exact Hf|]. rewrite !over_off by (apply Off; apply in_or_app; left; exact Hf). unfold v5, v5'. rewrite S2, S2' by auto. auto.
  - intros f P Hf HP. apply Gen; [apply in_or_app; right; apply in_or_app; left; exact Hf|]. rewrite !over_off by (apply Off; apply in_or_app; right; exact Hf). auto.
  - intros f P Hf. apply Gen; [apply in_or_app; right; apply in_or_app; right; exact Hf|].
    assert (X : exists K, In (f, K) k /\ In K [Kcx; Kcy; Kcz]) by (clear - Hf; unfold k; destruct Hf as [<-|[<-|[<-|[]]]]; [exists Kcx|exists Kcy|exists Kcz]; simpl; auto).
    destruct X as (K & Hk & HKi). apply (over_same z N k ps v5 v5' f K); auto. rewrite HN. auto.
Qed.

Lemma euler_one c (K : kfn) u u' P : star_local 3 [c] 1 K -> (forall Q, u c Q = u' c Q) ->
  euler_step false N add z true c K u c P = euler_step false N add z true c K u' c P.
Proof.
  intros Hc H. unfold euler_step. rewrite Nat.eqb_refl, H. f_equal. destruct (inbb N P && _); auto. apply Hc. intros f d [<-|[]] _. apply H.
Qed.
Lemma fold_euler dif u f P : (forall c, In c ws -> star_local 3 [c] 1 (dif c)) ->
  fold_left (fun u c => euler_step false N add z true c (dif c) u) ws u f P = if in_dec Nat.eq_dec f ws then euler_step false N add z true f (dif f) u f P else u f P.
Proof.
  intros Hd. cbn [fold_left]. destruct parts as (Hn & _). inversion Hn as [|? ? A B]; subst. inversion B as [|? ? A' B']; subst.
  assert (n01 : w0 <> w1) by (intros E; apply A; rewrite E; simpl; auto). assert (n02 : w0 <> w2) by (intros E; apply A; rewrite E; simpl; auto).
  assert (n12 : w1 <> w2) by (intros E; apply A'; rewrite E; simpl; auto). clear A B A' B' Hn.
  destruct (in_dec Nat.eq_dec f ws) as [Hf|Hf].
  - specialize (Hd f Hf). destruct Hf as [<-|[<-|[<-|[]]]].
    + rewrite !(euler_off _ _ _ _ _ w2 _ _ w0), !(euler_off _ _ _ _ _ w1 _ _ w0) by congruence. reflexivity.
    + rewrite !(euler_off _ _ _ _ _ w2 _ _ w1) by congruence. apply euler_one; auto. intros Q. now rewrite euler_off by congruence.
    + apply euler_one; auto. intros Q. now rewrite !euler_off by congruence.
  - rewrite !euler_off; auto; intros E; apply Hf; rewrite E; simpl; auto.
Qed.

Lemma st3 j d (Q : list Z) : star 3 j d -> length Q = 3%nat -> length (vadd Q d) = 3%nat.
Proof. intros (b & c & _ & _ & ->) HQ. rewrite vadd_length; rewrite ?axis_len; lia. Qed.

(** Velocity forcing, cross product and its curl: a cell of the vorticity only looks one cell away. *)
Definition pre3 (s : @ns3_step T) (u : nat -> list Z -> T) : nat -> list Z -> T :=
  let u1 := match n3_frc s with
            | Some (K, fv) => update_inside N (three w0 w1 w2 K) (put_forcing z N [fx; fy; fz] fv u)
            | None => u end in
  update_inside N (three w0 w1 w2 (n3_upd s)) (update_everywhere (three b0 b1 b2 (n3_crs s)) u1).
Lemma pre3_local (s : @ns3_step T) u u' P : ns3_shapes ws vs bs fs s -> length P = 3%nat ->
  (forall f d, In f (ws ++ vs) -> star 3 1 d -> u f (vadd P d) = u' f (vadd P d)) -> forall f, In f ws -> pre3 s u f P = pre3 s u' f P.
Proof.
  intros (Hc & Hup & _ & HF) HP HU f Hf. destruct parts as (Nw & _ & _ & _ & Nb & Dw & _ & Dv & _). unfold pre3. cbv zeta.
  set (u1 := match n3_frc s with Some (K, fv) => update_inside N (three w0 w1 w2 K) (put_forcing z N [fx; fy; fz] fv u) | None => u end).
  set (u1' := match n3_frc s with Some (K, fv) => update_inside N (three w0 w1 w2 K) (put_forcing z N [fx; fy; fz] fv u') | None => u' end).
  assert (Hnf : forall h, In h (ws ++ vs) -> ~ In h fs).
  { intros h Hh Hin. apply in_app_or in Hh as [Hh|Hh]; [apply (Dw h Hh)|apply (Dv h Hh)]; repeat (apply in_or_app; (left; exact Hin) || right). }
  assert (Hnb : forall h, In h (ws ++ vs) -> ~ In h bs).
  { intros h Hh Hin. apply in_app_or in Hh as [Hh|Hh]; [apply (Dw h Hh)|apply (Dv h Hh)]; repeat (apply in_or_app; right); exact Hin. }
  assert (Hvw : forall h, In h vs -> ~ In h ws).
  { intros h Hh Hin. apply (Dw h Hin). apply in_or_app; right. apply in_or_app; left. exact Hh. }
  assert (H1 : forall h Q, In h (ws ++ vs) -> u h Q = u' h Q -> u1 h Q = u1' h Q).
  { intros h Q Hh E. unfold u1, u1'. destruct (n3_frc s) as [[K fv]|]; [|exact E].
    apply in_app_or in Hh as [Hw|Hv].
    - destruct (three_in w0 w1 w2 K h Hw) as (K' & Hk & Hi). apply (upd_same N _ fs 1 _ _ h K'); auto; [now rewrite three_fst|rewrite HN; auto| |].
      + intros k d Hin _. now apply put_on.
      + rewrite !put_off by (apply Hnf; apply in_or_app; left; exact Hw). exact E.
    - rewrite !upd_off by (rewrite three_fst; auto). rewrite !put_off by (apply Hnf; apply in_or_app; right; exact Hv). exact E. }
  assert (Z0 : forall Q : list Z, length Q = 3%nat -> vadd Q (repeat 0 3) = Q) by (intros Q HQ; rewrite <- HQ; apply vadd_rep0).
  assert (S0 : star 3 1 (repeat 0 3)) by (exists 0%nat, 0; repeat split; simpl; lia).
  assert (H2b : forall b d, In b bs -> star 3 1 d -> update_everywhere (three b0 b1 b2 (n3_crs s)) u1 b (vadd P d) = update_everywhere (three b0 b1 b2 (n3_crs s)) u1' b (vadd P d)).
  { intros b d Hb Hd. destruct (three_in b0 b1 b2 (n3_crs s) b Hb) as (K & Hk & Hi). destruct (Hc K Hi) as [L O]. unfold update_everywhere.
    assert (Nk : NoDup (map fst (three b0 b1 b2 (n3_crs s)))) by (now rewrite three_fst).
    rewrite !(apply_at _ _ _ _ _ b K _ Nk Hk). rewrite (O _ (u1 b (vadd P d)) (u1' b (vadd P d))). apply L.
    intros h e Hh He. apply star0 in He as ->. rewrite Z0 by (eapply st3; eauto). apply H1; auto. }
  assert (H2w : update_everywhere (three b0 b1 b2 (n3_crs s)) u1 f P = update_everywhere (three b0 b1 b2 (n3_crs s)) u1' f P).
  { unfold update_everywhere. assert (Hn : ~ In f (map fst (three b0 b1 b2 (n3_crs s)))) by (rewrite three_fst; apply Hnb; apply in_or_app; left; exact Hf).
    rewrite !(apply_off _ _ _ _ _ f P Hn). apply H1; [apply in_or_app; left; exact Hf|]. rewrite <- (Z0 P HP). apply HU; auto. apply in_or_app; left; exact Hf. }
  destruct (three_in w0 w1 w2 (n3_upd s) f Hf) as (K & Hk & Hi).
  apply (upd_same N _ bs 1 _ _ f K); auto; [now rewrite three_fst| |]; rewrite HN; auto.
Qed.

(** With a sponge at least three cells wide, and no filter or one with a boundary zone at least three cells wide, a step only
    looks at the domain. *)
Lemma step3_forgets (s : @ns3_step T) u u' : 3 <= width -> Forall (fun n => 2 * width <= n) N ->
  match filt with Some (_, order, bw) => (1 <= order)%nat /\ 3 <= bw | None => True end -> ns3_shapes ws vs bs fs s ->
  (forall f P, In f (ws ++ vs) -> inb N P -> u f P = u' f P) ->
  forall f P, In f (ws ++ ps ++ vs) -> inb N P -> serial u s f P = serial u' s f P.
Proof.
  intros Hw HwN Hft Hs HU f P Hf HP. pose proof Hs as (_ & _ & Hd & _). destruct parts as (Nw & _).
  change (serial u s f P) with (let u3 := pre3 s u in
    let u4 := fold_left (fun u c => euler_step false N add z true c (n3_dif s c) u) ws u3 in
    let u5 := match filt with Some (ft, order, bw) => on_fields ws (serial_filter lap sub z false N bw ft order) u4 | None => u4 end in
    let v := on_fields ws (sponge damp coord N width false [2; 1; 0]%nat) u5 in
    let v8 := overwrite_interior z N [(vx, Kcx); (vy, Kcy); (vz, Kcz)] (solve_all conv z N [(p0, w0); (p1, w1); (p2, w2)] v) in
    let v9 := match n3_free s with Some (a, b, c) => free_stream add [(vx, a); (vy, b); (vz, c)] v8 | None => v8 end in
    match n3_frc s with Some _ => fill [fx; fy; fz] z v9 | None => v9 end f P).
  change (serial u' s f P) with (let u3 := pre3 s u' in
    let u4 := fold_left (fun u c => euler_step false N add z true c (n3_dif s c) u) ws u3 in
    let u5 := match filt with Some (ft, order, bw) => on_fields ws (serial_filter lap sub z false N bw ft order) u4 | None => u4 end in
    let v := on_fields ws (sponge damp coord N width false [2; 1; 0]%nat) u5 in
    let v8 := overwrite_interior z N [(vx, Kcx); (vy, Kcy); (vz, Kcz)] (solve_all conv z N [(p0, w0); (p1, w1); (p2, w2)] v) in
    let v9 := match n3_free s with Some (a, b, c) => free_stream add [(vx, a); (vy, b); (vz, c)] v8 | None => v8 end in
    match n3_frc s with Some _ => fill [fx; fy; fz] z v9 | None => v9 end f P).
  assert (H3 : forall h Q, In h ws -> deep 1 N Q -> pre3 s u h Q = pre3 s u' h Q).
  { intros h Q Hh HQ. apply pre3_local; auto; [destruct HQ; congruence|]. intros k d Hk Hd'. apply HU; auto. apply (deep_inb 0); [lia|]. apply (deep_star 0 1); auto. now rewrite HN. }
  set (u3 := pre3 s u) in *. set (u3' := pre3 s u') in *. cbv zeta.
  set (u4 := fold_left _ ws u3). set (u4' := fold_left _ ws u3').
  assert (H4 : forall h Q, In h ws -> deep 2 N Q -> u4 h Q = u4' h Q).
  { intros h Q Hh HQ. unfold u4, u4'. rewrite !fold_euler by (intros c Hc; now apply Hd). destruct (in_dec Nat.eq_dec h ws); [|contradiction].
    apply (euler_deep add z N true h _ [h] 1 1); auto; try lia; [rewrite HN; now apply Hd|]. intros k R [<-|[]]. auto. }
  set (u5 := match filt with Some (ft, order, bw) => on_fields ws (serial_filter lap sub z false N bw ft order) u4 | None => u4 end).
  set (u5' := match filt with Some (ft, order, bw) => on_fields ws (serial_filter lap sub z false N bw ft order) u4' | None => u4' end).
  assert (H5 : forall h Q, In h ws -> deep 2 N Q -> u5 h Q = u5' h Q).
  { intros h Q Hh HQ. unfold u5, u5'. destruct filt as [[[ft order] bw]|]; [|auto]. cbv beta iota in Hft. destruct Hft as [Ho Hbw]. unfold on_fields. destruct (in_dec Nat.eq_dec h ws); [|contradiction].
    apply (filter_deep lap sub z N bw 2); auto; try lia. }
  set (v := on_fields ws _ u5). set (v' := on_fields ws _ u5').
  assert (H6 : forall h Q, In h ws -> length Q = 3%nat -> v h Q = v' h Q).
  { intros h Q Hh HQ. unfold v, v', on_fields. destruct (in_dec Nat.eq_dec h ws); [|contradiction].
    apply (sponge_deep damp coord N width ltac:(lia) HwN [2; 1; 0]%nat 2); auto; try lia.
    - rewrite HN. repeat constructor; lia.
    - intros a Ha. simpl. lia. }
  destruct (tail3 s v v' H6) as (A & B & E). apply in_app_or in Hf as [Hf|Hf]; [|apply in_app_or in Hf as [Hf|Hf]].
  - apply A; auto. apply inb_length in HP. congruence.
  - now apply B.
  - now apply E.
Qed.

(** Whatever the settings, a step does not look at the old stream function. *)
Lemma step3_no_psi (s : @ns3_step T) u u' : match filt with Some (_, order, bw) => (1 <= order)%nat /\ 1 <= bw | None => True end -> ns3_shapes ws vs bs fs s ->
  (forall f P, In f (ws ++ vs) -> length P = 3%nat -> u f P = u' f P) ->
  (forall f P, In f (ws ++ vs) -> length P = 3%nat -> serial u s f P = serial u' s f P) /\ (forall f P, In f ps -> inb N P -> serial u s f P = serial u' s f P).
Proof.
  intros Hft Hs HU. pose proof Hs as (_ & _ & Hd & _). destruct parts as (Nw & _).
  assert (H3 : forall h Q, In h ws -> length Q = 3%nat -> pre3 s u h Q = pre3 s u' h Q).
  { intros h Q Hh HQ. apply pre3_local; auto. intros k d Hk Hd'. apply HU; auto. eapply st3; eauto. }
  set (u3 := pre3 s u) in *. set (u3' := pre3 s u') in *.
  set (u4 := fold_left (fun u c => euler_step false N add z true c (n3_dif s c) u) ws u3). set (u4' := fold_left (fun u c => euler_step false N add z true c (n3_dif s c) u) ws u3').
  assert (H4 : forall h Q, In h ws -> length Q = 3%nat -> u4 h Q = u4' h Q).
  { intros h Q Hh HQ. unfold u4, u4'. rewrite !fold_euler by (intros c Hc; now apply Hd). destruct (in_dec Nat.eq_dec h ws); [|contradiction].
    unfold euler_step. rewrite Nat.eqb_refl. rewrite H3 by auto. f_equal. destruct (inbb N Q && _); auto. apply (Hd h Hh). intros k d [<-|[]] Hd'. unfold norm. apply H3; auto. eapply st3; eauto. }
  set (u5 := match filt with Some (ft, order, bw) => on_fields ws (serial_filter lap sub z false N bw ft order) u4 | None => u4 end).
  set (u5' := match filt with Some (ft, order, bw) => on_fields ws (serial_filter lap sub z false N bw ft order) u4' | None => u4' end).
  assert (H5 : forall h Q, In h ws -> length Q = 3%nat -> u5 h Q = u5' h Q).
  { intros h Q Hh HQ. unfold u5, u5'. destruct filt as [[[ft order] bw]|]; [|auto]. cbv beta iota in Hft. destruct Hft as [Ho Hbw]. unfold on_fields. destruct (in_dec Nat.eq_dec h ws); [|contradiction].
    assert (X : forall axes (a b : list Z -> T), Forall (fun x => (x < 3)%nat) axes -> axes <> [] -> (forall R, length R = 3%nat -> a R = b R) ->
      forall R, length R = 3%nat -> sub (a R) (filts_n lap z false N bw order axes a R) = sub (b R) (filts_n lap z false N bw order axes b R)).
    { intros axes a b Hax Hne Hab R HR. rewrite (Hab R HR). f_equal. apply filts_n_deep; try (rewrite HN); auto; try lia. intros R' [HR' _]. apply Hab. congruence. }
    destruct ft; unfold serial_filter, multiplicative, convolution.
    - apply X; [repeat constructor; lia|discriminate|auto|auto].
    - revert Q HQ. do 3 (match goal with |- forall Q, _ -> conv1 _ _ _ _ _ _ ?o ?a ?x Q = conv1 _ _ _ _ _ _ _ _ ?y Q => apply (X [a] x y); [repeat constructor; lia|discriminate|] end). auto. }
  set (v := on_fields ws (sponge damp coord N width false [2; 1; 0]%nat) u5). set (v' := on_fields ws (sponge damp coord N width false [2; 1; 0]%nat) u5').
  assert (H6 : forall h Q, In h ws -> length Q = 3%nat -> v h Q = v' h Q).
  { intros h Q Hh. unfold v, v', on_fields. destruct (in_dec Nat.eq_dec h ws); [|contradiction]. unfold sponge. destruct (false || (width =? 0)); [auto|]. cbn [fold_left]. revert Q.
    assert (X : forall a x x', (forall P, length P = 3%nat -> x P = x' P) -> forall P : list Z, length P = 3%nat ->
      sponge_back damp coord N width a (sponge_front damp coord width a x) P = sponge_back damp coord N width a (sponge_front damp coord width a x') P).
    { intros a x x' Hv Q HQ. unfold sponge_back, sponge_front. rewrite !(Hv _) by (rewrite ?setn_len; auto). reflexivity. }
    do 3 apply X. auto. }
  destruct (tail3 s v v' H6) as (A & B & E). split; [|exact B]. intros f P Hf HP. apply in_app_or in Hf as [Hf|Hf]; [apply (A f P Hf HP)|exact (E f P Hf)].
Qed.
End Three.
