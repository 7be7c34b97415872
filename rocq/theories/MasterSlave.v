(** Generic master/slave exchange: effects of one gather and one scatter. *)
From Coq Require Import FunctionalExtensionality.
From Verif Require Import Base Comm Blocking SpecBlocking BlockFacts FieldComm FieldProofs.

Section MS.
Context {T X : Type}.
Variables (n master : Z) (order : list Z) (lidx : Z -> list X) (ga la : Z -> X -> addr).
Hypothesis Hm : 0 <= master < n.
Hypothesis On : NoDup order.
Hypothesis Or : forall s, In s order -> 0 <= s < n /\ s <> master.
Hypothesis Ln : forall r, NoDup (lidx r).

Definition part (r : Z) : Prop := r = master \/ In r order.

Definition ms_gather (r : Z) : list (@bop T) :=
  if r =? master then
    assign (map (ga master) (lidx master)) (map (la master) (lidx master)) ::
    map (fun s => BRecv (Some s) (map (ga s) (lidx s))) order
  else if existsb (Z.eqb r) order then [BSend (Some master) (map (la r) (lidx r))] else [].
Definition ms_scatter (r : Z) : list (@bop T) :=
  if r =? master then
    assign (map (la master) (lidx master)) (map (ga master) (lidx master)) ::
    map (fun s => BSend (Some s) (map (ga s) (lidx s))) order
  else if existsb (Z.eqb r) order then [BRecv (Some master) (map (la r) (lidx r))] else [].

Lemma Om : ~ In master order.
Proof. intros H. apply Or in H. tauto. Qed.

Lemma rk r : (0 <=? r) && (r <? n) = true <-> 0 <= r < n.
Proof. rewrite andb_true_iff, Z.leb_le, Z.ltb_lt. tauto. Qed.

Lemma rest_eq (prog rest : Z -> list (@bop T)) p1 :
  (forall r, r <> master -> ~ In r order -> prog r = []) ->
  (fun r => if r =? master then rest master else if mem_dec r order then rest r else
     upd (fun r0 => if (0 <=? r0) && (r0 <? n) then prog r0 ++ rest r0 else []) master p1 r) =
  (fun r => if (0 <=? r) && (r <? n) then rest r else []).
Proof.
  intros Hp. apply functional_extensionality. intros r. destruct (Z.eqb_spec r master).
  - subst. now rewrite (proj2 (rk master) Hm).
  - destruct (mem_dec r order) eqn:E.
    + apply mem_dec_spec, Or in E as [E _]. now rewrite (proj2 (rk r) E).
    + rewrite upd_neq by auto. rewrite Hp; auto. intros H. apply mem_dec_spec in H. congruence.
Qed.

Definition gm (m : Z -> @lmem T) (M : @lmem T) (s : Z) : @lmem T :=
  write (map (ga s) (lidx s)) (map (m s) (map (la s) (lidx s))) M.

Hypothesis Ginj : forall r s x y, part r -> part s -> In x (lidx r) -> In y (lidx s) -> ga r x = ga s y -> r = s /\ x = y.

Lemma ga_NoDup s : part s -> NoDup (map (ga s) (lidx s)).
Proof.
  intros Hs. assert (G : forall L, NoDup L -> (forall x, In x L -> In x (lidx s)) -> NoDup (map (ga s) L)).
  { induction L as [|x L IH]; simpl; intros Hn Hi; constructor; inversion Hn; subst; auto.
    intros H. apply in_map_iff in H as (y & E & Hy). apply Ginj in E as [_ ->]; auto. }
  apply G; auto.
Qed.

Lemma gm_fold m : forall L M, NoDup L -> (forall s, In s L -> part s) ->
  (forall s x, In s L -> In x (lidx s) -> fold_left (gm m) L M (ga s x) = m s (la s x)) /\
  (forall a, (forall s x, In s L -> In x (lidx s) -> a <> ga s x) -> fold_left (gm m) L M a = M a).
Proof.
  induction L as [|s L IH]; simpl; intros M HL Hr; [split; [tauto|auto]|]. inversion HL; subst.
  destruct (IH (gm m M s) H2 ltac:(auto)) as [I1 I2]. split.
  - intros s' x [->|Hs] Hx; [|now apply I1]. rewrite I2.
    + unfold gm. rewrite map_map. apply (write_in (ga s') (fun x => m s' (la s' x)) (lidx s') M x); auto. apply ga_NoDup; auto.
    + intros s x' Hs Hx' E. apply Ginj in E as [-> _]; auto.
  - intros a Hn. rewrite I2 by (intros; apply Hn; auto). unfold gm. apply write_other.
    intros Hi. apply in_map_iff in Hi as (x & E & Hx). apply (Hn s x); auto.
Qed.

Theorem ms_gather_spec m (rest : Z -> list bop) :
  exists m', bsteps false (start n (fun r => ms_gather r ++ rest r) m) (start n rest m') /\
    (forall r x, part r -> In x (lidx r) -> m' master (ga r x) = m r (la r x)) /\
    (forall r a, r <> master -> m' r a = m r a) /\
    (forall a, (forall r x, part r -> In x (lidx r) -> a <> ga r x) -> m' master a = m master a).
Proof.
  pose proof Om as Om.
  destruct (gm_fold m (master :: order) (m master)) as [F1 F2].
  { now constructor. }
  { intros s [<-|Hs]; [now left|now right]. }
  exists (upd m master (fold_left (gm m) (master :: order) (m master))). split; [|split; [|split]].
  - unfold start. eapply bs_step.
    + eapply (st_local false master); simpl. rewrite (proj2 (rk master) Hm). unfold ms_gather. rewrite Z.eqb_refl. reflexivity.
    + eapply bsteps_eq; [apply (sync_gather master (fun s => map (la s) (lidx s)) (fun s => map (ga s) (lidx s)) (rest master) rest order)|]; simpl; auto.
      * rewrite upd_eq. reflexivity.
      * intros s Hs. rewrite upd_neq by (intros ->; auto). destruct (Or s Hs) as [H1 H2].
        rewrite (proj2 (rk s) H1). unfold ms_gather. destruct (Z.eqb_spec s master); [congruence|].
        apply mem_dec_spec in Hs. unfold mem_dec in Hs. rewrite Hs. reflexivity.
      * intros s Hs. now rewrite !map_length.
      * apply config_eq; auto.
        -- apply rest_eq. intros r Hr Hn. unfold ms_gather. destruct (Z.eqb_spec r master); [congruence|].
           destruct (existsb (Z.eqb r) order) eqn:E; auto. apply mem_dec_spec in E. contradiction.
        -- rewrite upd_eq, upd_over. f_equal. unfold assign.
           fold (gm m (m master) master). generalize (gm m (m master) master) at 2 3. clear F1 F2.
           assert (G : forall K L M0, ~ In master L -> fold_left (fun M s => write (map (ga s) (lidx s)) (map (upd m master K s) (map (la s) (lidx s))) M) L M0 = fold_left (gm m) L M0).
           { intros K. induction L as [|s L IH]; intros M0 HL; simpl in *; auto. rewrite IH by tauto. rewrite upd_neq by tauto. reflexivity. }
           intros. apply G. auto.
  - intros r x Hr Hx. rewrite upd_eq. apply F1; auto. destruct Hr as [->|Hr]; simpl; auto.
  - intros r a Hr. now rewrite upd_neq.
  - intros a Ha. rewrite upd_eq. apply F2. intros s x Hs. apply Ha. destruct Hs as [<-|Hs]; [now left|now right].
Qed.

Hypothesis Linj : forall r x y, part r -> In x (lidx r) -> In y (lidx r) -> la r x = la r y -> x = y.
Hypothesis LG : forall r x y, part r -> In x (lidx r) -> In y (lidx master) -> ga r x <> la master y.

Lemma la_NoDup s : part s -> NoDup (map (la s) (lidx s)).
Proof.
  intros Hs. assert (G : forall L, NoDup L -> (forall x, In x L -> In x (lidx s)) -> NoDup (map (la s) L)).
  { induction L as [|x L IH]; simpl; intros Hn Hi; constructor; inversion Hn; subst; auto.
    intros H. apply in_map_iff in H as (y & E & Hy). apply Linj in E; auto. subst. contradiction. }
  apply G; auto.
Qed.

Theorem ms_scatter_spec m (rest : Z -> list bop) :
  exists m', bsteps false (start n (fun r => ms_scatter r ++ rest r) m) (start n rest m') /\
    (forall r x, part r -> In x (lidx r) -> m' r (la r x) = m master (ga r x)) /\
    (forall r a, (part r -> forall x, In x (lidx r) -> a <> la r x) -> m' r a = m r a).
Proof.
  pose proof Om as Om.
  set (W := fun r => write (map (la r) (lidx r)) (map (m master) (map (ga r) (lidx r))) (m r)).
  exists (fun r => if mem_dec r (master :: order) then W r else m r). split; [|split].
  - unfold start. eapply bs_step.
    + eapply (st_local false master); simpl. rewrite (proj2 (rk master) Hm). unfold ms_scatter. rewrite Z.eqb_refl. reflexivity.
    + eapply bsteps_eq; [apply (sync_scatter master (fun s => map (ga s) (lidx s)) (fun s => map (la s) (lidx s)) (rest master) rest order)|]; simpl; auto.
      * rewrite upd_eq. reflexivity.
      * intros s Hs. rewrite upd_neq by (intros ->; auto). destruct (Or s Hs) as [H1 H2].
        rewrite (proj2 (rk s) H1). unfold ms_scatter. destruct (Z.eqb_spec s master); [congruence|].
        apply mem_dec_spec in Hs. unfold mem_dec in Hs. rewrite Hs. reflexivity.
      * intros s Hs. now rewrite !map_length.
      * apply config_eq; auto.
        -- apply rest_eq. intros r Hr Hn. unfold ms_scatter. destruct (Z.eqb_spec r master); [congruence|].
           destruct (existsb (Z.eqb r) order) eqn:E; auto. apply mem_dec_spec in E. contradiction.
        -- apply functional_extensionality. intros r. rewrite upd_eq. unfold assign.
           destruct (mem_dec r order) eqn:E.
           ++ rewrite orb_true_r. apply mem_dec_spec in E. rewrite upd_neq by (intros ->; auto). unfold W. f_equal.
              rewrite !map_map. apply map_ext_in. intros x Hx. apply write_other. intros Hi.
              apply in_map_iff in Hi as (y & Ey & Hy). symmetry in Ey. revert Ey. apply LG; auto. now right.
           ++ rewrite orb_false_r. destruct (Z.eqb_spec r master).
              ** subst. rewrite upd_eq. reflexivity.
              ** now rewrite upd_neq.
  - intros r x Hr Hx. assert (mem_dec r (master :: order) = true) as -> by (apply mem_dec_spec; destruct Hr as [->|Hr]; simpl; auto).
    unfold W. rewrite map_map. apply (write_in (la r) (fun x => m master (ga r x)) (lidx r) (m r) x); auto. now apply la_NoDup.
  - intros r a Ha. destruct (mem_dec r (master :: order)) eqn:E; auto. unfold W. apply write_other.
    intros Hi. apply in_map_iff in Hi as (y & Ey & Hy). apply mem_dec_spec in E.
    assert (Hp : part r) by (destruct E as [<-|E]; [now left|now right]). apply (Ha Hp y); auto.
Qed.
End MS.
