(** Canonical synchronous executions of master/slave exchanges. *)
From Coq Require Import FunctionalExtensionality.
From Verif Require Import Base Comm Blocking SpecBlocking.

Section F.
Context {T : Type}.
Notation lmem := (@lmem T). Notation bop := (@bop T). Notation config := (@config T).

(** *** [write] *)
Lemma write_other d vs (m : lmem) a : ~ In a d -> write d vs m a = m a.
Proof.
  revert vs m. induction d as [|x d IH]; intros [|v vs] m Hn; simpl in *; auto.
  rewrite IH by tauto. destruct (addr_dec a x); auto. subst. tauto.
Qed.
Lemma write_in {A} (f : A -> addr) (v : A -> T) (L : list A) (m : lmem) x :
  NoDup (map f L) -> In x L -> write (map f L) (map v L) m (f x) = v x.
Proof.
  revert m. induction L as [|y L IH]; intros m Hn Hx; simpl in *; [tauto|]. inversion Hn; subst.
  destruct Hx as [->|Hx].
  - rewrite write_other by assumption. destruct (addr_dec (f x) (f x)); congruence.
  - now apply IH.
Qed.

Lemma bsteps_eq ea (c x d : config) : bsteps ea c x -> x = d -> bsteps ea c d.
Proof. now intros H <-. Qed.

(** *** Runs *)
Lemma run_local ea (c : config) a f p : pr c a = BLocal f :: p ->
  bstep ea c {| pr := upd (pr c) a p; mm := upd (mm c) a (f (mm c a)); ch := ch c |}.
Proof. apply st_local. Qed.

Definition mem_dec (r : Z) (l : list Z) : bool := existsb (Z.eqb r) l.
Lemma mem_dec_spec r l : mem_dec r l = true <-> In r l.
Proof.
  unfold mem_dec. rewrite existsb_exists. split.
  - intros (x & Hx & E). apply Z.eqb_eq in E. now subst.
  - intros H. exists r. split; auto. apply Z.eqb_refl.
Qed.

(** Master receives one message from every rank of [order]. *)
Lemma sync_gather (mst : Z) (src dst : Z -> list addr) (rest : list bop) (srest : Z -> list bop) order :
  forall c : config,
  NoDup order -> ~ In mst order ->
  pr c mst = map (fun s => BRecv (Some s) (dst s)) order ++ rest ->
  (forall s, In s order -> pr c s = BSend (Some mst) (src s) :: srest s) ->
  (forall s, In s order -> ch c s mst = []) ->
  (forall s, In s order -> length (src s) = length (dst s)) ->
  bsteps false c
   {| pr := fun r => if r =? mst then rest else if mem_dec r order then srest r else pr c r;
      mm := upd (mm c) mst (fold_left (fun M s => write (dst s) (map (mm c s) (src s)) M) order (mm c mst));
      ch := ch c |}.
Proof.
  induction order as [|s order IH]; intros c Hn Hm Hp Hs Hc Hl.
  - simpl in *. replace {| pr := _; mm := _; ch := _ |} with c; [constructor|].
    destruct c as [p m k]; simpl in *. apply config_eq; auto.
    + apply functional_extensionality. intros r. destruct (Z.eqb_spec r mst); subst; auto.
    + now rewrite upd_same.
  - inversion Hn; subst.
    assert (E1 : s <> mst) by (intros ->; apply Hm; now left).
    eapply bs_step.
    + eapply (st_rdv false s mst (src s) (dst s)); auto.
      * apply Hs. now left.
      * rewrite Hp. reflexivity.
      * apply Hc. now left.
      * apply Hl. now left.
    + match goal with |- bsteps false ?x _ => specialize (IH x) end. simpl in IH.
      match type of IH with ?A -> _ => assert A by assumption end.
      match type of IH with _ -> ?B -> _ => assert B by (intros Hx; apply Hm; now right) end.
      specialize (IH ltac:(assumption) ltac:(assumption)).
      rewrite upd_eq in IH. specialize (IH eq_refl).
      eapply bsteps_eq.
      * apply IH.
        -- intros s' Hs'. rewrite !upd_neq by (intros ->; firstorder). apply Hs. now right.
        -- intros s' Hs'. apply Hc. now right.
        -- intros s' Hs'. apply Hl. now right.
      * apply config_eq; auto.
        -- apply functional_extensionality. intros r. simpl.
           destruct (Z.eqb_spec r mst); auto. rewrite upd_neq by assumption.
           destruct (Z.eqb_spec r s); subst; simpl.
           ++ assert (mem_dec s order = false) as -> by (apply not_true_iff_false; rewrite mem_dec_spec; assumption).
              now rewrite upd_eq.
           ++ destruct (mem_dec r order); auto. now rewrite upd_neq.
        -- simpl. rewrite upd_eq, upd_over. f_equal.
           assert (G : forall L M, ~ In mst L -> fold_left (fun M0 s0 => write (dst s0) (map (upd (mm c) mst (write (dst s) (map (mm c s) (src s)) (mm c mst)) s0) (src s0)) M0) L M =
              fold_left (fun M0 s0 => write (dst s0) (map (mm c s0) (src s0)) M0) L M).
           { induction L as [|x L IHL]; intros M HL; simpl in *; auto. rewrite upd_neq by tauto. rewrite IHL by tauto. reflexivity. }
           apply G. assumption.
Qed.

(** Master sends one message to every rank of [order]. *)
Lemma sync_scatter (mst : Z) (src dst : Z -> list addr) (rest : list bop) (srest : Z -> list bop) order :
  forall c : config,
  NoDup order -> ~ In mst order ->
  pr c mst = map (fun s => BSend (Some s) (src s)) order ++ rest ->
  (forall s, In s order -> pr c s = BRecv (Some mst) (dst s) :: srest s) ->
  (forall s, In s order -> ch c mst s = []) ->
  (forall s, In s order -> length (src s) = length (dst s)) ->
  bsteps false c
   {| pr := fun r => if r =? mst then rest else if mem_dec r order then srest r else pr c r;
      mm := fun r => if mem_dec r order then write (dst r) (map (mm c mst) (src r)) (mm c r) else mm c r;
      ch := ch c |}.
Proof.
  induction order as [|s order IH]; intros c Hn Hm Hp Hs Hc Hl.
  - simpl in *. replace {| pr := _; mm := _; ch := _ |} with c; [constructor|].
    destruct c as [p m k]; simpl in *. apply config_eq; auto.
    apply functional_extensionality. intros r. destruct (Z.eqb_spec r mst); subst; auto.
  - inversion Hn; subst.
    assert (E1 : s <> mst) by (intros ->; apply Hm; now left).
    eapply bs_step.
    + eapply (st_rdv false mst s (src s) (dst s)); auto.
      * rewrite Hp. reflexivity.
      * apply Hs. now left.
      * apply Hc. now left.
      * apply Hl. now left.
    + match goal with |- bsteps false ?x _ => specialize (IH x) end. simpl in IH.
      match type of IH with _ -> ?B -> _ => assert B by (intros Hx; apply Hm; now right) end.
      specialize (IH ltac:(assumption) ltac:(assumption)).
      rewrite upd_neq, upd_eq in IH by congruence. specialize (IH eq_refl).
      eapply bsteps_eq.
      * apply IH.
        -- intros s' Hs'. rewrite !upd_neq by (intros ->; firstorder). apply Hs. now right.
        -- intros s' Hs'. apply Hc. now right.
        -- intros s' Hs'. apply Hl. now right.
      * assert (Hns : mem_dec s order = false) by (apply not_true_iff_false; rewrite mem_dec_spec; assumption).
        apply config_eq; auto.
        -- apply functional_extensionality. intros r. simpl.
           destruct (Z.eqb_spec r mst); auto.
           destruct (Z.eqb_spec r s); subst; simpl.
           ++ rewrite Hns. now rewrite upd_eq.
           ++ destruct (mem_dec r order); auto. now rewrite !upd_neq.
        -- apply functional_extensionality. intros r. simpl. rewrite (upd_neq (mm c) s) with (x := mst) by congruence.
           destruct (Z.eqb_spec r s); subst; simpl.
           ++ rewrite Hns. now rewrite upd_eq.
           ++ destruct (mem_dec r order); auto; now rewrite !upd_neq.
Qed.

(** From a synchronous run to [runs_to]. *)
Lemma runs_to_intro n (prog : Z -> list bop) m m' :
  bsteps false (start n prog m) (stop m') -> runs_to n prog m m'.
Proof.
  intros H. apply (sync_run_always_ends (zrange 0 n)); auto.
  - apply zrange_NoDup.
  - intros r. simpl. destruct (Z.leb_spec 0 r), (Z.ltb_spec r n); simpl; intros; try congruence. apply zrange_In. lia.
  - intros r. reflexivity.
Qed.
End F.
