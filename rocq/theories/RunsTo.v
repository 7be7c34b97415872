(** Composition of programs of the blocking machine. *)
From Coq Require Import FunctionalExtensionality.
From Verif Require Import Base Comm Blocking SpecBlocking BlockFacts StageRun.

Section R.
Context {T : Type}.
Notation lmem := (@lmem T).
Notation config := (@config T).
Notation bop := (@bop T).

Definition append (c : config) (rest : Z -> list bop) : config := {| pr := fun r => pr c r ++ rest r; mm := mm c; ch := ch c |}.

Lemma upd_app (f : Z -> list bop) a p rest : (fun r => upd f a p r ++ rest r) = upd (fun r => f r ++ rest r) a (p ++ rest a).
Proof. apply functional_extensionality. intros r. unfold upd. now destruct (Z.eqb_spec r a) as [-> |]. Qed.

Lemma bstep_append ea c d rest : bstep ea c d -> bstep ea (append c rest) (append d rest).
Proof.
  intros H. destruct H; unfold append; cbn [pr mm ch]; rewrite ?upd_app.
  - apply (st_local ea a f (p ++ rest a) {| pr := fun r => pr c r ++ rest r; mm := mm c; ch := ch c |}). cbn [pr]. now rewrite H.
  - apply (st_snull ea a d (p ++ rest a) {| pr := fun r => pr c r ++ rest r; mm := mm c; ch := ch c |}). cbn [pr]. now rewrite H.
  - apply (st_rnull ea a d (p ++ rest a) {| pr := fun r => pr c r ++ rest r; mm := mm c; ch := ch c |}). cbn [pr]. now rewrite H.
  - apply (st_eager ea a b d (p ++ rest a) {| pr := fun r => pr c r ++ rest r; mm := mm c; ch := ch c |}); auto. cbn [pr]. now rewrite H0.
  - apply (st_recv ea b a d (p ++ rest b) v q {| pr := fun r => pr c r ++ rest r; mm := mm c; ch := ch c |}); auto. cbn [pr]. now rewrite H.
  - apply (st_rdv ea a b s d (p ++ rest a) (q ++ rest b) {| pr := fun r => pr c r ++ rest r; mm := mm c; ch := ch c |}); auto; cbn [pr]; [now rewrite H0|now rewrite H1].
Qed.
Lemma bsteps_append ea c d rest : bsteps ea c d -> bsteps ea (append c rest) (append d rest).
Proof. induction 1; [constructor|]. econstructor; [apply bstep_append; eassumption|assumption]. Qed.

Lemma runs_to_sync n prog (m m' : Z -> lmem) : runs_to n prog m m' -> bsteps false (start n prog m) (stop m').
Proof. intros [_ H]. destruct (H false) as (_ & H2 & _). apply H2. constructor. Qed.

Lemma runs_to_app n p1 p2 (m m1 m2 : Z -> lmem) : runs_to n p1 m m1 -> runs_to n p2 m1 m2 -> runs_to n (fun r => p1 r ++ p2 r) m m2.
Proof.
  intros H1 H2. apply runs_to_intro. apply runs_to_sync in H1, H2.
  set (rest := fun r => if (0 <=? r) && (r <? n) then p2 r else []).
  eapply bsteps_trans; [|exact H2].
  replace (start n (fun r => p1 r ++ p2 r) m) with (append (start n p1 m) rest).
  - eapply bsteps_eq; [apply bsteps_append; exact H1|]. reflexivity.
  - unfold append, start, rest. cbn [pr mm ch]. f_equal. apply functional_extensionality. intros r. now destruct (_ && _).
Qed.

Lemma runs_to_nil n (m : Z -> lmem) : runs_to n (fun _ => []) m m.
Proof.
  apply runs_to_intro. eapply bsteps_eq; [constructor|]. unfold start, stop. f_equal. apply functional_extensionality. intros r. now destruct (_ && _).
Qed.

Lemma runs_to_ext n p q (m m' : Z -> lmem) : (forall r, 0 <= r < n -> p r = q r) -> runs_to n p m m' -> runs_to n q m m'.
Proof.
  intros E. replace (runs_to n p m m') with (runs_to n q m m'); [auto|]. unfold runs_to, start. do 2 f_equal.
  apply functional_extensionality. intros r. destruct ((0 <=? r) && (r <? n)) eqn:Er; [|reflexivity].
  apply andb_true_iff in Er. rewrite Z.leb_le, Z.ltb_lt in Er. symmetry. apply E. lia.
Qed.

Definition local_on (n : Z) (f : Z -> lmem -> lmem) (m : Z -> lmem) : Z -> lmem := fun r => if (0 <=? r) && (r <? n) then f r (m r) else m r.

Lemma runs_to_local n (f : Z -> lmem -> lmem) (m : Z -> lmem) : runs_to n (fun r => [BLocal (f r)]) m (local_on n f m).
Proof.
  apply runs_to_intro.
  assert (H : forall L, NoDup L -> (forall x, In x L -> 0 <= x < n) ->
     bsteps false (start n (fun r => [BLocal (f r)]) m)
       {| pr := fun r => if (0 <=? r) && (r <? n) && negb (mem_dec r L) then [BLocal (f r)] else [];
          mm := fun r => if mem_dec r L then f r (m r) else m r; ch := fun _ _ => [] |}).
  { induction L as [|a L IH]; intros Hn Hi.
    - eapply bsteps_eq; [constructor|]. unfold start. f_equal; apply functional_extensionality; intros r; cbn [mem_dec existsb negb]; now rewrite andb_true_r.
    - inversion Hn as [|? ? Ha Hn']; subst. eapply bsteps_trans; [apply IH; auto; intros; apply Hi; now right|].
      assert (Hm : mem_dec a L = false). { destruct (mem_dec a L) eqn:E; [|reflexivity]. apply mem_dec_spec in E. contradiction. }
      assert (Hr : (0 <=? a) && (a <? n) = true). { rewrite andb_true_iff, Z.leb_le, Z.ltb_lt. apply Hi. now left. }
      eapply bs_step; [|eapply bsteps_eq; [constructor|reflexivity]].
      match goal with |- bstep _ ?c ?d => replace d with ({| pr := upd (pr c) a []; mm := upd (mm c) a (f a (mm c a)); ch := ch c |}) end.
      + apply st_local. cbn [pr]. now rewrite Hr, Hm.
      + cbn [pr mm ch]. f_equal; apply functional_extensionality; intros r; unfold upd; cbn [mem_dec existsb];
          destruct (Z.eqb_spec r a) as [-> |]; cbn [orb]; auto.
        * now rewrite Hr.
        * now rewrite Hm. }
  eapply bsteps_eq; [apply (H (zrange 0 n)); [apply zrange_NoDup|intros x Hx; apply zrange_In in Hx; lia]|].
  unfold stop, local_on. f_equal; apply functional_extensionality; intros r.
  - destruct ((0 <=? r) && (r <? n)) eqn:E; [|reflexivity]. apply andb_true_iff in E. rewrite Z.leb_le, Z.ltb_lt in E.
    assert (mem_dec r (zrange 0 n) = true) as -> by (apply mem_dec_spec, zrange_In; lia). reflexivity.
  - destruct ((0 <=? r) && (r <? n)) eqn:E; destruct (mem_dec r (zrange 0 n)) eqn:E2; auto; exfalso.
    + apply andb_true_iff in E. rewrite Z.leb_le, Z.ltb_lt in E. assert (mem_dec r (zrange 0 n) = true) by (apply mem_dec_spec, zrange_In; lia). congruence.
    + apply mem_dec_spec, zrange_In in E2. apply andb_false_iff in E. rewrite Z.leb_gt, Z.ltb_ge in E. lia.
Qed.

(** The result is unique. *)
Lemma runs_to_det n p (m m1 m2 : Z -> lmem) : runs_to n p m m1 -> runs_to n p m m2 -> m1 = m2.
Proof.
  intros H1 H2. apply runs_to_sync in H1. destruct H2 as [_ H2]. destruct (H2 false) as (_ & _ & H3).
  specialize (H3 _ H1). assert (E : stop m1 = stop m2). { apply H3. intros c Hc. inversion Hc; subst; cbn [pr stop] in *; discriminate. }
  injection E. auto.
Qed.
End R.
