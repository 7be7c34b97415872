(** Blocking point-to-point communication: [comm.Send] / [comm.Recv].

    Every rank runs a list of blocking operations and local computations.
    A standard-mode Send may be buffered by MPI (it completes at once and the
    values travel through a FIFO channel) or may wait for its receiver
    (rendezvous).  The flag [ea] says whether buffering is allowed at all:
    with [ea = false] every send is synchronous, the worst case for deadlock.
    Receives name their source, so a program is deterministic up to
    scheduling; [blocking_safe] below turns ONE successful synchronous
    execution into a statement about ALL executions, buffered or not. *)
From Coq Require Import FunctionalExtensionality.
From Verif Require Import Base Comm.

Section Blocking.
Context {T : Type}.

Definition lmem := addr -> T.

Inductive bop :=
| BSend (dest : option Z) (data : list addr)
| BRecv (src : option Z) (data : list addr)
| BLocal (f : lmem -> lmem).

Record config := { pr : Z -> list bop; mm : Z -> lmem; ch : Z -> Z -> list (list T) }.

Definition upd {A} (f : Z -> A) (k : Z) (v : A) : Z -> A := fun x => if x =? k then v else f x.
Definition upd2 {A} (f : Z -> Z -> A) (i j : Z) (v : A) : Z -> Z -> A := upd f i (upd (f i) j v).

Definition addr_dec (a b : addr) : {a = b} + {a <> b}.
Proof. repeat decide equality. Defined.

Fixpoint write (d : list addr) (vs : list T) (m : lmem) : lmem :=
  match d, vs with
  | a :: d', v :: vs' => write d' vs' (fun x => if addr_dec x a then v else m x)
  | _, _ => m
  end.

Variable ea : bool.

Inductive bstep : config -> config -> Prop :=
| st_local a f p c : pr c a = BLocal f :: p ->
    bstep c {| pr := upd (pr c) a p; mm := upd (mm c) a (f (mm c a)); ch := ch c |}
| st_snull a d p c : pr c a = BSend None d :: p ->
    bstep c {| pr := upd (pr c) a p; mm := mm c; ch := ch c |}
| st_rnull a d p c : pr c a = BRecv None d :: p ->
    bstep c {| pr := upd (pr c) a p; mm := mm c; ch := ch c |}
| st_eager a b d p c : ea = true -> pr c a = BSend (Some b) d :: p ->
    bstep c {| pr := upd (pr c) a p; mm := mm c; ch := upd2 (ch c) a b (ch c a b ++ [map (mm c a) d]) |}
| st_recv b a d p v q c : pr c b = BRecv (Some a) d :: p -> ch c a b = v :: q -> length v = length d ->
    bstep c {| pr := upd (pr c) b p; mm := upd (mm c) b (write d v (mm c b)); ch := upd2 (ch c) a b q |}
| st_rdv a b s d p q c : a <> b -> pr c a = BSend (Some b) s :: p -> pr c b = BRecv (Some a) d :: q ->
    ch c a b = [] -> length s = length d ->
    bstep c {| pr := upd (upd (pr c) a p) b q; mm := upd (mm c) b (write d (map (mm c a) s) (mm c b)); ch := ch c |}.

Inductive bsteps : config -> config -> Prop :=
| bs_refl c : bsteps c c
| bs_step c c' c'' : bstep c c' -> bsteps c' c'' -> bsteps c c''.

Definition finished (c : config) : Prop := forall r, pr c r = [].

Lemma bsteps_trans c c' c'' : bsteps c c' -> bsteps c' c'' -> bsteps c c''.
Proof. induction 1; auto. intros. econstructor; eauto. Qed.

Lemma bsteps_one c c' : bstep c c' -> bsteps c c'.
Proof. intros. econstructor; eauto. constructor. Qed.

(** *** Update algebra *)
Lemma upd_eq {A} (f : Z -> A) k v : upd f k v k = v.
Proof. unfold upd. now rewrite Z.eqb_refl. Qed.
Lemma upd_neq {A} (f : Z -> A) k v x : x <> k -> upd f k v x = f x.
Proof. unfold upd. intros. destruct (Z.eqb_spec x k); congruence. Qed.
Lemma upd_comm {A} (f : Z -> A) i j u v : i <> j -> upd (upd f i u) j v = upd (upd f j v) i u.
Proof.
  intros. apply functional_extensionality. intros x. unfold upd.
  destruct (Z.eqb_spec x i), (Z.eqb_spec x j); congruence.
Qed.
Lemma upd_over {A} (f : Z -> A) i u v : upd (upd f i u) i v = upd f i v.
Proof. apply functional_extensionality. intros x. unfold upd. destruct (x =? i); auto. Qed.
Lemma upd_same {A} (f : Z -> A) i : upd f i (f i) = f.
Proof. apply functional_extensionality. intros x. unfold upd. destruct (Z.eqb_spec x i); congruence. Qed.

Lemma upd2_eq {A} (f : Z -> Z -> A) i j v : upd2 f i j v i j = v.
Proof. unfold upd2. now rewrite !upd_eq. Qed.
Lemma upd2_neq {A} (f : Z -> Z -> A) i j v x y : x <> i \/ y <> j -> upd2 f i j v x y = f x y.
Proof.
  unfold upd2, upd. intros. destruct (Z.eqb_spec x i); subst; auto.
  destruct (Z.eqb_spec y j); subst; auto. tauto.
Qed.
Lemma upd2_comm {A} (f : Z -> Z -> A) i j i' j' u v : i <> i' \/ j <> j' ->
  upd2 (upd2 f i j u) i' j' v = upd2 (upd2 f i' j' v) i j u.
Proof.
  intros H. apply functional_extensionality. intros x. apply functional_extensionality. intros y.
  unfold upd2, upd.
  destruct (Z.eqb_spec i i') as [Ei|Ei].
  - subst i'. rewrite !Z.eqb_refl. destruct (Z.eqb_spec x i); auto.
    destruct (Z.eqb_spec y j), (Z.eqb_spec y j'); subst; auto. tauto.
  - destruct (Z.eqb_spec i' i), (Z.eqb_spec i i'); try congruence.
    destruct (Z.eqb_spec x i), (Z.eqb_spec x i'); subst; auto. congruence.
Qed.
Lemma upd2_over {A} (f : Z -> Z -> A) i j u v : upd2 (upd2 f i j u) i j v = upd2 f i j v.
Proof. unfold upd2. now rewrite upd_eq, !upd_over. Qed.
Lemma upd2_same {A} (f : Z -> Z -> A) i j : upd2 f i j (f i j) = f.
Proof. unfold upd2. now rewrite !upd_same. Qed.

(** *** Diamond property *)
Lemma config_eq (p p' : Z -> list bop) m m' k k' : p = p' -> m = m' -> k = k' ->
  {| pr := p; mm := m; ch := k |} = {| pr := p'; mm := m'; ch := k' |}.
Proof. intros -> -> ->. reflexivity. Qed.

Definition bstep01 (c c' : config) : Prop := c = c' \/ bstep c c'.

Lemma step_to c x d : bstep c x -> x = d -> bstep01 c d.
Proof. intros H <-. now right. Qed.

Ltac updn := repeat first
  [ rewrite upd_eq | rewrite upd2_eq
  | rewrite upd_neq by congruence
  | rewrite upd2_neq by (first [left; congruence | right; congruence]) ].
Ltac prem := simpl; updn; solve [eassumption | congruence | reflexivity | eauto].
Ltac anystep := match goal with
  | H : pr _ ?a = BLocal ?f :: ?p |- _ => apply (st_local a f p); prem
  | H : pr _ ?a = BSend None ?d :: ?p |- _ => apply (st_snull a d p); prem
  | H : pr _ ?a = BRecv None ?d :: ?p |- _ => apply (st_rnull a d p); prem
  | H : pr _ ?a = BSend (Some ?b) ?s :: ?p, H' : pr _ ?b = BRecv (Some ?a) ?d :: ?q |- _ =>
      apply (st_rdv a b s d p q); prem
  | H : pr _ ?b = BRecv (Some ?a) ?d :: ?p |- _ => eapply (st_recv b a d p); prem
  | H : pr _ ?a = BSend (Some ?b) ?s :: ?p |- _ => apply (st_eager a b s p); prem
  end.
Ltac comm1 := first [reflexivity
  | solve [rewrite upd_comm by congruence; reflexivity]
  | solve [rewrite upd2_comm by (first [left; congruence|right; congruence]); reflexivity]].


Ltac fx := apply functional_extensionality; intro; unfold upd;
  repeat match goal with |- context [?x =? ?y] => destruct (Z.eqb_spec x y); subst end;
  try congruence; auto.
Ltac split_actors := repeat match goal with
  | H : pr ?c ?a = _, H' : pr ?c ?b = _ |- _ =>
     lazymatch goal with
     | _ : a <> b |- _ => fail
     | _ : b <> a |- _ => fail
     | _ => destruct (Z.eq_dec a b); [subst; try congruence; rewrite H in H'; inversion H'; subst; clear H'|]
     end
  end.

Definition joinable (c1 c2 : config) := exists d, bstep01 c1 d /\ bstep01 c2 d.
Lemma joinable_sym c1 c2 : joinable c1 c2 -> joinable c2 c1.
Proof. intros (d & ? & ?). exists d; auto. Qed.

Lemma diamond_rdv c c2 a b s d p q : a <> b -> pr c a = BSend (Some b) s :: p -> pr c b = BRecv (Some a) d :: q ->
    ch c a b = [] -> length s = length d -> bstep c c2 ->
  joinable {| pr := upd (upd (pr c) a p) b q; mm := upd (mm c) b (write d (map (mm c a) s) (mm c b)); ch := ch c |} c2.
Proof.
  intros Hab Ha Hb Hc Hl H. inversion H; subst; clear H; split_actors; try congruence.
  - eexists; split; [right; anystep|eapply step_to; [anystep|]]. simpl; apply config_eq; updn; auto; fx.
  - eexists; split; [right; anystep|eapply step_to; [anystep|]]. simpl; apply config_eq; updn; auto; fx.
  - eexists; split; [right; anystep|eapply step_to; [anystep|]]. simpl; apply config_eq; updn; auto; fx.
  - eexists; split; [left; reflexivity|].
    eapply step_to; [match goal with Hb : pr _ ?b = BRecv (Some ?a) ?d :: ?q |- _ => eapply (st_recv b a d q) end|]; simpl; updn; eauto.
    + rewrite Hc. reflexivity.
    + rewrite map_length. auto.
    + apply config_eq; auto. rewrite upd2_over, <- Hc. apply upd2_same.
  - eexists; split; [right; apply (st_eager a0 b0 d0 p0); prem|eapply step_to; [apply (st_rdv a b s d p q); prem|]].
    simpl; apply config_eq; updn; auto; fx.
  - eexists; split; [right; eapply (st_recv b0 a0 d0 p0); prem|eapply step_to; [apply (st_rdv a b s d p q); prem|]].
    simpl; apply config_eq; updn; auto; fx.
  - eexists; split; left; reflexivity.
  - eexists; split; [right; apply (st_rdv a0 b0 s0 d0 p0 q0); prem|eapply step_to; [apply (st_rdv a b s d p q); prem|]].
    simpl; apply config_eq; updn; auto; fx.
Qed.

Lemma diamond_eager_recv c a b s p b' a' d q v w : ea = true -> pr c a = BSend (Some b) s :: p ->
  pr c b' = BRecv (Some a') d :: q -> ch c a' b' = v :: w -> length v = length d ->
  joinable {| pr := upd (pr c) a p; mm := mm c; ch := upd2 (ch c) a b (ch c a b ++ [map (mm c a) s]) |}
           {| pr := upd (pr c) b' q; mm := upd (mm c) b' (write d v (mm c b')); ch := upd2 (ch c) a' b' w |}.
Proof.
  intros He Ha Hb Hc Hl. split_actors.
  destruct (Z.eq_dec a a') as [E1|E1]; [destruct (Z.eq_dec b b') as [E2|E2]|].
  - subst. eexists; split; [right; eapply (st_recv b' a' d q v)|eapply step_to; [apply (st_eager a' b' s p)|]]; simpl; updn; eauto.
    + rewrite Hc. reflexivity.
    + apply config_eq; [fx|fx|]. rewrite !upd2_over. reflexivity.
  - subst. eexists; split; [right; eapply (st_recv b' a' d q v)|eapply step_to; [apply (st_eager a' b s p)|]]; simpl; updn; eauto.
    apply config_eq; [fx|fx|]. rewrite upd2_comm; auto.
  - subst. eexists; split; [right; eapply (st_recv b' a' d q v)|eapply step_to; [apply (st_eager a b s p)|]]; simpl; updn; eauto.
    apply config_eq; [fx|fx|]. rewrite upd2_comm; auto.
Qed.

Lemma diamond c c1 c2 : bstep c c1 -> bstep c c2 -> joinable c1 c2.
Proof.
  intros H1 H2. pose proof H1 as H1'. pose proof H2 as H2'. inversion H1; subst; inversion H2; subst; clear H1 H2;
  try (eapply diamond_rdv; eassumption); try (apply joinable_sym; eapply diamond_rdv; eassumption);
  try (eapply diamond_eager_recv; eassumption); try (apply joinable_sym; eapply diamond_eager_recv; eassumption);
  clear H1' H2';
  split_actors; try congruence;
  try (eexists; split; left; reflexivity);
  try (eexists; split; [right; anystep|eapply step_to; [anystep|]]; simpl; apply config_eq; updn; comm1).
  match goal with H : ch c ?x ?y = _, H' : ch c ?x ?y = _ |- _ => rewrite H in H'; inversion H'; subst end.
  eexists; split; left; reflexivity.
Qed.

Lemma strip c c1 c2 : bstep c c1 -> bsteps c c2 -> exists d, bsteps c1 d /\ bstep01 c2 d.
Proof.
  intros H1 H2. revert c1 H1. induction H2 as [c|c c' c'' Hs H IH]; intros c1 H1.
  - exists c1. split; [constructor|now right].
  - destruct (diamond c c1 c' H1 Hs) as (d & Hd1 & Hd2). destruct Hd2 as [<-|Hd2].
    + exists c''. split; [|now left]. destruct Hd1 as [->|Hd1]; auto. econstructor; eauto.
    + destruct (IH d Hd2) as (e & He1 & He2). exists e. split; auto.
      destruct Hd1 as [->|Hd1]; auto. econstructor; eauto.
Qed.

Lemma finished_stuck c c' : finished c -> ~ bstep c c'.
Proof. intros Hf H. inversion H; subst; rewrite Hf in *; discriminate. Qed.

(** From one complete execution: no execution can get stuck, all end alike. *)
Theorem complete_run_safe c fin c' : bsteps c fin -> finished fin -> bsteps c c' -> bsteps c' fin.
Proof.
  intros Hf Hfin H. induction H as [c|c x y Hs H IH]; auto.
  apply IH. destruct (strip c x fin Hs Hf) as (d & Hd & [<-|He]); auto.
  exfalso. eapply finished_stuck; eauto.
Qed.

(** Every step consumes at least one operation. *)
Definition todo (ranks : list Z) (c : config) : nat :=
  fold_right (fun r n => (length (pr c r) + n)%nat) 0%nat ranks.

Lemma todo_upd ranks (p : Z -> list bop) m k m' k' a x q : NoDup ranks -> In a ranks -> p a = x :: q ->
  (todo ranks {| pr := upd p a q; mm := m; ch := k |} < todo ranks {| pr := p; mm := m'; ch := k' |})%nat.
Proof.
  unfold todo; simpl. induction ranks as [|r ranks IH]; simpl; intros Hn Hi E; [tauto|]. inversion Hn; subst.
  destruct Hi as [->|Hi].
  - rewrite upd_eq, E. simpl.
    assert (fold_right (fun r n => (length (upd p a q r) + n)%nat) 0%nat ranks = fold_right (fun r n => (length (p r) + n)%nat) 0%nat ranks) as ->; [|lia].
    clear - H1. induction ranks as [|r ranks IH]; simpl; auto. simpl in H1. rewrite IH by tauto. rewrite upd_neq; auto; intros ->; tauto.
  - specialize (IH H2 Hi E). rewrite upd_neq by (intros ->; contradiction). lia.
Qed.

Lemma step_todo ranks c c' : NoDup ranks -> (forall r, pr c r <> [] -> In r ranks) -> bstep c c' ->
  (todo ranks c' < todo ranks c)%nat /\ (forall r, pr c' r <> [] -> In r ranks).
Proof.
  intros Hn Hr H.
  assert (U : forall a x q (p : Z -> list bop), (forall r, p r <> [] -> In r ranks) -> p a = x :: q -> forall r, upd p a q r <> [] -> In r ranks).
  { intros a x q p Hp E r. unfold upd. destruct (Z.eqb_spec r a); auto. intros _. subst. apply Hp. congruence. }
  inversion H; subst; destruct c as [p0 m0 k0]; simpl in *;
    try (split; [eapply todo_upd; eauto; apply Hr; congruence|eapply U; eauto]).
  split.
  - eapply Nat.lt_trans; [eapply (todo_upd ranks (upd p0 a p) _ _ m0 k0)|eapply todo_upd]; eauto; try (apply Hr; congruence).
    rewrite upd_neq; [eassumption|congruence].
  - eapply (U b _ q); [eapply U; eauto|rewrite upd_neq by congruence; eassumption].
Qed.

Inductive bsteps_n : nat -> config -> config -> Prop :=
| bn_refl c : bsteps_n 0 c c
| bn_step n c c' c'' : bstep c c' -> bsteps_n n c' c'' -> bsteps_n (S n) c c''.

Lemma bsteps_bound ranks n c c' : NoDup ranks -> (forall r, pr c r <> [] -> In r ranks) ->
  bsteps_n n c c' -> (n + todo ranks c' <= todo ranks c)%nat.
Proof.
  intros Hn Hr H. revert Hr. induction H as [c|n c x y Hs H IH]; intros Hr; [lia|].
  destruct (step_todo ranks c x Hn Hr Hs) as [Hlt Hr']. specialize (IH Hr'). lia.
Qed.
End Blocking.

Lemma sync_is_eager {T} ea (c c' : @config T) : bstep false c c' -> bstep ea c c'.
Proof. intros H. inversion H; subst; try discriminate;
  [eapply st_local|eapply st_snull|eapply st_rnull|eapply st_recv|eapply st_rdv]; eauto. Qed.

Lemma syncs_are_eager {T} ea (c c' : @config T) : bsteps false c c' -> bsteps ea c c'.
Proof. induction 1; [constructor|econstructor; [apply sync_is_eager; eassumption|assumption]]. Qed.

(** A program is SAFE from a configuration, ending in [fin]: whether or not
    MPI buffers (any [ea]), executions are bounded in length, and from any
    configuration any execution can reach, [fin] is still reached and it is
    the only place where execution stops. *)
Definition always_ends {T} (c fin : @config T) : Prop :=
  finished fin /\ forall ea,
    (exists N, forall n c', bsteps_n ea n c c' -> (n <= N)%nat) /\
    (forall c', bsteps ea c c' -> bsteps ea c' fin) /\
    (forall c', bsteps ea c c' -> (forall c'', ~ bstep ea c' c'') -> c' = fin).

Theorem sync_run_always_ends {T} (ranks : list Z) (c fin : @config T) :
  NoDup ranks -> (forall r, pr c r <> [] -> In r ranks) ->
  bsteps false c fin -> finished fin -> always_ends c fin.
Proof.
  intros Hn Hr H Hf. split; auto. intros ea.
  pose proof (syncs_are_eager ea _ _ H) as He. split; [|split].
  - exists (todo ranks c). intros n c' Hc. pose proof (bsteps_bound ea ranks n c c' Hn Hr Hc). lia.
  - intros c' Hc. eapply complete_run_safe; eauto.
  - intros c' Hc Hs. pose proof (complete_run_safe ea c fin c' He Hf Hc) as Hc'.
    inversion Hc'; subst; auto. exfalso. eapply Hs; eauto.
Qed.
