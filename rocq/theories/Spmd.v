(** Asynchronous execution of SPMD programs built from local computations and
    non-blocking ghost exchanges.

    This is the execution model of every stencil kernel and simulator step:
    each rank posts the messages of an exchange ([exchange_*_init]), goes on
    computing, waits ([exchange_finalise], MPI.Request.Waitall) and computes
    again.  Ranks run at independent speeds and there is no barrier.  The
    element copies of an exchange may happen, one by one and in any order, as
    soon as both ranks have posted it; a rank passes Waitall only when all
    copies from and to it of the exchanges it has posted are done.
    Local computations are sequences of single-cell updates, each of which may
    read anything in its own rank's memory at the moment it executes.
    [spmd_safe] turns the round-by-round result into a statement about every
    interleaving. *)
From Coq Require Import FunctionalExtensionality.
From Verif Require Import Base Comm.

Arguments place_dec : simpl never.

Section Spmd.
Context {T : Type}.
Notation mem := (mem T).

Definition lmemT := addr -> T.

(** One local cell update: a := f(local memory). *)
Record lop := { la : addr; lf : lmemT -> T }.

Definition addr_eq (a b : addr) : {a = b} + {a <> b}.
Proof. repeat decide equality. Defined.

Arguments addr_eq : simpl never.

Definition lop1 (m : lmemT) (u : lop) : lmemT := fun a => if addr_eq a (la u) then lf u m else m a.
Definition run_lops (us : list lop) (m : lmemT) : lmemT := fold_left lop1 us m.

Definition local1 (r : Z) (m : mem) (u : lop) : mem :=
  fun l => if place_dec l (r, la u) then lf u (fun a => m (r, a)) else m l.

(** A program: local phases, and exchanges with the computation that overlaps them. *)
Inductive phase :=
| PLoc (u : Z -> list lop)
| PExch (C : list (place * place)) (u : Z -> list lop).

Inductive instr := ILoc (u : lop) | IPost | IWait.

Definition code1 (p : phase) (r : Z) : list instr :=
  match p with
  | PLoc u => map ILoc (u r)
  | PExch _ u => IPost :: map ILoc (u r) ++ [IWait]
  end.
Definition code_of (ps : list phase) (r : Z) : list instr := flat_map (fun p => code1 p r) ps.

(** Copies of the successive exchanges, numbered from k. *)
Fixpoint pend_of (k : nat) (ps : list phase) : list (nat * (place * place)) :=
  match ps with
  | [] => []
  | PLoc _ :: ps' => pend_of k ps'
  | PExch C _ :: ps' => map (fun c => (k, c)) C ++ pend_of (S k) ps'
  end.

Record cfg := { sm : mem; code : Z -> list instr; posted : Z -> nat; pend : list (nat * (place * place)) }.

Definition updf {A} (f : Z -> A) (k : Z) (v : A) : Z -> A := fun x => if x =? k then v else f x.
Definition touches (r : Z) (c : place * place) : Prop := fst (fst c) = r \/ fst (snd c) = r.

Inductive sstep : cfg -> cfg -> Prop :=
| ss_loc r u p c : code c r = ILoc u :: p ->
    sstep c {| sm := local1 r (sm c) u; code := updf (code c) r p; posted := posted c; pend := pend c |}
| ss_post r p c : code c r = IPost :: p ->
    sstep c {| sm := sm c; code := updf (code c) r p; posted := updf (posted c) r (S (posted c r)); pend := pend c |}
| ss_wait r p c : code c r = IWait :: p ->
    (forall k e, In (k, e) (pend c) -> (k < posted c r)%nat -> ~ touches r e) ->
    sstep c {| sm := sm c; code := updf (code c) r p; posted := posted c; pend := pend c |}
| ss_copy k s d A B c : pend c = A ++ (k, (s, d)) :: B ->
    (k < posted c (fst s))%nat -> (k < posted c (fst d))%nat ->
    sstep c {| sm := copy1 (sm c) (s, d); code := code c; posted := posted c; pend := A ++ B |}.

Inductive ssteps : cfg -> cfg -> Prop :=
| ss_refl c : ssteps c c
| ss_step c c' c'' : sstep c c' -> ssteps c' c'' -> ssteps c c''.

Inductive ssteps_n : nat -> cfg -> cfg -> Prop :=
| sn_refl c : ssteps_n 0 c c
| sn_step n c c' c'' : sstep c c' -> ssteps_n n c' c'' -> ssteps_n (S n) c c''.

Definition sstart (n : Z) (ps : list phase) (m : mem) : cfg :=
  {| sm := m; code := fun r => if (0 <=? r) && (r <? n) then code_of ps r else [];
     posted := fun _ => 0%nat; pend := pend_of 0 ps |}.

Definition sdone (c : cfg) : Prop := (forall r, code c r = []) /\ pend c = [].

(** Every execution of the program on n ranks from memory m is finite, can
    always be continued to the end, and ends with memory m'. *)
Definition spmd_ends (n : Z) (ps : list phase) (m m' : mem) : Prop :=
  (exists N, forall j c, ssteps_n j (sstart n ps m) c -> (j <= N)%nat) /\
  (forall c, ssteps (sstart n ps m) c -> exists fin, ssteps c fin /\ sdone fin /\ sm fin = m') /\
  (forall c, ssteps (sstart n ps m) c -> (forall c', ~ sstep c c') -> sdone c /\ sm c = m').

(** *** Round-by-round meaning *)
Definition den_loc (n : Z) (u : Z -> list lop) (m : mem) : mem :=
  fun l => if (0 <=? fst l) && (fst l <? n) then run_lops (u (fst l)) (fun a => m (fst l, a)) (snd l) else m l.

Definition den1 (n : Z) (m : mem) (p : phase) : mem :=
  match p with
  | PLoc u => den_loc n u m
  | PExch C u => den_loc n u (run_copies C m)
  end.
Definition den (n : Z) (ps : list phase) (m : mem) : mem := fold_left (den1 n) ps m.

(** *** When overlap is harmless *)
(** [u], executed by rank r, does not interfere with the copies C. *)
Definition compat (C : list (place * place)) (r : Z) (u : lop) : Prop :=
  (forall c, In c C -> fst c <> (r, la u) /\ snd c <> (r, la u)) /\
  (forall m m' : lmemT, (forall a, (forall s, ~ In (s, (r, a)) C) -> m a = m' a) -> lf u m = lf u m').

Definition phase_ok (n : Z) (p : phase) : Prop :=
  match p with
  | PLoc _ => True
  | PExch C u => no_read_write C /\ single_source C /\
      (forall s d, In (s, d) C -> 0 <= fst s < n /\ 0 <= fst d < n) /\
      (forall r, 0 <= r < n -> Forall (compat C r) (u r))
  end.

(** *** Algebra *)
Lemma updf_eq {A} (f : Z -> A) k v : updf f k v k = v.
Proof. unfold updf. now rewrite Z.eqb_refl. Qed.
Lemma updf_neq {A} (f : Z -> A) k v x : x <> k -> updf f k v x = f x.
Proof. unfold updf. intros. destruct (Z.eqb_spec x k); congruence. Qed.
Lemma updf_comm {A} (f : Z -> A) i j u v : i <> j -> updf (updf f i u) j v = updf (updf f j v) i u.
Proof.
  intros. apply functional_extensionality. intros x. unfold updf.
  destruct (Z.eqb_spec x i), (Z.eqb_spec x j); congruence.
Qed.

Lemma cfg_eq m m' (k k' : Z -> list instr) p p' q q' : m = m' -> k = k' -> p = p' -> q = q' ->
  {| sm := m; code := k; posted := p; pend := q |} = {| sm := m'; code := k'; posted := p'; pend := q' |}.
Proof. intros -> -> -> ->. reflexivity. Qed.

Lemma two_splits {A} (l1 l2 l1' l2' : list A) x y : l1 ++ x :: l2 = l1' ++ y :: l2' ->
  (l1 = l1' /\ x = y /\ l2 = l2') \/
  (exists k, l1' = l1 ++ x :: k /\ l2 = k ++ y :: l2') \/
  (exists k, l1 = l1' ++ y :: k /\ l2' = k ++ x :: l2).
Proof.
  revert l1'. induction l1 as [|a l1 IH]; intros [|b l1'] E; simpl in *.
  - inversion E; auto.
  - inversion E; subst. right; left. exists l1'. auto.
  - inversion E; subst. right; right. exists l1. auto.
  - inversion E; subst. destruct (IH _ H1) as [(->&->&->)|[(k&->&->)|(k&->&->)]]; auto.
    + right; left. exists k. auto.
    + right; right. exists k. auto.
Qed.

(** *** Invariant *)
(** C k: copies of exchange k (fixed for a program). *)
Variable C : nat -> list (place * place).

Inductive wfo (r : Z) : nat -> list instr -> Prop :=
| wo_nil j : wfo r j []
| wo_loc j u p : wfo r j p -> wfo r j (ILoc u :: p)
| wo_post j p : wfi r j p -> wfo r j (IPost :: p)
with wfi (r : Z) : nat -> list instr -> Prop :=
| wi_loc j u p : compat (C j) r u -> wfi r j p -> wfi r j (ILoc u :: p)
| wi_wait j p : wfo r (S j) p -> wfi r j (IWait :: p).

Definition copies_ok : Prop := forall k, no_read_write (C k) /\ single_source (C k).

Definition inv (c : cfg) : Prop :=
  (forall k e, In (k, e) (pend c) -> In e (C k)) /\
  forall r, exists j,
    (posted c r = j /\ wfo r j (code c r) \/ posted c r = S j /\ wfi r j (code c r)) /\
    (forall k e, In (k, e) (pend c) -> touches r e -> (j <= k)%nat).

Lemma inv_step c c' : inv c -> sstep c c' -> inv c'.
Proof.
  intros [HC Hr] H. inversion H; subst; simpl; split; simpl; auto.
  - intros x. destruct (Hr x) as (j & Hj & Ht). exists j. split; auto.
    destruct (Z.eq_dec x r) as [->|Hn]; [rewrite updf_eq|now rewrite updf_neq].
    rewrite H0 in Hj. destruct Hj as [[E W]|[E W]]; inversion W; auto.
  - intros x. destruct (Hr x) as (j & Hj & Ht). exists j. split; auto.
    destruct (Z.eq_dec x r) as [->|Hn]; [rewrite !updf_eq|now rewrite !updf_neq].
    rewrite H0 in Hj. destruct Hj as [[E W]|[E W]]; inversion W; subst; auto.
  - intros x. destruct (Hr x) as (j & Hj & Ht).
    destruct (Z.eq_dec x r) as [->|Hn]; [|exists j; rewrite updf_neq; auto].
    rewrite updf_eq. rewrite H0 in Hj. destruct Hj as [[E W]|[E W]]; inversion W; subst.
    exists (S j). split; [left; auto|]. intros k e Hk He.
    destruct (le_lt_dec (S j) k); auto. exfalso. apply (H1 k e); auto. lia.
  - intros k' e Hin. apply HC. rewrite H0. apply in_app_iff. apply in_app_iff in Hin. simpl. tauto.
  - intros x. destruct (Hr x) as (j & Hj & Ht). exists j. split; auto.
    intros k' e Hin. apply Ht. rewrite H0. apply in_app_iff. apply in_app_iff in Hin. simpl. tauto.
Qed.

(** A rank touched by an enabled copy is inside the window of that exchange. *)
Lemma in_window c k e r : inv c -> In (k, e) (pend c) -> touches r e -> (k < posted c r)%nat ->
  posted c r = S k /\ wfi r k (code c r).
Proof.
  intros [_ Hr] Hin Ht Hp. destruct (Hr r) as (j & Hj & Hle). specialize (Hle k e Hin Ht).
  destruct Hj as [[E W]|[E W]]; [lia|]. assert (k = j) by lia. now subst.
Qed.

Definition sstep01 (c c' : cfg) : Prop := c = c' \/ sstep c c'.
Definition sjoin (c1 c2 : cfg) := exists d, sstep01 c1 d /\ sstep01 c2 d.
Lemma sjoin_sym c1 c2 : sjoin c1 c2 -> sjoin c2 c1.
Proof. intros (d & ? & ?). exists d; auto. Qed.
Lemma sstep_to c x d : sstep c x -> x = d -> sstep01 c d.
Proof. intros H <-. now right. Qed.

Lemma local_local r r' m u u' : r <> r' ->
  local1 r' (local1 r m u) u' = local1 r (local1 r' m u') u.
Proof.
  intros Hn. apply functional_extensionality. intros l. unfold local1.
  assert (E : forall a, (if place_dec (r', a) (r, la u) then lf u (fun a0 => m (r, a0)) else m (r', a)) = m (r', a)).
  { intros a. destruct (place_dec (r', a) (r, la u)); congruence. }
  assert (E' : forall a, (if place_dec (r, a) (r', la u') then lf u' (fun a0 => m (r', a0)) else m (r, a)) = m (r, a)).
  { intros a. destruct (place_dec (r, a) (r', la u')); congruence. }
  replace (fun a => if place_dec (r', a) (r, la u) then _ else m (r', a)) with (fun a => m (r', a))
    by (apply functional_extensionality; intros; now rewrite E).
  replace (fun a => if place_dec (r, a) (r', la u') then _ else m (r, a)) with (fun a => m (r, a))
    by (apply functional_extensionality; intros; now rewrite E').
  destruct (place_dec l (r', la u')), (place_dec l (r, la u)); congruence.
Qed.

Lemma local_copy k r m u s d : In (s, d) (C k) -> (fst s = r \/ fst d = r -> compat (C k) r u) ->
  copy1 (local1 r m u) (s, d) = local1 r (copy1 m (s, d)) u.
Proof.
  intros Hin Hc. apply functional_extensionality. intros l.
  assert (Hs : s <> (r, la u)).
  { intros E. destruct Hc as [Hc _]; [left; now rewrite E|]. destruct (Hc _ Hin) as [X _]. apply X. exact E. }
  assert (Hd : d <> (r, la u)).
  { intros E. destruct Hc as [Hc _]; [right; now rewrite E|]. destruct (Hc _ Hin) as [_ X]. apply X. exact E. }
  assert (Hf : lf u (fun a => m (r, a)) = lf u (fun a => copy1 m (s, d) (r, a))).
  { destruct (Z.eq_dec (fst d) r) as [Ed|Ed].
    - destruct (Hc (or_intror Ed)) as [_ Hc']. apply Hc'. intros a Ha. unfold copy1. simpl.
      destruct (place_dec (r, a) d) as [E|E]; [|reflexivity]. exfalso. apply (Ha s). now rewrite E.
    - f_equal. apply functional_extensionality. intros a. unfold copy1. simpl.
      destruct (place_dec (r, a) d) as [E|E]; [|reflexivity]. rewrite <- E in Ed. simpl in Ed. congruence. }
  unfold copy1, local1 in *. simpl in *.
  destruct (place_dec l d), (place_dec l (r, la u)), (place_dec s (r, la u)); try congruence.
Qed.

Lemma copy_copy (m : mem) s d s' d' : s <> d' -> s' <> d -> (d = d' -> s = s') ->
  copy1 (copy1 m (s, d)) (s', d') = copy1 (copy1 m (s', d')) (s, d).
Proof.
  intros H1 H2 H3. apply functional_extensionality. intros l. unfold copy1. simpl.
  destruct (place_dec l d'), (place_dec l d), (place_dec s' d), (place_dec s d'); try congruence.
  subst. rewrite H3; auto.
Qed.

Ltac upn := repeat first [rewrite updf_eq | rewrite updf_neq by congruence].

Lemma diamond_copy c c2 k s d A B : copies_ok -> inv c -> pend c = A ++ (k, (s, d)) :: B ->
  (k < posted c (fst s))%nat -> (k < posted c (fst d))%nat -> sstep c c2 ->
  sjoin {| sm := copy1 (sm c) (s, d); code := code c; posted := posted c; pend := A ++ B |} c2.
Proof.
  intros Hok Hi Hp Hs Hd H.
  assert (Hin : In (k, (s, d)) (pend c)) by (rewrite Hp; apply in_app_iff; right; now left).
  assert (HC : In (s, d) (C k)) by (apply Hi; exact Hin).
  inversion H; subst.
  - (* local *)
    eexists. split; [right; apply (ss_loc r u p); exact H0|].
    eapply sstep_to; [apply (ss_copy k s d A B); simpl; auto|]. simpl. apply cfg_eq; auto.
    apply local_copy with (k := k); auto. intros Ht.
    assert (W : wfi r k (code c r)).
    { destruct Ht; [subst r; eapply (in_window c k (s, d) (fst s)) | subst r; eapply (in_window c k (s, d) (fst d))];
        eauto; unfold touches; simpl; auto. }
    rewrite H0 in W. now inversion W.
  - (* post *)
    eexists. split; [right; apply (ss_post r p); exact H0|].
    eapply sstep_to; [apply (ss_copy k s d A B); simpl; auto|reflexivity].
    + unfold updf. destruct (Z.eqb_spec (fst s) r) as [<-|]; lia.
    + unfold updf. destruct (Z.eqb_spec (fst d) r) as [<-|]; lia.
  - (* wait *)
    eexists. split.
    + right. apply (ss_wait r p); [exact H0|]. simpl. intros k' e Hk. apply H1. rewrite Hp.
      apply in_app_iff. apply in_app_iff in Hk. simpl. tauto.
    + eapply sstep_to; [apply (ss_copy k s d A B); simpl; auto|reflexivity].
  - (* copy *)
    rename s0 into s', d0 into d', k0 into k'.
    assert (Hin' : In (k', (s', d')) (pend c)) by (rewrite H0; apply in_app_iff; right; now left).
    assert (HC' : In (s', d') (C k')) by (apply Hi; exact Hin').
    assert (Hcc : copy1 (copy1 (sm c) (s, d)) (s', d') = copy1 (copy1 (sm c) (s', d')) (s, d)).
    { assert (Hk : forall x, touches x (s, d) -> touches x (s', d') -> k = k').
      { intros x Hx Hx'.
        assert (P : posted c x = S k).
        { eapply (in_window c k (s, d) x); eauto. destruct Hx as [<-|<-]; auto. }
        assert (P' : posted c x = S k').
        { eapply (in_window c k' (s', d') x); eauto. destruct Hx' as [<-|<-]; auto. }
        lia. }
      apply copy_copy.
      - intros E. assert (k = k') as Ek by (apply (Hk (fst s)); unfold touches; simpl; subst; auto).
        subst k'. destruct (Hok k) as [Hw _]. apply (Hw (s, d) (s', d')); auto.
      - intros E. assert (k = k') as Ek by (apply (Hk (fst s')); unfold touches; simpl; subst; auto).
        subst k'. destruct (Hok k) as [Hw _]. apply (Hw (s', d') (s, d)); auto.
      - intros E. assert (k = k') as Ek by (apply (Hk (fst d)); unfold touches; simpl; subst; auto).
        subst k'. destruct (Hok k) as [_ Hw]. apply (Hw s s' d); auto. now rewrite E. }
    rewrite Hp in H0. destruct (two_splits _ _ _ _ _ _ H0) as [(->&E&->)|[(K&->&->)|(K&->&->)]].
    + inversion E; subst. eexists; split; left; reflexivity.
    + eexists. split; [right; apply (ss_copy k' s' d' (A ++ K) B0); simpl; auto; now rewrite <- app_assoc|].
      eapply sstep_to; [apply (ss_copy k s d A (K ++ B0)); simpl; auto; now rewrite <- app_assoc|].
      simpl. apply cfg_eq; auto. now rewrite <- app_assoc.
    + eexists. split; [right; apply (ss_copy k' s' d' A0 (K ++ B)); simpl; auto; now rewrite <- app_assoc|].
      eapply sstep_to; [apply (ss_copy k s d (A0 ++ K) B); simpl; auto; now rewrite <- app_assoc|].
      simpl. apply cfg_eq; auto. now rewrite <- app_assoc.
Qed.

Lemma sdiamond c c1 c2 : copies_ok -> inv c -> sstep c c1 -> sstep c c2 -> sjoin c1 c2.
Proof.
  intros Hok Hi H1 H2. pose proof H1 as G1. pose proof H2 as G2.
  inversion H1; subst; inversion H2; subst; clear H1 H2;
  try (eapply diamond_copy; eassumption); try (apply sjoin_sym; eapply diamond_copy; eassumption);
  match goal with Ha : code c ?a = _, Hb : code c ?b = _ |- _ =>
    destruct (Z.eq_dec a b) as [E|E];
    [subst b; rewrite Ha in Hb; inversion Hb; subst; eexists; split; left; reflexivity|]
  end.
  all: eexists; split; [right|].
  1: apply (ss_loc r0 u0 p0); simpl; upn; auto.
  1: eapply sstep_to; [apply (ss_loc r u p); simpl; upn; auto|]; simpl; apply cfg_eq; auto;
     [apply local_local|apply updf_comm]; congruence.
  1: apply (ss_post r0 p0); simpl; upn; auto.
  1: eapply sstep_to; [apply (ss_loc r u p); simpl; upn; auto|]; simpl; apply cfg_eq; auto; apply updf_comm; congruence.
  1: apply (ss_wait r0 p0); simpl; upn; auto.
  1: eapply sstep_to; [apply (ss_loc r u p); simpl; upn; auto|]; simpl; apply cfg_eq; auto; apply updf_comm; congruence.
  1: apply (ss_loc r0 u p0); simpl; upn; auto.
  1: eapply sstep_to; [apply (ss_post r p); simpl; upn; auto|]; simpl; apply cfg_eq; auto; apply updf_comm; congruence.
  1: apply (ss_post r0 p0); simpl; upn; auto.
  1: eapply sstep_to; [apply (ss_post r p); simpl; upn; auto|]; simpl; apply cfg_eq; auto; upn; apply updf_comm; congruence.
  1: apply (ss_wait r0 p0); simpl; upn; auto.
  1: eapply sstep_to; [apply (ss_post r p); simpl; upn; auto|]; simpl; apply cfg_eq; auto; apply updf_comm; congruence.
  1: apply (ss_loc r0 u p0); simpl; upn; auto.
  1: eapply sstep_to; [apply (ss_wait r p); simpl; upn; auto|]; simpl; apply cfg_eq; auto; apply updf_comm; congruence.
  1: apply (ss_post r0 p0); simpl; upn; auto.
  1: eapply sstep_to; [apply (ss_wait r p); simpl; upn; auto|]; simpl; apply cfg_eq; auto; apply updf_comm; congruence.
  1: apply (ss_wait r0 p0); simpl; upn; auto.
  1: eapply sstep_to; [apply (ss_wait r p); simpl; upn; auto|]; simpl; apply cfg_eq; auto; apply updf_comm; congruence.
Qed.

Lemma ssteps_trans c c' c'' : ssteps c c' -> ssteps c' c'' -> ssteps c c''.
Proof. induction 1; auto. intros. econstructor; eauto. Qed.

Lemma sstrip c c1 c2 : copies_ok -> inv c -> sstep c c1 -> ssteps c c2 -> exists d, ssteps c1 d /\ sstep01 c2 d.
Proof.
  intros Hok Hi H1 H2. revert c1 H1 Hi. induction H2 as [c|c c' c'' Hs H IH]; intros c1 H1 Hi.
  - exists c1. split; [constructor|now right].
  - destruct (sdiamond c c1 c' Hok Hi H1 Hs) as (d & Hd1 & Hd2). destruct Hd2 as [<-|Hd2].
    + exists c''. split; [|now left]. destruct Hd1 as [->|Hd1]; auto. econstructor; eauto.
    + destruct (IH d Hd2 (inv_step _ _ Hi Hs)) as (e & He1 & He2). exists e. split; auto.
      destruct Hd1 as [->|Hd1]; auto. econstructor; eauto.
Qed.

Lemma sdone_stuck c c' : sdone c -> ~ sstep c c'.
Proof.
  intros [Hf Hp] H. inversion H; subst; try (rewrite Hf in *; discriminate).
  rewrite Hp in *. destruct A; discriminate.
Qed.

Lemma srun_safe c fin c' : copies_ok -> inv c -> ssteps c fin -> sdone fin -> ssteps c c' -> ssteps c' fin.
Proof.
  intros Hok Hi Hf Hfin H. induction H as [c|c x y Hs H IH]; auto.
  apply IH; [eapply inv_step; eauto|]. destruct (sstrip c x fin Hok Hi Hs Hf) as (d & Hd & [<-|He]); auto.
  exfalso. eapply sdone_stuck; eauto.
Qed.
End Spmd.

(** *** Termination bound *)
Section Bound.
Context {T : Type}.
Notation cfg := (@cfg T).
Definition swork (ranks : list Z) (c : cfg) : nat :=
  (fold_right (fun r n => (length (code c r) + n)%nat) 0%nat ranks + length (pend c))%nat.

Lemma swork_upd ranks (p : Z -> list (@instr T)) a x q : NoDup ranks -> In a ranks -> p a = x :: q ->
  (fold_right (fun r n => (length (updf p a q r) + n)%nat) 0%nat ranks <
   fold_right (fun r n => (length (p r) + n)%nat) 0%nat ranks)%nat.
Proof.
  induction ranks as [|r ranks IH]; simpl; intros Hn Hi E; [tauto|]. inversion Hn; subst.
  destruct Hi as [->|Hi].
  - rewrite updf_eq, E. simpl.
    assert (fold_right (fun r n => (length (updf p a q r) + n)%nat) 0%nat ranks = fold_right (fun r n => (length (p r) + n)%nat) 0%nat ranks) as ->; [|lia].
    clear - H1. induction ranks as [|r ranks IH]; simpl; auto. simpl in H1. rewrite IH by tauto. rewrite updf_neq; auto; intros ->; tauto.
  - specialize (IH H2 Hi E). rewrite updf_neq by (intros ->; contradiction). lia.
Qed.

Lemma sstep_work ranks c c' : NoDup ranks -> (forall r, code c r <> [] -> In r ranks) -> sstep c c' ->
  (swork ranks c' < swork ranks c)%nat /\ (forall r, code c' r <> [] -> In r ranks).
Proof.
  intros Hn Hr H.
  assert (U : forall a x q (p : Z -> list (@instr T)), (forall r, p r <> [] -> In r ranks) -> p a = x :: q -> forall r, updf p a q r <> [] -> In r ranks).
  { intros a x q p Hp E r. unfold updf. destruct (Z.eqb_spec r a); auto. intros _. subst. apply Hp. congruence. }
  unfold swork. inversion H; subst; simpl;
    try (split; [|eapply U; eauto]; apply Nat.add_lt_mono_r; eapply swork_upd; eauto; apply Hr; congruence).
  split; [|assumption]. rewrite H0, !app_length. simpl. lia.
Qed.

Lemma ssteps_bound ranks n c c' : NoDup ranks -> (forall r, code c r <> [] -> In r ranks) ->
  ssteps_n n c c' -> (n + swork ranks c' <= swork ranks c)%nat.
Proof.
  intros Hn Hr H. revert Hr. induction H as [c|n c x y Hs H IH]; intros Hr; [lia|].
  destruct (sstep_work ranks c x Hn Hr Hs) as [Hlt Hr']. specialize (IH Hr'). lia.
Qed.
End Bound.

(** *** The round-by-round execution is one of the executions *)
Section Bulk.
Context {T : Type}.
Notation cfg := (@cfg T). Notation mem := (mem T).
Variable n : Z.
Notation rk := (zrange 0 n).

Lemma ssteps_eq (c x d : cfg) : ssteps c x -> x = d -> ssteps c d.
Proof. now intros H <-. Qed.

(** Run local instructions of one rank. *)
Lemma run_locs_one r us (c : cfg) p : code c r = map ILoc us ++ p ->
  ssteps c {| sm := fold_left (local1 r) us (sm c); code := updf (code c) r p; posted := posted c; pend := pend c |}.
Proof.
  revert c. induction us as [|u us IH]; intros c E; simpl in *.
  - eapply ssteps_eq; [constructor|]. destruct c; simpl in *. apply cfg_eq; auto.
    apply functional_extensionality. intros x. unfold updf. destruct (Z.eqb_spec x r); congruence.
  - eapply ss_step; [apply (ss_loc r u (map ILoc us ++ p)); exact E|].
    eapply ssteps_eq; [apply IH; simpl; now rewrite updf_eq|]. simpl. apply cfg_eq; auto.
    apply functional_extensionality. intros x. unfold updf. destruct (x =? r); auto.
Qed.

Lemma locals_lmem r us (m : mem) l : fold_left (local1 r) us m l =
  if fst l =? r then run_lops us (fun a => m (r, a)) (snd l) else m l.
Proof.
  revert m. induction us as [|u us IH]; intros m; simpl.
  - destruct l as [x a]; simpl. destruct (Z.eqb_spec x r); subst; auto.
  - rewrite IH. destruct l as [x a]; simpl. destruct (Z.eqb_spec x r) as [->|Hn].
    + unfold run_lops. simpl. f_equal. f_equal. apply functional_extensionality. intros b. unfold local1, lop1.
      destruct (place_dec (r, b) (r, la u)), (addr_eq b (la u)); congruence.
    + unfold local1. destruct (place_dec (x, a) (r, la u)); congruence.
Qed.

Definition memb (r : Z) (l : list Z) : bool := existsb (Z.eqb r) l.
Lemma memb_spec r l : memb r l = true <-> In r l.
Proof.
  unfold memb. rewrite existsb_exists. split.
  - intros (x & Hx & E). apply Z.eqb_eq in E. now subst.
  - intros H. exists r. split; auto. apply Z.eqb_refl.
Qed.
Lemma memb_false r l : memb r l = false <-> ~ In r l.
Proof. rewrite <- memb_spec. destruct (memb r l); split; congruence. Qed.

Definition den_on (L : list Z) (u : Z -> list lop) (m : mem) : mem :=
  fun l => if memb (fst l) L then run_lops (u (fst l)) (fun a => m (fst l, a)) (snd l) else m l.

Lemma run_locs_all u L : forall (c : cfg) (p : Z -> list instr), NoDup L ->
  (forall r, In r L -> code c r = map ILoc (u r) ++ p r) ->
  ssteps c {| sm := den_on L u (sm c); code := fun r => if memb r L then p r else code c r;
              posted := posted c; pend := pend c |}.
Proof.
  induction L as [|a L IH]; intros c p Hn Hp; simpl.
  - eapply ssteps_eq; [constructor|]. destruct c; reflexivity.
  - inversion Hn; subst. eapply ssteps_trans; [apply (run_locs_one a (u a) c (p a)); apply Hp; now left|].
    eapply ssteps_eq; [apply (IH _ p); auto|].
    + simpl. intros r Hr. rewrite updf_neq by (intros ->; contradiction). apply Hp. now right.
    + simpl. apply cfg_eq; auto; apply functional_extensionality.
      * intros [x b]. unfold den_on. simpl. destruct (Z.eqb_spec x a) as [->|Hx]; simpl.
        -- assert (memb a L = false) as -> by now apply memb_false. rewrite locals_lmem. simpl. now rewrite Z.eqb_refl.
        -- destruct (memb x L); [|rewrite locals_lmem; simpl; now destruct (Z.eqb_spec x a)].
           f_equal. apply functional_extensionality. intros b'. rewrite locals_lmem. simpl.
           now destruct (Z.eqb_spec x a).
      * intros x. unfold updf. destruct (Z.eqb_spec x a) as [->|Hx]; simpl.
        -- now destruct (memb a L).
        -- reflexivity.
Qed.

Lemma run_posts L : forall (c : cfg) (p : Z -> list instr), NoDup L ->
  (forall r, In r L -> code c r = IPost :: p r) ->
  ssteps c {| sm := sm c; code := fun r => if memb r L then p r else code c r;
              posted := fun r => if memb r L then S (posted c r) else posted c r; pend := pend c |}.
Proof.
  induction L as [|a L IH]; intros c p Hn Hp; simpl.
  - eapply ssteps_eq; [constructor|]. destruct c; reflexivity.
  - inversion Hn; subst. eapply ss_step; [apply (ss_post a (p a)); apply Hp; now left|].
    eapply ssteps_eq; [apply (IH _ p); auto|].
    + simpl. intros r Hr. rewrite updf_neq by (intros ->; contradiction). apply Hp. now right.
    + simpl. apply cfg_eq; auto; apply functional_extensionality; intros x; unfold updf;
        destruct (Z.eqb_spec x a) as [->|Hx]; simpl; auto.
      * now destruct (memb a L).
      * assert (memb a L = false) as -> by now apply memb_false. reflexivity.
Qed.

Lemma run_waits L : forall (c : cfg) (p : Z -> list instr), NoDup L ->
  (forall r, In r L -> code c r = IWait :: p r) ->
  (forall r k e, In r L -> In (k, e) (pend c) -> (k < posted c r)%nat -> ~ touches r e) ->
  ssteps c {| sm := sm c; code := fun r => if memb r L then p r else code c r;
              posted := posted c; pend := pend c |}.
Proof.
  induction L as [|a L IH]; intros c p Hn Hp Hw; simpl.
  - eapply ssteps_eq; [constructor|]. destruct c; reflexivity.
  - inversion Hn; subst. eapply ss_step; [apply (ss_wait a (p a)); [apply Hp; now left|]|].
    { intros k e. apply Hw. now left. }
    eapply ssteps_eq; [apply (IH _ p); auto|].
    + simpl. intros r Hr. rewrite updf_neq by (intros ->; contradiction). apply Hp. now right.
    + simpl. intros r k e Hr. apply Hw. now right.
    + simpl. apply cfg_eq; auto; apply functional_extensionality; intros x; unfold updf;
        destruct (Z.eqb_spec x a) as [->|Hx]; simpl; auto.
      now destruct (memb a L).
Qed.

Lemma run_copies_steps k E : forall (c : cfg) rest, pend c = map (fun e => (k, e)) E ++ rest ->
  (forall s d, In (s, d) E -> (k < posted c (fst s))%nat /\ (k < posted c (fst d))%nat) ->
  ssteps c {| sm := run_copies E (sm c); code := code c; posted := posted c; pend := rest |}.
Proof.
  induction E as [|[s d] E IH]; intros c rest Hp Hk; simpl in *.
  - eapply ssteps_eq; [constructor|]. destruct c; simpl in *; subst; reflexivity.
  - eapply ss_step; [apply (ss_copy k s d [] (map (fun e => (k, e)) E ++ rest) c Hp); apply (Hk s d); auto|].
    eapply ssteps_eq; [apply (IH _ rest); [reflexivity|simpl; intros; apply Hk; auto]|reflexivity].
Qed.

Lemma memb_rk r : memb r rk = (0 <=? r) && (r <? n).
Proof.
  apply Bool.eq_true_iff_eq. rewrite memb_spec, zrange_In, andb_true_iff, Z.leb_le, Z.ltb_lt. lia.
Qed.

Lemma den_on_rk u m : den_on rk u m = den_loc n u m.
Proof. apply functional_extensionality. intros l. unfold den_on, den_loc. now rewrite memb_rk. Qed.

Lemma pend_ge (ps : list (@phase T)) : forall k k' e, In (k', e) (pend_of k ps) -> (k <= k')%nat.
Proof.
  induction ps as [|[u|C u] ps IH]; simpl; intros k k' e H; [tauto|eauto|].
  apply in_app_iff in H. destruct H as [H|H].
  - apply in_map_iff in H as (x & E & _). inversion E; lia.
  - apply IH in H. lia.
Qed.

Lemma run_phases ps : forall (c : cfg) k, Forall (phase_ok n) ps ->
  (forall r, code c r = if memb r rk then code_of ps r else []) ->
  (forall r, memb r rk = true -> posted c r = k) ->
  pend c = pend_of k ps ->
  exists fin, ssteps c fin /\ sdone fin /\ sm fin = den n ps (sm c).
Proof.
  induction ps as [|p ps IH]; intros c k Hok Hc Hp Hpe; simpl in *.
  - exists c. split; [constructor|]. split; [|reflexivity]. split; auto.
    intros r. rewrite Hc. now destruct (memb r rk).
  - inversion Hok as [|? ? Hp1 Hok']; subst. destruct p as [u|C u]; simpl in *.
    + assert (R : ssteps c {| sm := den_on rk u (sm c); code := fun r => if memb r rk then code_of ps r else code c r;
                     posted := posted c; pend := pend c |}).
      { apply run_locs_all; [apply zrange_NoDup|]. intros r Hr. rewrite Hc.
        apply memb_spec in Hr. now rewrite Hr. }
      assert (Hc' : forall r, (if memb r rk then code_of ps r else code c r) = if memb r rk then code_of ps r else []).
      { intros r. specialize (Hc r). destruct (memb r rk); auto. }
      destruct (IH {| sm := den_on rk u (sm c); code := fun r => if memb r rk then code_of ps r else code c r;
                     posted := posted c; pend := pend c |} k Hok' Hc' Hp Hpe) as (fin & H1 & H2 & H3).
      exists fin. split; [eapply ssteps_trans; eauto|]. split; auto. rewrite H3. simpl. now rewrite den_on_rk.
    + destruct Hp1 as (Hw & Hss & Hrg & Hcp).
      pose (q := fun r : Z => map ILoc (u r) ++ IWait :: code_of ps r).
      set (c1 := {| sm := sm c; code := fun r => if memb r rk then q r else code c r;
              posted := fun r => if memb r rk then S (posted c r) else posted c r; pend := pend c |}).
      assert (R1 : ssteps c c1).
      { apply run_posts; [apply zrange_NoDup|]. intros r Hr. rewrite Hc. apply memb_spec in Hr. rewrite Hr.
        unfold q. simpl. now rewrite <- app_assoc. }
      set (c2 := {| sm := run_copies C (sm c1); code := code c1; posted := posted c1; pend := pend_of (S k) ps |}).
      assert (R2 : ssteps c1 c2).
      { apply (run_copies_steps k); [exact Hpe|]. intros s d Hsd. destruct (Hrg s d Hsd) as [Ha Hb].
        simpl. rewrite !memb_rk.
        assert (G : forall x, 0 <= x < n -> (0 <=? x) && (x <? n) = true).
        { intros x Hx. rewrite andb_true_iff, Z.leb_le, Z.ltb_lt. lia. }
        rewrite !G by assumption. rewrite !Hp by (rewrite memb_rk; now apply G). lia. }
      set (c3 := {| sm := den_on rk u (sm c2); code := fun r => if memb r rk then IWait :: code_of ps r else code c2 r;
                     posted := posted c2; pend := pend c2 |}).
      assert (R3 : ssteps c2 c3).
      { apply run_locs_all; [apply zrange_NoDup|]. intros r Hr. simpl. apply memb_spec in Hr. now rewrite Hr. }
      set (c4 := {| sm := sm c3; code := fun r => if memb r rk then code_of ps r else code c3 r;
                     posted := posted c3; pend := pend c3 |}).
      assert (R4 : ssteps c3 c4).
      { apply run_waits; [apply zrange_NoDup| |].
        - intros r Hr. simpl. apply memb_spec in Hr. now rewrite Hr.
        - intros r k' e Hr Hin Hlt. simpl in *. apply memb_spec in Hr. rewrite Hr, Hp in Hlt by assumption.
          exfalso. apply pend_ge in Hin. lia. }
      destruct (IH c4 (S k) Hok') as (fin & H1 & H2 & H3).
      { intros r. simpl. destruct (memb r rk) eqn:Er; auto. rewrite Hc. now rewrite Er. }
      { intros r Hr. simpl. rewrite Hr. now rewrite Hp. }
      { reflexivity. }
      exists fin. split; [|split; auto].
      * eapply ssteps_trans; [exact R1|]. eapply ssteps_trans; [exact R2|].
        eapply ssteps_trans; [exact R3|]. eapply ssteps_trans; [exact R4|]. exact H1.
      * rewrite H3. simpl. now rewrite den_on_rk.
Qed.
End Bulk.

Section Main.
Context {T : Type}.

(** Copies of exchange k of a program whose first exchange is number k0. *)
Fixpoint exch_at (k0 : nat) (ps : list (@phase T)) (k : nat) : list (place * place) :=
  match ps with
  | [] => []
  | PLoc _ :: ps' => exch_at k0 ps' k
  | PExch C _ :: ps' => if Nat.eq_dec k k0 then C else exch_at (S k0) ps' k
  end.

Lemma pend_in_exch ps : forall k0 k e, In (k, e) (pend_of k0 ps) -> In e (exch_at k0 ps k).
Proof.
  induction ps as [|[u|C u] ps IH]; simpl; intros k0 k e H; auto.
  apply in_app_iff in H. destruct H as [H|H].
  - apply in_map_iff in H as (x & E & Hx). inversion E; subst. destruct (Nat.eq_dec k k); congruence.
  - pose proof (pend_ge _ _ _ _ H). destruct (Nat.eq_dec k k0); [lia|]. now apply IH.
Qed.

Lemma exch_ok n ps : forall k0, Forall (phase_ok n) ps -> copies_ok (exch_at k0 ps).
Proof.
  induction ps as [|[u|C u] ps IH]; intros k0 H k; simpl.
  - split; [intros x y []|intros s s' d []].
  - inversion H; subst. now apply IH.
  - inversion H as [|? ? Hp Hok]; subst. destruct (Nat.eq_dec k k0); [|now apply IH]. simpl in Hp. tauto.
Qed.

Lemma wfo_code n (C : nat -> list (place * place)) r ps : 0 <= r < n -> forall k0, Forall (phase_ok n) ps ->
  (forall k, (k0 <= k)%nat -> C k = exch_at k0 ps k) -> wfo C r k0 (code_of ps r).
Proof.
  intros Hr. induction ps as [|[u|D u] ps IH]; intros k0 H HC; simpl; inversion H as [|? ? Hp Hok]; subst.
  - constructor.
  - assert (W : wfo C r k0 (code_of ps r)) by (apply IH; auto).
    induction (u r); simpl; auto. now constructor.
  - assert (W : wfo C r (S k0) (code_of ps r)).
    { apply IH; auto. intros k Hk. rewrite HC by lia. simpl. destruct (Nat.eq_dec k k0); [lia|reflexivity]. }
    assert (E : C k0 = D). { rewrite HC by lia. simpl. destruct (Nat.eq_dec k0 k0); congruence. }
    constructor. destruct Hp as (_ & _ & _ & Hc). specialize (Hc r Hr). rewrite <- app_assoc. simpl.
    induction Hc; simpl; [now constructor|]. constructor; [now rewrite E|assumption].
Qed.

(** Every asynchronous execution of a program whose overlapped computations do
    not touch in-flight data gives the round-by-round result. *)
Theorem spmd_safe (n : Z) (ps : list (@phase T)) (m : mem T) : Forall (phase_ok n) ps ->
  spmd_ends n ps m (den n ps m).
Proof.
  intros Hok.
  assert (Hi : inv (exch_at 0 ps) (sstart n ps m)).
  { split; simpl.
    - intros k e. apply pend_in_exch.
    - intros r. exists 0%nat. split; [|intros; lia]. left. split; auto.
      destruct ((0 <=? r) && (r <? n)) eqn:Er; [|constructor].
      apply andb_true_iff in Er. rewrite Z.leb_le, Z.ltb_lt in Er.
      apply (wfo_code n); auto. }
  assert (Hco : copies_ok (exch_at 0 ps)) by (apply (exch_ok n); auto).
  destruct (run_phases n ps (sstart n ps m) 0%nat Hok) as (fin & H1 & H2 & H3); auto.
  { intros r. simpl. now rewrite memb_rk. }
  simpl in H3. split; [|split].
  - exists (swork (zrange 0 n) (sstart n ps m)). intros j c Hc.
    apply (ssteps_bound (zrange 0 n)) in Hc; [lia|apply zrange_NoDup|].
    intros r. simpl. destruct ((0 <=? r) && (r <? n)) eqn:Er; [|tauto].
    apply andb_true_iff in Er. rewrite Z.leb_le, Z.ltb_lt in Er. intros _. apply zrange_In. lia.
  - intros c Hc. exists fin. split; [|auto]. eapply srun_safe; eauto.
  - intros c Hc Hs. assert (R : ssteps c fin) by (eapply srun_safe; eauto).
    inversion R; subst; auto. exfalso. eapply Hs; eauto.
Qed.
End Main.
