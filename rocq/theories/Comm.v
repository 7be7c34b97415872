(** Non-blocking point-to-point communication.

    Every rank posts a list of Isend/Irecv operations and then waits for all
    of them ([MPI.Request.Waitall], mpi_utils_2d.py:414-420 and the 3D
    namesake).  All messages use the default tag, so matching is MPI's
    non-overtaking rule: the k-th send posted by a for b is received by the
    k-th receive posted by b with source a.  An operation whose peer is
    PROC_NULL ([None]) completes without moving data.

    The element copies of all matched messages happen in an arbitrary order,
    each reading its source element at the moment it happens: this is weaker
    than what MPI guarantees (messages may be torn and interleaved at will),
    so anything proved for every order holds for every real schedule. *)
From Verif Require Import Base.

(** Address in one rank's memory: array identifier, flat (C order) index. *)
Definition addr := (nat * Z)%type.
(** Place: rank and address. *)
Definition place := (Z * addr)%type.

Definition place_dec (a b : place) : {a = b} + {a <> b}.
Proof. repeat decide equality. Defined.

Inductive op :=
| ISend (dest : option Z) (data : list addr)
| IRecv (src : option Z) (data : list addr).

(** Data of the sends of a program addressed to b, in program order. *)
Fixpoint sends_to (b : Z) (p : list op) : list (list addr) :=
  match p with
  | [] => []
  | ISend (Some d) a :: p' => if d =? b then a :: sends_to b p' else sends_to b p'
  | _ :: p' => sends_to b p'
  end.

(** Receive buffers of a program with source a, in program order. *)
Fixpoint recvs_from (a : Z) (p : list op) : list (list addr) :=
  match p with
  | [] => []
  | IRecv (Some s) d :: p' => if s =? a then d :: recvs_from a p' else recvs_from a p'
  | _ :: p' => recvs_from a p'
  end.

(** Element copies of a list of matched (send data, receive data) pairs. *)
Definition copies (a b : Z) (ms : list (list addr * list addr)) : list (place * place) :=
  flat_map (fun m => map (fun sd => ((a, fst sd), (b, snd sd))) (combine (fst m) (snd m))) ms.

Definition all_copies (nranks : Z) (prog : Z -> list op) : list (place * place) :=
  flat_map (fun a => flat_map (fun b =>
    copies a b (combine (sends_to b (prog a)) (recvs_from a (prog b)))) (zrange 0 nranks)) (zrange 0 nranks).

(** Every send has its receive and conversely, and sizes agree: Waitall
    returns on every rank and no message is truncated. *)
Definition all_matched (nranks : Z) (prog : Z -> list op) : Prop :=
  forall a b, 0 <= a < nranks -> 0 <= b < nranks ->
    Forall2 (fun s d => length s = length d) (sends_to b (prog a)) (recvs_from a (prog b)).

Section Memory.
Context {T : Type}.
Definition mem := place -> T.

Definition copy1 (m : mem) (c : place * place) : mem :=
  fun l => if place_dec l (snd c) then m (fst c) else m l.

Definition run_copies (E : list (place * place)) (m : mem) : mem := fold_left copy1 E m.

(** [schedule nranks prog E]: E is a possible order of all element copies. *)
Definition schedule (nranks : Z) (prog : Z -> list op) (E : list (place * place)) : Prop :=
  Permutation E (all_copies nranks prog).

(** ** Confluence *)
Definition no_read_write (E : list (place * place)) :=
  forall x y, In x E -> In y E -> fst x <> snd y.
Definition single_source (E : list (place * place)) :=
  forall s s' d, In (s, d) E -> In (s', d) E -> s = s'.

Lemma run_copies_spec E : no_read_write E -> single_source E -> forall m l,
  (forall s, In (s, l) E -> run_copies E m l = m s) /\
  ((forall s, ~ In (s, l) E) -> run_copies E m l = m l).
Proof.
  induction E as [|[s0 d0] E IH]; intros H1 H2 m l; simpl.
  - split; [tauto|auto].
  - assert (H1' : no_read_write E) by (intros x y Hx Hy; apply H1; now right).
    assert (H2' : single_source E) by (intros s s' d Hs Hs'; apply (H2 s s' d); now right).
    specialize (IH H1' H2' (copy1 m (s0, d0)) l). destruct IH as [IH1 IH2]. split.
    + intros s Hs.
      destruct (in_dec (fun x y : place * place => ltac:(repeat decide equality)) (s, l) E) as [Hin|Hnin].
      * fold (run_copies E (copy1 m (s0, d0))). rewrite (IH1 s Hin). unfold copy1. simpl.
        destruct (place_dec s d0) as [->|]; auto.
        exfalso. apply (H1 (d0, l) (s0, d0)); simpl; auto.
      * destruct Hs as [Hs|Hs]; [|contradiction]. inversion Hs; subst.
        fold (run_copies E (copy1 m (s, l))). rewrite IH2.
        -- unfold copy1. simpl. destruct (place_dec l l); congruence.
        -- intros s' Hs'. assert (s' = s) by (apply (H2 s' s l); simpl; auto). subst. contradiction.
    + intros Hn. fold (run_copies E (copy1 m (s0, d0))). rewrite IH2.
      * unfold copy1. simpl. destruct (place_dec l d0) as [->|]; auto.
        exfalso. apply (Hn s0). now left.
      * intros s Hs. apply (Hn s). now right.
Qed.

(** Sources keep their value throughout: any prefix leaves non-targets alone. *)
Lemma run_copies_frame E m l : (forall s, ~ In (s, l) E) -> run_copies E m l = m l.
Proof.
  revert m. induction E as [|[s0 d0] E IH]; intros m Hn; simpl; auto.
  fold (run_copies E (copy1 m (s0, d0))). rewrite IH by (intros s Hs; apply (Hn s); now right).
  unfold copy1. simpl. destruct (place_dec l d0) as [->|]; auto.
  exfalso. apply (Hn s0). now left.
Qed.

End Memory.
Arguments mem : clear implicits.

(** ** Stepwise SPMD programs *)
Record step := { sdir : list Z; sdata : list addr; rdata : list addr }.

Section Steps.
(** [peer r d]: rank in direction d of r. *)
Variable peer : Z -> list Z -> option Z.

Definition step_ops (r : Z) (st : step) : list op :=
  [ISend (peer r (sdir st)) (sdata st); IRecv (peer r (vneg (sdir st))) (rdata st)].

Definition steps_prog (steps : list step) (r : Z) : list op := flat_map (step_ops r) steps.

End Steps.

Definition peers_ok (peer : Z -> list Z -> option Z) (nranks : Z) (steps : list step) : Prop :=
  forall a b st, In st steps -> 0 <= a < nranks -> 0 <= b < nranks ->
    (peer a (sdir st) = Some b <-> peer b (vneg (sdir st)) = Some a).

Definition opt_is (o : option Z) (b : Z) : bool :=
  match o with Some x => x =? b | None => false end.

Lemma opt_is_spec o b : opt_is o b = true <-> o = Some b.
Proof.
  destruct o as [x|]; simpl; [|split; discriminate].
  destruct (Z.eqb_spec x b); split; intros E; congruence.
Qed.

Lemma sends_to_steps peer b a steps :
  sends_to b (steps_prog peer steps a) =
  map sdata (filter (fun st => opt_is (peer a (sdir st)) b) steps).
Proof.
  induction steps as [|st steps IH]; simpl; auto.
  destruct (peer a (sdir st)) as [x|]; destruct (peer a (vneg (sdir st))) as [y|]; simpl;
    try (destruct (x =? b); simpl; rewrite IH; reflexivity); exact IH.
Qed.

Lemma recvs_from_steps peer a b steps :
  recvs_from a (steps_prog peer steps b) =
  map rdata (filter (fun st => opt_is (peer b (vneg (sdir st))) a) steps).
Proof.
  induction steps as [|st steps IH]; simpl; auto.
  destruct (peer b (sdir st)) as [x|]; destruct (peer b (vneg (sdir st))) as [y|]; simpl;
    try (destruct (y =? a); simpl; rewrite IH; reflexivity); exact IH.
Qed.

Lemma filter_ext_in' {A} (f g : A -> bool) l : (forall x, In x l -> f x = g x) -> filter f l = filter g l.
Proof. induction l; simpl; intros H; auto. rewrite (H a) by auto. rewrite IHl by auto. reflexivity. Qed.

Lemma recvs_from_steps' peer nranks steps a b : peers_ok peer nranks steps ->
  0 <= a < nranks -> 0 <= b < nranks ->
  recvs_from a (steps_prog peer steps b) =
  map rdata (filter (fun st => opt_is (peer a (sdir st)) b) steps).
Proof.
  intros Hp Ha Hb. rewrite recvs_from_steps. f_equal. apply filter_ext_in'. intros st Hst.
  specialize (Hp a b st Hst Ha Hb). apply Bool.eq_true_iff_eq. rewrite !opt_is_spec. tauto.
Qed.

Lemma combine_map_filter {A B C} (f : A -> B) (g : A -> C) (p : A -> bool) l :
  combine (map f (filter p l)) (map g (filter p l)) = map (fun x => (f x, g x)) (filter p l).
Proof. apply combine_map_map. Qed.

(** Matching is stepwise: exactly the element copies of each step to the
    peer in its direction. *)
Lemma all_copies_steps peer nranks steps : peers_ok peer nranks steps ->
  forall s d, In (s, d) (all_copies nranks (steps_prog peer steps)) <->
    exists st, In st steps /\ 0 <= fst s < nranks /\ 0 <= fst d < nranks /\
      peer (fst s) (sdir st) = Some (fst d) /\ In (snd s, snd d) (combine (sdata st) (rdata st)).
Proof.
  intros Hp s d. unfold all_copies. rewrite in_flat_map. split.
  - intros (a & Ha & H). apply in_flat_map in H as (b & Hb & H).
    apply zrange_In in Ha, Hb. unfold copies in H. apply in_flat_map in H as (ms & Hms & H).
    rewrite sends_to_steps, (recvs_from_steps' peer nranks) in Hms by (auto; lia).
    rewrite combine_map_filter in Hms. apply in_map_iff in Hms as (st & <- & Hst).
    apply filter_In in Hst as [Hst Hpe]. apply opt_is_spec in Hpe.
    apply in_map_iff in H as (sd & E & Hsd). inversion E; subst. simpl in *.
    exists st. destruct sd; simpl in *. repeat split; auto; lia.
  - intros (st & Hst & Ha & Hb & Hpe & Hin).
    exists (fst s). split; [apply zrange_In; lia|]. apply in_flat_map.
    exists (fst d). split; [apply zrange_In; lia|]. unfold copies. apply in_flat_map.
    exists (sdata st, rdata st). split.
    + rewrite sends_to_steps, (recvs_from_steps' peer nranks) by auto.
      rewrite combine_map_filter. apply in_map_iff. exists st. split; auto.
      apply filter_In. split; auto. now apply opt_is_spec.
    + simpl. apply in_map_iff. exists (snd s, snd d). split; auto. simpl. now destruct s, d.
Qed.

Lemma all_matched_steps peer nranks steps : peers_ok peer nranks steps ->
  Forall (fun st => length (sdata st) = length (rdata st)) steps ->
  all_matched nranks (steps_prog peer steps).
Proof.
  intros Hp Hl a b Ha Hb. rewrite sends_to_steps, (recvs_from_steps' peer nranks) by auto.
  induction Hl as [|st steps Hst Hl IH]; simpl; [constructor|].
  assert (Hp' : peers_ok peer nranks steps) by (intros x y z Hz; apply Hp; now right).
  destruct (opt_is (peer a (sdir st)) b); simpl; [constructor|]; auto.
Qed.
