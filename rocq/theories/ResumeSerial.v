(** Serial facts behind C57: what has been collected when a coupled simulation is saved, and how a simulation that was given
    back only part of its state continues. *)
From Coq Require Import QArith FunctionalExtensionality.
From Verif Require Import Base SpecGrid SpecGhostSum SpecLag SpecIB SpecVbf SpecNS SpecCoupled SpecResume.
Open Scope Z_scope.
Local Notation own := (fun _ _ j : Z => j).

Section P.
Context {T F : Type}.
Variables (add sub mul : T -> T -> T) (z : T) (scale : T -> T) (sum : list T -> T) (dx shift : Q) (vels : list nat).
Variable flow_step : (Z -> list Z -> T) -> (nat -> list Z -> T) -> F -> nat -> list Z -> T.
Variables (bodies : nat -> vbody T).
Notation carry0 := (fun (_ _ : list Z) (j : Z) => j).
Notation ser := (serial_coupled add sub mul z scale sum dx shift vels flow_step bodies carry0).
Notation sev := (serial_event add sub mul z scale sum dx shift vels flow_step bodies carry0).
Notation coll := (collects add sub mul z scale sum dx shift vels flow_step bodies carry0).

Lemma set_same {A} (f : nat -> A) b v : set_at f b v b = v.
Proof. unfold set_at. now rewrite Nat.eqb_refl. Qed.
Lemma set_other {A} (f : nat -> A) b v b' : b' <> b -> set_at f b v b' = f b'.
Proof. intros H. unfold set_at. destruct (Nat.eqb_spec b' b); congruence. Qed.

Lemma coll_app es e : forall s x, coll s x (es ++ [e]) = match e with EFull b p | ELag b p => set_at (coll s x es) b (Some {| co_pm := pm (cs_st (ser s es) b); co_vm := vm (cs_st (ser s es) b); co_pos := p_pos p |}) | _ => coll s x es end.
Proof. induction es as [|e' es IH]; intros s x; [destruct e; reflexivity|]. cbn [app collects]. rewrite IH. reflexivity. Qed.
Lemma ser_app es e s : ser s (es ++ [e]) = sev (ser s es) e.
Proof. unfold serial_coupled. now rewrite fold_left_app. Qed.

(** Once settled, what has been collected is the present position mismatch, and the positions of the last meeting. *)
Lemma settled_book s x b es : settled b es = true -> exists k p, coll s x es b = Some k /\ last_pose b es = Some p /\ co_pos k = p_pos p /\
  pm (cs_st (ser s es) b) = co_pm k /\ cs_map (ser s es) b = p_address p /\ (In (EFull b p) es \/ In (ELag b p) es).
Proof.
  induction es as [|e es IH] using rev_ind; [discriminate|]. unfold settled, last_pose in *. rewrite !fold_left_app, coll_app, ser_app. cbn [fold_left]. intros H.
  assert (Old : fold_left (fun a e => match e with EFull b' _ | ELag b' _ => Nat.eqb b' b || a | EAdvance b' _ => negb (Nat.eqb b' b) && a | _ => a end) es false = true ->
    cs_st (sev (ser s es) e) b = cs_st (ser s es) b -> cs_map (sev (ser s es) e) b = cs_map (ser s es) b ->
    match e with EFull b' _ | ELag b' _ => b' <> b | _ => True end ->
    exists k p, match e with EFull b p | ELag b p => set_at (coll s x es) b (Some {| co_pm := pm (cs_st (ser s es) b); co_vm := vm (cs_st (ser s es) b); co_pos := p_pos p |}) | _ => coll s x es end b = Some k /\
      match e with EFull b' p | ELag b' p => if Nat.eqb b' b then Some p else fold_left (fun a e => match e with EFull b' p | ELag b' p => if Nat.eqb b' b then Some p else a | _ => a end) es None
      | _ => fold_left (fun a e => match e with EFull b' p | ELag b' p => if Nat.eqb b' b then Some p else a | _ => a end) es None end = Some p /\
      co_pos k = p_pos p /\ pm (cs_st (sev (ser s es) e) b) = co_pm k /\ cs_map (sev (ser s es) e) b = p_address p /\ (In (EFull b p) (es ++ [e]) \/ In (ELag b p) (es ++ [e]))).
  { intros Hs Es Em Hne. destruct (IH Hs) as (k & p & A1 & A2 & A3 & A4 & A5 & A6). exists k, p. rewrite Es, Em. split; [|split].
    - destruct e; auto; rewrite set_other by congruence; exact A1.
    - destruct e as [b' p'|b' p'| | |]; auto; destruct (Nat.eqb_spec b' b); congruence.
    - repeat split; auto. destruct A6 as [A6|A6]; [left|right]; apply in_or_app; now left. }
  destruct e as [b' p|b' p|b' dt|y|].
  - destruct (Nat.eqb_spec b' b) as [-> |Hne].
    + exists {| co_pm := pm (cs_st (ser s es) b); co_vm := vm (cs_st (ser s es) b); co_pos := p_pos p |}, p. cbn [serial_event cs_st cs_map]. rewrite !set_same. cbn [co_pm co_pos]. repeat split. left. apply in_or_app. right. now left.
    + apply Old; auto; cbn [serial_event cs_st cs_map]; rewrite set_other; auto.
  - destruct (Nat.eqb_spec b' b) as [-> |Hne].
    + exists {| co_pm := pm (cs_st (ser s es) b); co_vm := vm (cs_st (ser s es) b); co_pos := p_pos p |}, p. cbn [serial_event cs_st cs_map]. rewrite !set_same. cbn [co_pm co_pos]. repeat split. right. apply in_or_app. right. now left.
    + apply Old; auto; cbn [serial_event cs_st cs_map]; rewrite set_other; auto.
  - apply andb_true_iff in H as [H1 H2]. apply negb_true_iff, Nat.eqb_neq in H1. apply Old; auto. cbn [serial_event cs_st]. rewrite set_other; auto.
  - apply Old; auto.
  - apply Old; auto.
Qed.
(** What has been collected of a body that has met the flow: what it had before it last met it. *)
Lemma met_book s x b es : meets b es = true -> exists k p es0 e es1, coll s x es b = Some k /\ last_pose b es = Some p /\ es = es0 ++ e :: es1 /\ (e = EFull b p \/ e = ELag b p) /\ meets b es1 = false /\
  co_pos k = p_pos p /\ co_pm k = pm (cs_st (ser s es0) b) /\ co_vm k = vm (cs_st (ser s es0) b).
Proof.
  induction es as [|e es IH] using rev_ind; [discriminate|]. unfold meets, last_pose in *. rewrite existsb_app, fold_left_app, coll_app. cbn [fold_left existsb]. rewrite orb_false_r. intros H.
  assert (Old : existsb (fun e => match e with EFull b' _ | ELag b' _ => Nat.eqb b' b | _ => false end) es = true -> match e with EFull b' _ | ELag b' _ => b' <> b | _ => True end ->
    exists k p es0 e0 es1, match e with EFull b p | ELag b p => set_at (coll s x es) b (Some {| co_pm := pm (cs_st (ser s es) b); co_vm := vm (cs_st (ser s es) b); co_pos := p_pos p |}) | _ => coll s x es end b = Some k /\
      match e with EFull b' p | ELag b' p => if Nat.eqb b' b then Some p else fold_left (fun a e => match e with EFull b' p | ELag b' p => if Nat.eqb b' b then Some p else a | _ => a end) es None
      | _ => fold_left (fun a e => match e with EFull b' p | ELag b' p => if Nat.eqb b' b then Some p else a | _ => a end) es None end = Some p /\
      es ++ [e] = es0 ++ e0 :: es1 /\ (e0 = EFull b p \/ e0 = ELag b p) /\ existsb (fun e => match e with EFull b' _ | ELag b' _ => Nat.eqb b' b | _ => false end) es1 = false /\
      co_pos k = p_pos p /\ co_pm k = pm (cs_st (ser s es0) b) /\ co_vm k = vm (cs_st (ser s es0) b)).
  { intros Hs Hne. destruct (IH Hs) as (k & p & es0 & e0 & es1 & A1 & A2 & A3 & A4 & A5 & A6). exists k, p, es0, e0, (es1 ++ [e]). split; [|split; [|split; [|split; [exact A4|split; [|exact A6]]]]].
    - destruct e; auto; rewrite set_other by congruence; exact A1.
    - destruct e as [b' p'|b' p'| | |]; auto; destruct (Nat.eqb_spec b' b); congruence.
    - rewrite A3, <- app_assoc. reflexivity.
    - rewrite existsb_app, A5. cbn [existsb orb]. rewrite orb_false_r. destruct e as [b' p'|b' p'| | |]; auto; now apply Nat.eqb_neq. }
  destruct e as [b' p|b' p|b' dt|y|].
  - destruct (Nat.eqb_spec b' b) as [-> |Hne].
    + exists {| co_pm := pm (cs_st (ser s es) b); co_vm := vm (cs_st (ser s es) b); co_pos := p_pos p |}, p, es, (EFull b p), []. rewrite set_same. cbn [co_pm co_vm co_pos]. repeat split; auto.
    + apply Old; [now rewrite orb_false_r in H|exact Hne].
  - destruct (Nat.eqb_spec b' b) as [-> |Hne].
    + exists {| co_pm := pm (cs_st (ser s es) b); co_vm := vm (cs_st (ser s es) b); co_pos := p_pos p |}, p, es, (ELag b p), []. rewrite set_same. cbn [co_pm co_vm co_pos]. repeat split; auto.
    + apply Old; [now rewrite orb_false_r in H|exact Hne].
  - apply Old; auto. now rewrite orb_false_r in H.
  - apply Old; auto. now rewrite orb_false_r in H.
  - apply Old; auto. now rewrite orb_false_r in H.
Qed.
Lemma cleared_forcing s es : cleared es = true -> cs_f (ser s es) = fun _ _ => z.
Proof.
  induction es as [|e es IH] using rev_ind; [discriminate|]. unfold cleared in *. rewrite fold_left_app, ser_app. cbn [fold_left].
  destruct e as [b' p|b' p|b' dt|y|]; cbn [serial_event cs_f]; intros H; auto. discriminate.
Qed.

(** ** Continuing from part of the state *)
Variables (N : list Z) (nc : Z) (nb : nat) (kept all : list nat) (flow_ok : F -> Prop).
Hypothesis Hkept : incl kept all.
Hypothesis Hvels : forall c, 0 <= c < nc -> In (nth (Z.to_nat c) vels 0%nat) kept.
Hypothesis Hflow : forall f f' u u' s, flow_ok s -> (forall c P, 0 <= c < nc -> inb N P -> f c P = f' c P) -> (forall a P, In a kept -> inb N P -> u a P = u' a P) ->
  forall a P, In a all -> inb N P -> flow_step f u s a P = flow_step f' u' s a P.
(** In the range of its indices. *)
Notation same b f f' := (forall c j, 0 <= c < nc -> 0 <= j < v_count (bodies b) -> f c j = f' c j).
Record alike (M : nat -> bool) (fl : bool) (s s' : cstate T) : Prop := {
  al_u : forall a P, In a (if fl then all else kept) -> inb N P -> cs_u s a P = cs_u s' a P;
  al_f : forall c P, 0 <= c < nc -> inb N P -> cs_f s c P = cs_f s' c P;
  al_pm : forall b, (b < nb)%nat -> same b (pm (cs_st s b)) (pm (cs_st s' b));
  al_vm : forall b, (b < nb)%nat -> M b = true -> same b (vm (cs_st s b)) (vm (cs_st s' b)) /\ same b (fo (cs_st s b)) (fo (cs_st s' b)) }.
(** Legal for the serial run: nodes counted, supports in the domain. *)
Definition fine (e : event T F) : Prop := match e with
  | EFull b p | ELag b p => (b < nb)%nat /\ Z.of_nat (length (p_nodes p)) = v_count (bodies b) /\
      Forall (fun x => Forall (inb N) (support_points (q_cell dx shift) (v_width (bodies b)) x)) (p_nodes p)
  | EAdvance b _ => (b < nb)%nat | EFlow s => flow_ok s | EGhost => True end.

Lemma kept_u M fl s s' : alike M fl s s' -> forall a P, In a kept -> inb N P -> cs_u s a P = cs_u s' a P.
Proof. intros H a P Ha HP. apply (al_u _ _ _ _ H); [|exact HP]. destruct fl; auto. Qed.
Lemma met_alike M fl s s' b p : alike M fl s s' -> (b < nb)%nat -> Z.of_nat (length (p_nodes p)) = v_count (bodies b) ->
  Forall (fun x => Forall (inb N) (support_points (q_cell dx shift) (v_width (bodies b)) x)) (p_nodes p) ->
  let k := met add sub mul scale sum dx shift vels bodies carry0 b p s in let k' := met add sub mul scale sum dx shift vels bodies carry0 b p s' in
  same b (pm k) (pm k') /\ same b (vm k) (vm k') /\ same b (fo k) (fo k').
Proof.
  intros H Hb Hc Hs k k'. assert (E : forall c j, 0 <= c < nc -> 0 <= j < v_count (bodies b) -> flow_at mul scale sum dx shift vels bodies b p (cs_u s) c j = flow_at mul scale sum dx shift vels bodies b p (cs_u s') c j).
  { intros c j Hcc Hj. unfold flow_at, interpolated. do 2 f_equal. apply map_ext_in. intros P HP. f_equal. apply (kept_u M fl s s' H); [now apply Hvels|].
    rewrite Forall_forall in Hs. assert (Hn : In (node_at (p_nodes p) j) (p_nodes p)) by (unfold node_at; apply nth_In; lia). specialize (Hs _ Hn). rewrite Forall_forall in Hs. now apply Hs. }
  unfold k, k', met. cbn [ev1 pm vm fo]. pose proof (al_pm _ _ _ _ H b Hb) as Hp. split; [exact Hp|]. split; intros c j Hcc Hj; rewrite (E c j Hcc Hj); [reflexivity|]. now rewrite (Hp c j Hcc Hj).
Qed.
Definition M_after (M : nat -> bool) (e : event T F) : nat -> bool := match e with EFull b _ | ELag b _ => set_at M b true | _ => M end.
Definition fl_after (fl : bool) (e : event T F) : bool := match e with EFlow _ => true | _ => fl end.
Lemma alike_step M fl s s' e : alike M fl s s' -> fine e -> match e with EAdvance b _ => M b = true | _ => True end -> alike (M_after M e) (fl_after fl e) (sev s e) (sev s' e).
Proof.
  intros H He Hm. destruct e as [b p|b p|b dt|y|]; cbn [fine M_after fl_after] in *.
  - destruct He as (Hb & Hc & Hs). destruct (met_alike M fl s s' b p H Hb Hc Hs) as (E1 & E2 & E3). constructor; cbn [serial_event cs_u cs_f cs_st].
    + apply (al_u _ _ _ _ H).
    + intros c P Hcc HP. unfold spread_onto. f_equal; [now rewrite (al_f _ _ _ _ H c P Hcc HP)|]. f_equal. apply map_ext_in. intros j Hj. apply zrange_In in Hj. f_equal. apply E3; [exact Hcc|lia].
    + intros b' Hb'. destruct (Nat.eq_dec b' b) as [-> |Hne]; [rewrite !set_same; exact E1|rewrite !set_other by exact Hne; now apply (al_pm _ _ _ _ H)].
    + intros b' Hb'. destruct (Nat.eq_dec b' b) as [-> |Hne]; [rewrite !set_same; auto|rewrite !set_other by exact Hne; now apply (al_vm _ _ _ _ H)].
  - destruct He as (Hb & Hc & Hs). destruct (met_alike M fl s s' b p H Hb Hc Hs) as (E1 & E2 & E3). constructor; cbn [serial_event cs_u cs_f cs_st].
    + apply (al_u _ _ _ _ H).
    + apply (al_f _ _ _ _ H).
    + intros b' Hb'. destruct (Nat.eq_dec b' b) as [-> |Hne]; [rewrite !set_same; exact E1|rewrite !set_other by exact Hne; now apply (al_pm _ _ _ _ H)].
    + intros b' Hb'. destruct (Nat.eq_dec b' b) as [-> |Hne]; [rewrite !set_same; auto|rewrite !set_other by exact Hne; now apply (al_vm _ _ _ _ H)].
  - destruct (al_vm _ _ _ _ H b He Hm) as [V1 V2]. constructor; cbn [serial_event cs_u cs_f cs_st].
    + apply (al_u _ _ _ _ H).
    + apply (al_f _ _ _ _ H).
    + intros b' Hb'. destruct (Nat.eq_dec b' b) as [-> |Hne]; [rewrite !set_same|rewrite !set_other by exact Hne; now apply (al_pm _ _ _ _ H)].
      cbn [ev1 pm]. intros c j Hc Hj. now rewrite (V1 c j Hc Hj), (al_pm _ _ _ _ H b He c j Hc Hj).
    + intros b' Hb' Hmb. destruct (Nat.eq_dec b' b) as [-> |Hne]; [rewrite !set_same|rewrite !set_other by exact Hne; now apply (al_vm _ _ _ _ H)]. cbn [ev1 vm fo]. auto.
  - constructor; cbn [serial_event cs_u cs_f cs_st].
    + intros a P Ha HP. apply Hflow; auto; [apply (al_f _ _ _ _ H)|apply (kept_u M fl s s' H)].
    + reflexivity.
    + apply (al_pm _ _ _ _ H).
    + apply (al_vm _ _ _ _ H).
  - exact H.
Qed.
Lemma alike_weak (M M' : nat -> bool) (fl fl' : bool) s s' : (forall b, M' b = true -> M b = true) -> (fl' = true -> fl = true) -> alike M fl s s' -> alike M' fl' s s'.
Proof.
  intros Hm Hf [H1 H2 H3 H4]. constructor; auto. intros a P Ha HP. apply H1; [|exact HP]. destruct fl'; [now rewrite (Hf eq_refl)|]. destruct fl; auto.
Qed.
Lemma alike_run es : forall M fl s s', alike M fl s s' -> Forall fine es -> (forall b, (b < nb)%nat -> M b = true \/ meets_first b es = true) ->
  alike (fun b => meets b es || M b) (flows es || fl) (ser s es) (ser s' es).
Proof.
  induction es as [|e es IH]; intros M fl s s' H He Hm; [exact H|]. inversion He as [|? ? He1 He2]; subst.
  assert (Hstep : alike (M_after M e) (fl_after fl e) (sev s e) (sev s' e)).
  { apply alike_step; auto. destruct e as [| |b dt| |]; auto. destruct (Hm b He1) as [X|X]; [exact X|]. cbn [meets_first] in X. rewrite Nat.eqb_refl in X. discriminate. }
  assert (Hm' : forall b, (b < nb)%nat -> M_after M e b = true \/ meets_first b es = true).
  { intros b Hb. destruct (Hm b Hb) as [X|X]; destruct e as [b' p|b' p|b' dt|y|]; cbn [M_after meets_first] in *; auto.
    - left. unfold set_at. destruct (Nat.eqb b b'); auto.
    - left. unfold set_at. destruct (Nat.eqb b b'); auto.
    - unfold set_at. rewrite (Nat.eqb_sym b b'). destruct (Nat.eqb b' b); auto.
    - unfold set_at. rewrite (Nat.eqb_sym b b'). destruct (Nat.eqb b' b); auto.
    - apply andb_true_iff in X. tauto. }
  specialize (IH _ _ _ _ Hstep He2 Hm'). unfold serial_coupled in *. cbn [fold_left]. revert IH. apply alike_weak.
  - intros b. unfold meets. cbn [existsb]. destruct e as [b' p|b' p|b' dt|y|]; cbn [M_after orb]; auto; unfold set_at; rewrite (Nat.eqb_sym b b'); destruct (Nat.eqb b' b); cbn [orb]; auto using orb_true_r.
  - unfold flows. cbn [existsb]. destruct e; cbn [fl_after orb]; auto using orb_true_r.
Qed.
End P.

(** What has been collected after given calls. *)
Section B.
Context {T F : Type}.
Variables (add sub mul : T -> T -> T) (z : T) (scale : T -> T) (sum : list T -> T) (dx shift : Q) (vels : list nat).
Variable flow_step : (Z -> list Z -> T) -> (nat -> list Z -> T) -> F -> nat -> list Z -> T.
Variables (bodies : nat -> vbody T) (carry : list Z -> list Z -> Z -> Z).
Notation ser := (serial_coupled add sub mul z scale sum dx shift vels flow_step bodies carry).
Notation coll := (collects add sub mul z scale sum dx shift vels flow_step bodies carry).
Lemma coll_cat es es' : forall s x, coll s x (es ++ es') = coll (ser s es) (coll s x es) es'.
Proof. induction es as [|e es IH]; intros s x; [reflexivity|]. cbn [app collects]. rewrite IH. reflexivity. Qed.
Lemma coll_none b es : meets b es = false -> forall s x, coll s x es b = x b.
Proof.
  induction es as [|e es IH]; [reflexivity|]. unfold meets in *. cbn [existsb]. intros H s x. apply orb_false_iff in H as [H1 H2]. cbn [collects]. rewrite (IH H2).
  destruct e as [b' p|b' p| | |]; auto; apply set_other; apply Nat.eqb_neq in H1; congruence.
Qed.
Lemma coll_last s x b es e p es' : e = EFull b p \/ e = ELag b p -> meets b es' = false ->
  coll s x (es ++ e :: es') b = Some {| co_pm := pm (cs_st (ser s es) b); co_vm := vm (cs_st (ser s es) b); co_pos := p_pos p |}.
Proof. intros He Hm. rewrite coll_cat. cbn [collects]. rewrite (coll_none b es' Hm). destruct He as [-> | ->]; apply set_same. Qed.
End B.
