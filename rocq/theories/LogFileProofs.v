(** Proofs for the shared log file. *)
From Coq Require Import Ascii String DecimalString.
From Verif Require Import Base Comm Logger SpecLogger LoggerProofs SpecLogFile LogFile IoLag.
From Verif Require IoLagProofs.
Open Scope Z_scope.

(** *** The file *)
Lemma put_end b f : put (length f) b f = f ++ b.
Proof. unfold put. rewrite Nat.sub_diag. cbn [repeat]. rewrite app_nil_r, firstn_all, skipn_all2 by lia. now rewrite app_nil_r. Qed.
Definition only (h : nat) (l : list (nat * text)) : list text := map snd (filter (fun w => (fst w =? h)%nat) l).

Lemma writes_shuffled n path h F t F' t' : writes n path F t F' t' ->
  (forall r w, 0 <= r < n -> In w (t r) -> path (fst w) = path h -> fst w = h) ->
  pointer F h = length (bytes F (path h)) -> (forall r, 0 <= r < n -> t' r = []) ->
  exists all, shuffled n (fun r => only h (t r)) all /\ bytes F' (path h) = bytes F (path h) ++ concat (map snd all).
Proof.
  induction 1 as [F t|F t r k b rest F' t' Hr E W IH]; intros Hp Hq He.
  - exists []. split; [split; [constructor|intros r Hr; rewrite (He r Hr); reflexivity]|]. cbn. now rewrite app_nil_r.
  - set (t1 := fun q => if q =? r then rest else t q) in *.
    assert (Hp1 : forall r' w, 0 <= r' < n -> In w (t1 r') -> path (fst w) = path h -> fst w = h).
    { intros r' w Hr' Hw. unfold t1 in Hw. destruct (Z.eqb_spec r' r) as [->|Ne]; [apply (Hp r); [exact Hr|rewrite E; now right]|now apply (Hp r')]. }
    destruct (Nat.eq_dec k h) as [->|Nk].
    + destruct IH as (all & [S1 S2] & B); [exact Hp1| |exact He|].
      * cbn [write_shared bytes pointer]. rewrite !Nat.eqb_refl, Hq, put_end, app_length. reflexivity.
      * exists ((r, b) :: all). split; [split|].
        -- constructor; [exact Hr|exact S1].
        -- intros q Hq'. cbn [filter fst]. specialize (S2 q Hq'). unfold t1 in S2. destruct (Z.eqb_spec r q) as [<-|Ne].
           ++ rewrite Z.eqb_refl in S2. cbn [map snd]. rewrite S2, E. unfold only. cbn [filter fst]. rewrite Nat.eqb_refl. reflexivity.
           ++ destruct (Z.eqb_spec q r) as [Eq|_]; [congruence|]. exact S2.
        -- rewrite B. cbn [write_shared bytes]. rewrite Nat.eqb_refl, Hq, put_end, <- app_assoc. reflexivity.
    + assert (Np : path k <> path h) by (intros Ep; apply Nk; exact (Hp r (k, b) Hr ltac:(rewrite E; now left) Ep)).
      destruct IH as (all & [S1 S2] & B); [exact Hp1| |exact He|].
      * cbn [write_shared bytes pointer]. destruct (Nat.eqb_spec h k) as [->|_]; [congruence|]. destruct (Nat.eqb_spec (path h) (path k)) as [Ep|_]; [congruence|exact Hq].
      * exists all. split; [split; [exact S1|]|].
        -- intros q Hq'. rewrite (S2 q Hq'). unfold t1. destruct (Z.eqb_spec q r) as [Eq|_]; [subst q|reflexivity]. rewrite E. unfold only. cbn [filter fst]. destruct (Nat.eqb_spec k h) as [->|_]; [congruence|reflexivity].
        -- rewrite B. cbn [write_shared bytes]. destruct (Nat.eqb_spec (path h) (path k)) as [Ep|_]; [congruence|reflexivity].
Qed.
Lemma writes_trans n path F t F1 t1 F2 t2 : writes n path F t F1 t1 -> writes n path F1 t1 F2 t2 -> writes n path F t F2 t2.
Proof. induction 1; intros; [assumption|]. eapply w_next; eauto. Qed.
(** Some order of the writes of all ranks. *)
Lemma writes_any n path : forall (all : list (Z * (nat * text))) F t, Forall (fun x => 0 <= fst x < n) all -> (forall r, 0 <= r < n -> map snd (filter (fun x => fst x =? r) all) = t r) ->
  exists t', writes n path F t (fold_left (fun F x => write_shared path (fst (snd x)) (snd (snd x)) F) all F) t' /\ forall r, 0 <= r < n -> t' r = [].
Proof.
  induction all as [|[q [h b]] all IH]; intros F t H1 H2.
  - exists t. split; [constructor|]. intros r Hr. symmetry. exact (H2 r Hr).
  - inversion H1 as [|? ? Hq H1']; subst. cbn [fst] in Hq. pose proof (H2 q Hq) as E. cbn [filter fst] in E. rewrite Z.eqb_refl in E. cbn [map snd] in E.
    destruct (IH (write_shared path h b F) (fun r => if r =? q then map snd (filter (fun x => fst x =? q) all) else t r) H1') as (t' & W & He).
    { intros r Hr. specialize (H2 r Hr). cbn [filter fst] in H2. destruct (Z.eqb_spec r q) as [Eq|Ne]; [subst r; reflexivity|]. destruct (Z.eqb_spec q r); [congruence|exact H2]. }
    exists t'. split; [|exact He]. cbn [fold_left fst snd]. eapply w_next; [exact Hq|symmetry; exact E|exact W].
Qed.
Lemma shuffle_exists {A} n (ls : Z -> list A) : exists all, shuffled n ls all.
Proof.
  exists (flat_map (fun r => map (fun x => (r, x)) (ls r)) (zrange 0 n)). split.
  - rewrite Forall_forall. intros x H. apply in_flat_map in H as (r & Hr & Hx). apply in_map_iff in Hx as (y & <- & _). apply zrange_In in Hr. cbn. lia.
  - intros r Hr. assert (G : forall l, NoDup l -> map snd (filter (fun x => fst x =? r) (flat_map (fun r => map (fun x => (r, x)) (ls r)) l)) = if in_dec Z.eq_dec r l then ls r else []).
    { assert (E1 : forall q (l : list A), map snd (filter (fun x => fst x =? r) (map (fun x => (q, x)) l)) = if q =? r then l else []).
      { intros q l. induction l as [|y l IHl]; cbn [map filter fst]; [destruct (q =? r); reflexivity|]. destruct (q =? r) eqn:Eq; cbn [map snd]; rewrite IHl; reflexivity. }
      induction l as [|q l IH]; intros N; [reflexivity|]. inversion N; subst. cbn [flat_map]. rewrite filter_app, map_app, E1, IH by assumption.
      destruct (Z.eqb_spec q r) as [->|Ne].
      - destruct (in_dec Z.eq_dec r l); [contradiction|]. destruct (in_dec Z.eq_dec r (r :: l)) as [_|X]; [apply app_nil_r|exfalso; apply X; now left].
      - cbn [app]. destruct (in_dec Z.eq_dec r l) as [I|I], (in_dec Z.eq_dec r (q :: l)) as [J|J]; try reflexivity; [exfalso; apply J; now right|destruct J; [congruence|contradiction]]. }
    rewrite G by apply zrange_NoDup. destruct (in_dec Z.eq_dec r (zrange 0 n)) as [_|X]; [reflexivity|]. exfalso. apply X. apply zrange_In. lia.
Qed.
Lemma can_finish n path F t : exists F' t', writes n path F t F' t' /\ forall r, 0 <= r < n -> t' r = [].
Proof. destruct (shuffle_exists n t) as (all & S1 & S2). destruct (writes_any n path all F t S1 S2) as (t' & W & He). eauto. Qed.

Lemma shuffled_lift {A B} (f : Z -> A -> B) n (cs : Z -> list A) : forall all, shuffled n (fun r => map (f r) (cs r)) all ->
  exists all', shuffled n cs all' /\ all = map (fun x => (fst x, f (fst x) (snd x))) all'.
Proof.
  intros all. revert cs. induction all as [|[q b] all IH]; intros cs [S1 S2].
  - exists []. split; [split; [constructor|]|reflexivity]. intros r Hr. specialize (S2 r Hr). cbn in *. symmetry in S2. apply map_eq_nil in S2. now rewrite S2.
  - inversion S1 as [|? ? Hq S1']; subst. cbn [fst] in Hq. pose proof (S2 q Hq) as E. cbn [filter fst] in E. rewrite Z.eqb_refl in E. cbn [map snd] in E.
    destruct (cs q) as [|a rest] eqn:Ec; [discriminate|]. cbn [map] in E. injection E as Eb Er.
    destruct (IH (fun r => if r =? q then rest else cs r)) as (all' & [T1 T2] & ->).
    { split; [exact S1'|]. intros r Hr. specialize (S2 r Hr). cbn [filter fst] in S2. destruct (Z.eqb_spec r q) as [Eq|Ne]; [subst r; exact Er|]. destruct (Z.eqb_spec q r); [congruence|exact S2]. }
    exists ((q, a) :: all'). split; [split; [constructor; [exact Hq|exact T1]|]|cbn; now rewrite Eb].
    intros r Hr. specialize (T2 r Hr). cbn [filter fst]. destruct (Z.eqb_spec r q) as [Eq|Ne]; [subst r; rewrite Z.eqb_refl; cbn [map snd]; now rewrite T2, Ec|]. destruct (Z.eqb_spec q r); [congruence|exact T2].
Qed.

(** *** The handlers are the same on all ranks *)
Lemma same_registry r r' es : reg (history r es) = reg (history r' es) /\ map (fun L => (level L, echo L)) (objs (history r es)) = map (fun L => (level L, echo L)) (objs (history r' es)).
Proof.
  split; [|pose proof (fold_objs r es world_init) as E1; pose proof (fold_objs r' es world_init) as E2; unfold history; now rewrite E1, E2].
  induction es as [|e es IH] using rev_ind; [reflexivity|]. rewrite !history_snoc. destruct e as [lev ech|k|k s|]; cbn [step].
  - cbn [new_logger reg]. now rewrite IH.
  - destruct (nth_error (objs (history r es)) k) as [L|] eqn:E, (nth_error (objs (history r' es)) k) as [L'|] eqn:E'.
    + cbn [reg]. rewrite IH. unfold enable_logfile. apply objs_created in E. apply objs_created in E'. rewrite E in E'. injection E' as -> _. reflexivity.
    + apply objs_created in E. destruct (created_obj r' es k _ _ E) as (L' & H & _). congruence.
    + apply objs_created in E'. destruct (created_obj r es k _ _ E') as (L & H & _). congruence.
    + exact IH.
  - destruct (nth_error (objs (history r es)) k), (nth_error (objs (history r' es)) k); exact IH.
  - cbn [reg]. now rewrite IH.
Qed.
Lemma opened_snoc r es e : opened r (es ++ [e]) =
  match e with EFile k => match nth_error (objs (history r es)) k with Some _ => opened r es ++ [(next_id (reg (history r es)), k)] | None => opened r es end | _ => opened r es end.
Proof.
  unfold opened. rewrite fold_left_app. cbn [fold_left snd].
  assert (E : forall es, fst (fold_left (fun (wo : world * list (nat * nat)) e => (step r (fst wo) e, match e with EFile k => match nth_error (objs (fst wo)) k with Some _ => snd wo ++ [(next_id (reg (fst wo)), k)] | None => snd wo end | _ => snd wo end)) es (world_init, [])) = history r es).
  { clear. induction es as [|x es IH] using rev_ind; [reflexivity|]. rewrite fold_left_app. cbn [fold_left fst]. rewrite IH. now rewrite history_snoc. }
  rewrite E. reflexivity.
Qed.
Lemma next_mono r es e : (next_id (reg (history r es)) <= next_id (reg (history r (es ++ [e]))))%nat.
Proof.
  rewrite history_snoc. destruct e as [lev ech|k|k s|]; cbn [step].
  - cbn [new_logger reg add_handler next_id remove_and_close_all_handlers]. lia.
  - destruct (nth_error (objs (history r es)) k); cbn; lia.
  - destruct (nth_error (objs (history r es)) k); cbn; lia.
  - cbn. lia.
Qed.
Lemma opened_below r es : Forall (fun x => (fst x < next_id (reg (history r es)))%nat) (opened r es).
Proof.
  induction es as [|e es IH] using rev_ind; [constructor|]. rewrite opened_snoc.
  assert (W : Forall (fun x : nat * nat => (fst x < next_id (reg (history r (es ++ [e]))))%nat) (opened r es)) by (eapply Forall_impl; [|exact IH]; cbn; intros x Hx; pose proof (next_mono r es e); lia).
  destruct e as [lev ech|k|k s|]; try exact W. destruct (nth_error (objs (history r es)) k) as [L|] eqn:E; [|exact W].
  apply Forall_app. split; [exact W|]. constructor; [|constructor]. rewrite history_snoc. cbn [step]. rewrite E. cbn. lia.
Qed.

Lemma find_none_below l h : Forall (fun x : nat * nat => (fst x < h)%nat) l -> find (fun x => (fst x =? h)%nat) l = None.
Proof. induction 1 as [|x l Hx _ IH]; [reflexivity|]. cbn [find]. destruct (Nat.eqb_spec (fst x) h); [lia|exact IH]. Qed.
Lemma find_app {A} (f : A -> bool) l l' : find f (l ++ l') = match find f l with Some x => Some x | None => find f l' end.
Proof. induction l as [|x l IH]; [reflexivity|]. cbn [app find]. destruct (f x); [reflexivity|exact IH]. Qed.
(** Writes of one call through a handle. *)
Lemma only_flat h (f : nat -> list (nat * text)) : (forall k, Forall (fun w => fst w = k) (f k)) -> forall l, NoDup l -> only h (flat_map f l) = if in_dec Nat.eq_dec h l then only h (f h) else [].
Proof.
  intros Hf. assert (E1 : forall k, k <> h -> only h (f k) = []).
  { intros k Ne. unfold only. specialize (Hf k). induction Hf as [|w l Hw _ IH]; [reflexivity|]. cbn [filter]. destruct (Nat.eqb_spec (fst w) h); [congruence|exact IH]. }
  assert (Ea : forall a b, only h (a ++ b) = only h a ++ only h b) by (intros; unfold only; now rewrite filter_app, map_app).
  induction l as [|k l IH]; intros N; [reflexivity|]. inversion N; subst. cbn [flat_map]. rewrite Ea, IH by assumption. destruct (Nat.eq_dec k h) as [->|Ne].
  - destruct (in_dec Nat.eq_dec h l); [contradiction|]. destruct (in_dec Nat.eq_dec h (h :: l)) as [_|X]; [apply app_nil_r|exfalso; apply X; now left].
  - rewrite (E1 k Ne). cbn [app]. destruct (in_dec Nat.eq_dec h l) as [I|I], (in_dec Nat.eq_dec h (k :: l)) as [J|J]; try reflexivity; [exfalso; apply J; now right|destruct J; [congruence|contradiction]].
Qed.
Section Handle.
Variables (opts : nat -> bool * bool) (es : list event) (k : nat) (lev : Z) (ech : list Z).
Hypothesis Hk : nth_error (created es) k = Some (lev, ech).
Notation es' := (es ++ [EFile k]).
Notation h := (next_id (reg (history 0 es))).
Lemma handle_added r : handlers (reg (history r es')) = handlers (reg (history r es)) ++ [(h, lev)] /\ opened r es' = opened r es ++ [(h, k)].
Proof.
  rewrite (proj1 (same_registry 0 r es)). destruct (created_obj r es k lev ech Hk) as (L & E & El & _). rewrite opened_snoc, history_snoc. cbn [step]. rewrite E. cbn [reg enable_logfile add_handler handlers]. rewrite El. split; reflexivity.
Qed.
Lemma handle_format r : find (fun x => (fst x =? h)%nat) (opened r es') = Some (h, k).
Proof.
  rewrite (proj2 (handle_added r)), find_app. rewrite (proj1 (same_registry 0 r es)). rewrite find_none_below by apply opened_below. cbn [find fst]. rewrite Nat.eqb_refl. reflexivity.
Qed.
Lemma created_same : created es' = created es.
Proof. rewrite created_snoc. cbn. apply app_nil_r. Qed.
Lemma handle_call r c : only h (call_writes opts r es' c) = if speaks es lev r c then [emit_bytes (opts k) r (c_severity c) (c_message c)] else [].
Proof.
  unfold call_writes, speaks. destruct (nth_error (created es) (c_logger c)) as [[lv ec]|] eqn:Ec.
  2: { destruct (nth_error (objs (history r es')) (c_logger c)) as [L|] eqn:E; [|reflexivity]. apply objs_created in E. rewrite created_same in E. congruence. }
  destruct (created_obj r es' (c_logger c) lv ec ltac:(rewrite created_same; exact Ec)) as (L & E & _ & Ee). rewrite E.
  destruct (history_sane r es') as (Nd & _ & Hv). rewrite Forall_forall in Hv. specialize (Hv L (nth_error_In _ _ E)). rewrite Ee in Hv.
  set (f := fun h0 => match find (fun x => (fst x =? h0)%nat) (opened r es') with Some (_, k0) => [(h0, emit_bytes (opts k0) r (c_severity c) (c_message c))] | None => [] end).
  assert (Hf : forall q, Forall (fun w : nat * text => fst w = q) (f q)) by (intros q; unfold f; destruct (find _ _) as [[? ?]|]; repeat constructor).
  assert (Nl : NoDup (log L (reg (history r es')) (number (c_severity c)))).
  { unfold log. destruct (verbose L); [|constructor]. destruct (_ <=? _); [|constructor]. clear -Nd. induction (handlers (reg (history r es'))) as [|x l IH]; [constructor|]. cbn [map] in Nd. inversion Nd; subst. cbn [filter]. destruct (snd x <=? _); [|auto].
    cbn [map]. constructor; [|auto]. intros I. apply H1. apply in_map_iff in I as (y & <- & Hy). apply filter_In in Hy as [Hy _]. now apply in_map. }
  rewrite (only_flat h f Hf _ Nl).
  assert (Fh : only h (f h) = [emit_bytes (opts k) r (c_severity c) (c_message c)]) by (unfold f; rewrite handle_format; unfold only; cbn [filter fst]; rewrite Nat.eqb_refl; reflexivity).
  rewrite Fh.
  assert (Iff : In h (log L (reg (history r es')) (number (c_severity c))) <-> ((match ec with [] => true | _ => existsb (Z.eqb r) ec end) && (latest_level es <=? number (c_severity c)) && (lev <=? number (c_severity c)) = true)).
  { rewrite log_spec, shared_level. unfold latest_level. rewrite created_same. rewrite Hv, !Bool.andb_true_iff, !Z.leb_le.
    assert (V : (ec = [] \/ In r ec) <-> (match ec with [] => true | _ => existsb (Z.eqb r) ec end) = true) by (destruct ec as [|x ec]; [tauto|]; rewrite existsb_eqb_In; split; [intros [?|?]; [discriminate|assumption]|auto]).
    rewrite V. split.
    - intros (A & B & l & I & Hl). split; [split; assumption|]. rewrite (proj1 (handle_added r)) in I. apply in_app_or in I as [I|[I|[]]]; [|injection I as <-; exact Hl].
      exfalso. destruct (history_sane r es) as (_ & Lt & _). rewrite Forall_forall in Lt. specialize (Lt _ I). cbn [fst] in Lt. rewrite (proj1 (same_registry 0 r es)) in Lt. lia.
    - intros ((A & B) & Hl). split; [exact A|]. split; [exact B|]. exists lev. split; [|exact Hl]. rewrite (proj1 (handle_added r)). apply in_or_app. right. now left. }
  destruct (in_dec Nat.eq_dec h (log L (reg (history r es')) (number (c_severity c)))) as [I|I].
  - apply Iff in I. now rewrite I.
  - destruct (_ && _ && _) eqn:B; [|reflexivity]. exfalso. apply I. now apply Iff.
Qed.
Lemma handle_writes r cs : only h (rank_writes opts r es' cs) = map (fun c => emit_bytes (opts k) r (c_severity c) (c_message c)) (filter (speaks es lev r) cs).
Proof.
  induction cs as [|c cs IH]; [reflexivity|]. unfold rank_writes in *. cbn [flat_map filter].
  assert (Ea : forall a b, only h (a ++ b) = only h a ++ only h b) by (intros; unfold only; now rewrite filter_app, map_app).
  rewrite Ea, IH, handle_call. destruct (speaks es lev r c); reflexivity.
Qed.
Lemma rank_writes_open r cs w : In w (rank_writes opts r es' cs) -> In (fst w) (map fst (handlers (reg (history r es')))) /\ In (fst w) (map fst (opened r es')).
Proof.
  unfold rank_writes. intros H. apply in_flat_map in H as (c & _ & H). unfold call_writes in H. destruct (nth_error (objs (history r (es ++ [EFile k]))) (c_logger c)) as [L|]; [|contradiction].
  apply in_flat_map in H as (q & Hq & H). apply log_spec in Hq as (_ & _ & l & Hq & _). destruct (find (fun x => (fst x =? q)%nat) (opened r es')) as [[a b]|] eqn:F; [|destruct H].
  destruct H as [<-|[]]. cbn [fst]. split; [exact (in_map fst _ _ Hq)|]. apply find_some in F as [F1 F2]. apply Nat.eqb_eq in F2. cbn [fst] in F2. subst a. exact (in_map fst _ _ F1).
Qed.
Lemma log_file n path (cs : Z -> list call) F F' t' :
  (forall r q, 0 <= r < n -> In q (map fst (handlers (reg (history r es)))) -> In q (map fst (opened r es)) -> path q <> path h) ->
  pointer F h = length (bytes F (path h)) -> writes n path F (fun r => rank_writes opts r es' (cs r)) F' t' -> (forall r, 0 <= r < n -> t' r = []) ->
  exists all, shuffled n (fun r => filter (speaks es lev r) (cs r)) all /\
    bytes F' (path h) = bytes F (path h) ++ concat (map (fun x => emit_bytes (opts k) (fst x) (c_severity (snd x)) (c_message (snd x))) all).
Proof.
  intros Hp Hq W He. destruct (writes_shuffled n path h F _ F' t' W) as (all & [S1 S2] & B).
  - intros r w Hr Hw Ep. apply rank_writes_open in Hw as [H1 H2]. destruct (handle_added r) as [A1 A2]. rewrite A1, map_app in H1. rewrite A2, map_app in H2.
    apply in_app_or in H1 as [H1|[H1|[]]]; [|now symmetry]. apply in_app_or in H2 as [H2|[H2|[]]]; [|now symmetry]. exfalso. exact (Hp r (fst w) Hr H1 H2 Ep).
  - exact Hq.
  - exact He.
  - destruct (shuffled_lift (fun r c => emit_bytes (opts k) r (c_severity c) (c_message c)) n (fun r => filter (speaks es lev r) (cs r)) all) as (all' & S' & ->).
    { split; [exact S1|]. intros r Hr. rewrite (S2 r Hr). apply handle_writes. }
    exists all'. split; [exact S'|]. rewrite B, map_map. reflexivity.
Qed.
End Handle.

(** *** The text *)
Lemma emit_line o r s msg : emit_bytes o r s msg = log_line (fst o) (snd o) (rank_name r) s msg.
Proof. destruct o as [[|] [|]]; unfold emit_bytes, log_line, padded; cbn [format_of fst snd flat_map render]; try change (lit " ] (") with (lit " ] " ++ lit "("); try change (lit " ]  ") with (lit " ] " ++ lit " "); rewrite ?app_nil_r, <- ?app_assoc; reflexivity. Qed.

Definition no_newline (t : text) : Prop := ~ In newline t.
Lemma lines_inj {A} (f g : A -> text) : forall l l', Forall (fun x => no_newline (f x)) l -> Forall (fun x => no_newline (g x)) l' ->
  concat (map (fun x => f x ++ [newline]) l) = concat (map (fun x => g x ++ [newline]) l') -> map f l = map g l'.
Proof.
  assert (Sp : forall a b (u v : text), no_newline a -> no_newline b -> (a ++ newline :: u)%list = b ++ newline :: v -> a = b /\ u = v).
  { induction a as [|x a IH]; intros [|y b] u v Ha Hb E; cbn [app] in E.
    - injection E as ->. split; reflexivity.
    - injection E as <- _. exfalso. apply Hb. now left.
    - injection E as -> _. exfalso. apply Ha. now left.
    - injection E as -> E. destruct (IH b u v) as [-> ->]; [intros I; apply Ha; now right|intros I; apply Hb; now right|exact E|split; reflexivity]. }
  induction l as [|x l IH]; intros [|y l'] Hl Hl' E; cbn [map concat] in *; try reflexivity.
  - exfalso. destruct (g y); discriminate.
  - exfalso. destruct (f x); discriminate.
  - inversion Hl; inversion Hl'; subst. rewrite <- !app_assoc in E. cbn [app] in E. apply Sp in E as [E1 E2]; [|assumption..]. rewrite E1. f_equal. now apply IH.
Qed.
Lemma lit_app_In c s : In c (lit s) -> exists n, String.get n s = Some c.
Proof. unfold lit. induction s as [|x s IH]; cbn [list_ascii_of_string In]; [intros []|]. intros [->|H]; [exists 0%nat; reflexivity|]. destruct (IH H) as (n & E). exists (Datatypes.S n). exact E. Qed.
Definition is_digit (c : ascii) : Prop := (48 <= nat_of_ascii c <= 57)%nat.
Lemma decimal_digits n : Forall is_digit (lit (decimal n)).
Proof.
  unfold decimal. generalize (Nat.to_uint n). intros u. unfold lit, is_digit. induction u; cbn [DecimalString.NilEmpty.string_of_uint list_ascii_of_string]; constructor; try exact IHu; cbn; lia.
Qed.
Lemma lit_inj s s' : lit s = lit s' -> s = s'.
Proof. unfold lit. intros E. rewrite <- (string_of_list_ascii_of_string s), <- (string_of_list_ascii_of_string s'). now rewrite E. Qed.
(** A text whose characters satisfy P, followed by one that does not. *)
Lemma split_at (P : ascii -> Prop) : forall a b c d (u v : text), Forall P a -> Forall P b -> ~ P c -> ~ P d -> (a ++ c :: u)%list = b ++ d :: v -> a = b /\ c = d /\ u = v.
Proof.
  induction a as [|x a IH]; intros [|y b] c d u v Ha Hb Hc Hd E; cbn [app] in E.
  - injection E as -> ->. tauto.
  - injection E as -> _. inversion Hb; contradiction.
  - injection E as -> _. inversion Ha; contradiction.
  - injection E as -> E. inversion Ha; inversion Hb; subst. destruct (IH b c d u v) as (-> & -> & ->); auto.
Qed.
Lemma named_inj r r' (u v : text) : 0 <= r -> 0 <= r' -> padded (rank_name r) ++ u = padded (rank_name r') ++ v -> r = r' /\ u = v.
Proof.
  intros Hr Hr' E. assert (Er : r = r').
  { unfold padded, rank_name in E. rewrite <- !app_assoc in E. apply app_inv_head in E. change (lit "]") with (["]"%char]) in E. cbn [app] in E.
    apply (split_at is_digit) in E as (E & _); [|apply decimal_digits|apply decimal_digits|unfold is_digit; cbn; lia|unfold is_digit; cbn; lia].
    apply lit_inj, IoLagProofs.decimal_inj in E. lia. }
  subst r'. split; [reflexivity|]. now apply app_inv_head in E.
Qed.
Lemma body_inj lvl r s m r' s' m' : 0 <= r -> 0 <= r' -> log_line true lvl (rank_name r) s m = log_line true lvl (rank_name r') s' m' -> r = r' /\ m = m' /\ (lvl = true -> s = s').
Proof.
  intros Hr Hr' E. unfold log_line in E. destruct lvl.
  - rewrite <- !app_assoc in E. apply app_inv_head in E.
    assert (Es : s = s') by (destruct s, s'; try reflexivity; exfalso; cbn in E; discriminate E). subst s'. do 3 apply app_inv_head in E. apply named_inj in E as [-> E]; [|assumption..].
    apply app_inv_head in E. apply app_inj_tail in E as [-> _]. tauto.
  - cbn [app] in E. rewrite <- !app_assoc in E. apply app_inv_head in E. apply named_inj in E as [-> E]; [|assumption..]. apply app_inv_head in E. apply app_inj_tail in E as [-> _]. split; [reflexivity|]. split; [reflexivity|discriminate].
Qed.
Lemma rank_name_no_newline r : no_newline (padded (rank_name r)).
Proof.
  unfold no_newline, padded, rank_name, newline. intros I. apply in_app_or in I as [I|I]; [|apply repeat_spec in I; discriminate].
  apply in_app_or in I as [I|I]; [cbn in I; repeat destruct I as [I|I]; try discriminate; exact I|]. apply in_app_or in I as [I|I]; [|cbn in I; destruct I as [I|[]]; discriminate].
  pose proof (decimal_digits (Z.to_nat r)) as D. rewrite Forall_forall in D. specialize (D _ I). unfold is_digit in D. cbn in D. lia.
Qed.
Lemma nl_no (t : text) : forallb (fun c => negb (Ascii.eqb c newline)) t = true -> ~ In newline t.
Proof. intros H I. rewrite forallb_forall in H. specialize (H _ I). now rewrite Ascii.eqb_refl in H. Qed.
Lemma line_shape rid lvl r s m : exists b, log_line rid lvl (rank_name r) s m = b ++ [newline] /\ (no_newline m -> no_newline b).
Proof.
  unfold log_line. rewrite !app_assoc. eexists. split; [reflexivity|]. intros Hm I. apply in_app_or in I as [I|I]; [|exact (Hm I)]. apply in_app_or in I as [I|I].
  - destruct lvl; [|destruct I]. assert (K : ~ In newline (padded (level_name s))) by (destruct s; apply nl_no; reflexivity). rewrite <- !app_assoc in I. apply in_app_or in I as [I|I]; [refine (nl_no _ _ I); reflexivity|]. apply in_app_or in I as [I|I]; [exact (K I)|refine (nl_no _ _ I); reflexivity].
  - destruct rid; [|destruct lvl; [refine (nl_no _ _ I); reflexivity|destruct I]]. rewrite <- !app_assoc in I. apply in_app_or in I as [I|I]; [refine (nl_no _ _ I); reflexivity|]. apply in_app_or in I as [I|I]; [exact (rank_name_no_newline r I)|refine (nl_no _ _ I); reflexivity].
Qed.

(** *** File names *)
Lemma digit_inj a b : (a < 10)%nat -> (b < 10)%nat -> digit a = digit b -> a = b.
Proof. unfold digit. intros Ha Hb E. apply (f_equal nat_of_ascii) in E. rewrite !nat_ascii_embedding in E by lia. lia. Qed.
Lemma pair_inj {A} (x y x' y' : A) u v : ([x; y] ++ u)%list = [x'; y'] ++ v -> x = x' /\ y = y' /\ u = v.
Proof. cbn [app]. intros E. injection E as -> -> ->. tauto. Qed.
Lemma two_inj a b (u v : text) : (a < 100)%nat -> (b < 100)%nat -> two a ++ u = two b ++ v -> a = b /\ u = v.
Proof.
  unfold two. intros Ha Hb E. apply pair_inj in E as (E1 & E2 & E3). split; [|exact E3].
  assert (X : (a / 10 < 10 /\ b / 10 < 10 /\ a mod 10 < 10 /\ b mod 10 < 10)%nat) by (repeat split; try (apply Nat.div_lt_upper_bound; lia); apply Nat.mod_upper_bound; lia). destruct X as (X1 & X2 & X3 & X4).
  apply digit_inj in E1; [|assumption..]. apply digit_inj in E2; [|assumption..]. rewrite (Nat.div_mod a 10), (Nat.div_mod b 10) by lia. now rewrite E1, E2.
Qed.
Lemma four_inj a b (u v : text) : (a < 100 * 100)%nat -> (b < 100 * 100)%nat -> four a ++ u = four b ++ v -> a = b /\ u = v.
Proof.
  unfold four. intros Ha Hb E. rewrite <- !app_assoc in E. apply two_inj in E as [E1 E]; [|apply Nat.div_lt_upper_bound; lia..]. apply two_inj in E as [E2 E]; [|apply Nat.mod_upper_bound; lia..].
  split; [|exact E]. rewrite (Nat.div_mod a 100), (Nat.div_mod b 100) by lia. now rewrite E1, E2.
Qed.
Lemma strftime_inj t t' : (year t < 100 * 100 /\ month t < 100 /\ day t < 100 /\ hour t < 100 /\ minute t < 100 /\ second t < 100)%nat ->
  (year t' < 100 * 100 /\ month t' < 100 /\ day t' < 100 /\ hour t' < 100 /\ minute t' < 100 /\ second t' < 100)%nat -> strftime t = strftime t' -> t = t'.
Proof.
  destruct t as [y mo d h mi s], t' as [y' mo' d' h' mi' s']. cbn [year month day hour minute second]. unfold strftime. cbn [year month day hour minute second]. intros (A1 & A2 & A3 & A4 & A5 & A6) (B1 & B2 & B3 & B4 & B5 & B6) E.
  apply four_inj in E as [-> E]; [|assumption..]. apply two_inj in E as [-> E]; [|assumption..]. apply two_inj in E as [-> E]; [|assumption..]. apply app_inv_head in E.
  apply two_inj in E as [-> E]; [|assumption..]. apply two_inj in E as [-> E]; [|assumption..]. rewrite <- (app_nil_r (two s)), <- (app_nil_r (two s')) in E. apply two_inj in E as [-> _]; [reflexivity|assumption..].
Qed.

(** *** Two handles on one file *)
Lemma writes_fold n path F t F' t' : writes n path F t F' t' -> (forall r, 0 <= r < n -> t' r = []) ->
  exists all, shuffled n t all /\ F' = fold_left (fun F x => write_shared path (fst (snd x)) (snd (snd x)) F) all F.
Proof.
  induction 1 as [F t|F t r k b rest F' t' Hr E W IH]; intros He.
  - exists []. split; [split; [constructor|intros r Hr; rewrite (He r Hr); reflexivity]|reflexivity].
  - destruct (IH He) as (all & [S1 S2] & B). exists ((r, (k, b)) :: all). split; [|exact B]. split; [constructor; [exact Hr|exact S1]|].
    intros q Hq'. specialize (S2 q Hq'). cbn [filter fst]. cbv beta in S2. destruct (Z.eqb_spec q r) as [Eq|Ne].
    + subst q. rewrite Z.eqb_refl. cbn [map snd]. rewrite S2. now symmetry.
    + destruct (Z.eqb_spec r q); [congruence|exact S2].
Qed.
Lemma one_rank_writes path F t F' t' : writes 1 path F t F' t' -> (forall r, 0 <= r < 1 -> t' r = []) -> F' = fold_left (fun F x => write_shared path (fst x) (snd x) F) (t 0) F.
Proof.
  intros W He. destruct (writes_fold _ _ _ _ _ _ W He) as (all & [S1 S2] & ->). rewrite <- (S2 0 ltac:(lia)). clear -S1. revert F. induction all as [|[q w] all IH]; intros F; [reflexivity|].
  inversion S1 as [|? ? Hq S1']; subst. cbn [fst] in Hq. assert (q = 0) by lia. subst q. cbn [filter fst]. rewrite Z.eqb_refl. cbn [map fold_left snd]. apply IH. exact S1'.
Qed.
