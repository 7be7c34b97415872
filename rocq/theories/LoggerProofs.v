From Verif Require Import Base Logger SpecLogger.
Open Scope Z_scope.

Lemma remove_handler_at l1 h l2 : NoDup (map fst (l1 ++ h :: l2)) -> remove_handler h (l1 ++ h :: l2) = l1 ++ l2.
Proof.
  induction l1 as [|x l1 IH]; cbn [app remove_handler map]; intros H.
  - unfold handler_eqb. now rewrite Nat.eqb_refl.
  - inversion H; subst. unfold handler_eqb. destruct (Nat.eqb_spec (fst h) (fst x)) as [E|E].
    + exfalso. apply H2. rewrite <- E. apply in_map. apply in_or_app. right. now left.
    + fold (handler_eqb h x). now rewrite IH.
Qed.
Lemma NoDup_map_remove (l1 : list handler) h l2 : NoDup (map fst (l1 ++ h :: l2)) -> NoDup (map fst (l1 ++ l2)).
Proof. rewrite !map_app. cbn [map]. apply NoDup_remove_1. Qed.

Lemma remove_loop_gen : forall fuel (l2 l1 : list handler), (length l2 <= fuel)%nat -> NoDup (map fst (l1 ++ l2)) ->
  remove_loop fuel (length l1) (l1 ++ l2) = l1 ++ odd_positions l2.
Proof.
  induction fuel as [|fuel IH]; intros l2 l1 Hf Hn.
  - destruct l2; [|cbn in Hf; lia]. reflexivity.
  - cbn [remove_loop]. destruct l2 as [|h l2].
    + cbn [odd_positions]. rewrite app_nil_r. destruct (nth_error l1 (length l1)) eqn:E; [|reflexivity]. exfalso. assert (Hx : nth_error l1 (length l1) <> None) by congruence. apply nth_error_Some in Hx. lia.
    + rewrite nth_error_app2 by lia. rewrite Nat.sub_diag. cbn [nth_error]. rewrite remove_handler_at by exact Hn.
      apply NoDup_map_remove in Hn. destruct l2 as [|y l2].
      * cbn [odd_positions]. rewrite !app_nil_r. destruct fuel; cbn [remove_loop]; [reflexivity|]. destruct (nth_error l1 (S (length l1))) eqn:E; [|reflexivity]. exfalso. assert (Hx : nth_error l1 (S (length l1)) <> None) by congruence. apply nth_error_Some in Hx. lia.
      * assert (X := IH l2 (l1 ++ [y])). rewrite <- !app_assoc, app_length in X. cbn [app length] in X. rewrite Nat.add_1_r in X.
        cbn [odd_positions]. apply X; [cbn in Hf; lia|exact Hn].
Qed.
Theorem remove_all_skips R : NoDup (map fst (handlers R)) -> handlers (remove_and_close_all_handlers R) = odd_positions (handlers R).
Proof. intros H. exact (remove_loop_gen (length (handlers R)) (handlers R) [] (le_n _) H). Qed.

Lemma odd_positions_length {A} (l : list A) : length (odd_positions l) = (length l / 2)%nat.
Proof.
  assert (H : forall k (l : list A), (length l <= k)%nat -> length (odd_positions l) = Nat.div2 (length l)).
  { induction k as [|k IH]; intros l0 Hl; [destruct l0; [reflexivity|cbn in Hl; lia]|]. destruct l0 as [|x [|y l0]]; [reflexivity..|]. cbn [odd_positions length Nat.div2]. rewrite IH; [reflexivity|cbn in Hl; lia]. }
  rewrite (H (length l) l (le_n _)). apply Nat.div2_div.
Qed.
Lemma odd_positions_In {A} (l : list A) x : In x (odd_positions l) -> In x l.
Proof.
  assert (H : forall k (l : list A), (length l <= k)%nat -> In x (odd_positions l) -> In x l).
  { induction k as [|k IH]; intros l0 Hl; [destruct l0; [intros []|cbn in Hl; lia]|]. destruct l0 as [|a [|y l0]]; [intros []..|]. cbn [odd_positions In]. intros [<-|Hi]; [tauto|]. right. right. apply IH; [cbn in Hl; lia|exact Hi]. }
  apply (H (length l) l (le_n _)).
Qed.
Lemma odd_positions_NoDup {A} (l : list A) : NoDup l -> NoDup (odd_positions l).
Proof.
  assert (H : forall k (l : list A), (length l <= k)%nat -> NoDup l -> NoDup (odd_positions l)).
  { induction k as [|k IH]; intros l0 Hl Hn; [destruct l0; [constructor|cbn in Hl; lia]|]. destruct l0 as [|a [|y l0]]; [constructor..|]. cbn [odd_positions]. inversion Hn; subst. inversion H2; subst. constructor.
    - intros Hi. now apply odd_positions_In in Hi.
    - apply IH; [cbn in Hl; lia|assumption]. }
  apply (H (length l) l (le_n _)).
Qed.
Lemma odd_positions_map {A B} (f : A -> B) (l : list A) : map f (odd_positions l) = odd_positions (map f l).
Proof.
  assert (H : forall k (l : list A), (length l <= k)%nat -> map f (odd_positions l) = odd_positions (map f l)).
  { induction k as [|k IH]; intros l0 Hl; [destruct l0; [reflexivity|cbn in Hl; lia]|]. destruct l0 as [|a [|y l0]]; [reflexivity..|]. cbn [odd_positions map]. f_equal. apply IH. cbn in Hl. lia. }
  apply (H (length l) l (le_n _)).
Qed.

(** reachable worlds: handlers are distinct objects; every object is verbose as its echo list says *)
Definition sane (rank : Z) (w : world) : Prop :=
  NoDup (map fst (handlers (reg w))) /\ Forall (fun h => (fst h < next_id (reg w))%nat) (handlers (reg w)) /\
  Forall (fun L => verbose L = true <-> (echo L = [] \/ In rank (echo L))) (objs w).

Lemma existsb_eqb_In r l : existsb (Z.eqb r) l = true <-> In r l.
Proof. rewrite existsb_exists. split; [intros (x & H & E); apply Z.eqb_eq in E; now subst|intros H; exists r; split; [exact H|apply Z.eqb_refl]]. Qed.
Lemma new_logger_verbose rank lev ech R : verbose (fst (new_logger rank lev ech R)) = true <-> (ech = [] \/ In rank ech).
Proof. cbn [new_logger fst verbose]. destruct ech as [|e ech]; [tauto|]. rewrite existsb_eqb_In. split; [auto|]. intros [H|H]; [discriminate|exact H]. Qed.

Lemma add_handler_sane R lev : NoDup (map fst (handlers R)) -> Forall (fun h => (fst h < next_id R)%nat) (handlers R) ->
  NoDup (map fst (handlers (add_handler lev R))) /\ Forall (fun h => (fst h < next_id (add_handler lev R))%nat) (handlers (add_handler lev R)).
Proof.
  intros H1 H2. cbn [add_handler handlers next_id]. split.
  - rewrite map_app. cbn [map fst]. apply NoDup_rev in H1. rewrite <- (rev_involutive (_ ++ [next_id R])). apply NoDup_rev. rewrite rev_app_distr. cbn [rev app]. constructor; [|exact H1].
    rewrite <- in_rev. intros Hi. apply in_map_iff in Hi as (h & E & Hh). rewrite Forall_forall in H2. specialize (H2 h Hh). lia.
  - apply Forall_app. split; [|repeat constructor]. eapply Forall_impl; [|exact H2]. cbn. intros. lia.
Qed.
Lemma remove_sane R : NoDup (map fst (handlers R)) -> Forall (fun h => (fst h < next_id R)%nat) (handlers R) ->
  NoDup (map fst (handlers (remove_and_close_all_handlers R))) /\ Forall (fun h => (fst h < next_id (remove_and_close_all_handlers R))%nat) (handlers (remove_and_close_all_handlers R)).
Proof.
  intros H1 H2. rewrite remove_all_skips by exact H1. split.
  - rewrite odd_positions_map. now apply odd_positions_NoDup.
  - rewrite Forall_forall in *. intros h Hh. apply H2. now apply odd_positions_In.
Qed.
Lemma step_sane rank w e : sane rank w -> sane rank (step rank w e).
Proof.
  intros (H1 & H2 & H3). destruct e as [lev ech|k|k s|]; cbn [step].
  - destruct (new_logger rank lev ech (reg w)) as [L R] eqn:E. assert (EL : L = fst (new_logger rank lev ech (reg w))) by (now rewrite E). assert (ER : R = snd (new_logger rank lev ech (reg w))) by (now rewrite E).
    unfold sane. cbn [objs reg].
    destruct (remove_sane {| rlevel := lev; handlers := handlers (reg w); next_id := next_id (reg w) |} H1 H2) as [A1 A2]. destruct (add_handler_sane _ lev A1 A2) as [B1 B2].
    rewrite ER. split; [exact B1|]. split; [exact B2|]. apply Forall_app. split; [exact H3|]. constructor; [|constructor]. rewrite EL. apply new_logger_verbose.
  - destruct (nth_error (objs w) k) as [L|]; [|now split]. destruct (add_handler_sane (reg w) (level L) H1 H2). repeat split; auto.
  - destruct (nth_error (objs w) k) as [L|]; [|now split]. repeat split; auto.
  - destruct (remove_sane (reg w) H1 H2). repeat split; auto.
Qed.
Lemma history_sane rank es : sane rank (history rank es).
Proof.
  unfold history. assert (H : sane rank world_init) by (repeat split; constructor). revert H. generalize world_init. induction es as [|e es IH]; intros w H; cbn [fold_left]; [exact H|]. apply IH. now apply step_sane.
Qed.

Lemma log_spec L R s h : In h (log L R s) <-> verbose L = true /\ rlevel R <= s /\ exists lev, In (h, lev) (handlers R) /\ lev <= s.
Proof.
  unfold log. destruct (verbose L); [|split; [intros []|intros [? _]; discriminate]]. destruct (Z.leb_spec (rlevel R) s) as [Hl|Hl].
  - rewrite in_map_iff. split.
    + intros ([h' lev] & E & Hf). apply filter_In in Hf as [H1 H2]. cbn in *. subst. apply Z.leb_le in H2. eauto.
    + intros (_ & _ & lev & H1 & H2). exists (h, lev). split; [reflexivity|]. apply filter_In. split; [exact H1|]. now apply Z.leb_le.
  - split; [intros []|]. intros (_ & H & _). lia.
Qed.

(** console handlers: the object created last always prints *)
Lemma handlers_nonempty rank es : objs (history rank es) <> [] -> ~ In ERemove es -> handlers (reg (history rank es)) <> [].
Proof.
  unfold history. intros Ho Hn.
  assert (G : forall es w, ~ In ERemove es -> (objs w <> [] -> handlers (reg w) <> []) -> (objs (fold_left (step rank) es w) <> [] -> handlers (reg (fold_left (step rank) es w)) <> [])).
  { clear. induction es as [|e es IH]; intros w Hn H; cbn [fold_left]; [exact H|]. apply IH; [intros Hi; apply Hn; now right|].
    destruct e as [lev ech|k|k s|]; cbn [step].
    - cbn [new_logger objs reg add_handler handlers]. intros _ E. now apply app_eq_nil in E.
    - destruct (nth_error (objs w) k); [|exact H]. cbn [objs reg enable_logfile add_handler handlers]. intros _ E. now apply app_eq_nil in E.
    - destruct (nth_error (objs w) k); exact H.
    - exfalso. apply Hn. now left. }
  apply (G es world_init); auto.
Qed.

Lemma fold_objs rank es : forall w, map (fun L => (level L, echo L)) (objs (fold_left (step rank) es w)) = map (fun L => (level L, echo L)) (objs w) ++ created es.
Proof.
  induction es as [|e es IH]; intros w; cbn [fold_left]; [now rewrite app_nil_r|]. rewrite IH. unfold created. cbn [flat_map].
  destruct e as [lev ech|k|k s|]; cbn [step app].
  - cbn [new_logger objs]. rewrite map_app, <- app_assoc. reflexivity.
  - destruct (nth_error (objs w) k); reflexivity.
  - destruct (nth_error (objs w) k); reflexivity.
  - reflexivity.
Qed.
Lemma objs_created rank es k L : nth_error (objs (history rank es)) k = Some L -> nth_error (created es) k = Some (level L, echo L).
Proof. intros H. pose proof (fold_objs rank es world_init) as E. cbn [world_init objs map app] in E. fold (history rank es) in E. rewrite <- E. exact (map_nth_error (fun L => (level L, echo L)) _ _ H). Qed.
Lemma created_obj rank es k lev ech : nth_error (created es) k = Some (lev, ech) ->
  exists L, nth_error (objs (history rank es)) k = Some L /\ level L = lev /\ echo L = ech.
Proof.
  intros H. pose proof (fold_objs rank es world_init) as E. cbn [world_init objs map app] in E. fold (history rank es) in E. rewrite <- E in H.
  rewrite nth_error_map in H. destruct (nth_error (objs (history rank es)) k) as [L|] eqn:EL; [|discriminate]. cbn in H. injection H as <- <-. eauto.
Qed.
Lemma history_snoc rank es e : history rank (es ++ [e]) = step rank (history rank es) e.
Proof. unfold history. now rewrite fold_left_app. Qed.
Lemma created_snoc es e : created (es ++ [e]) = created es ++ created [e].
Proof. unfold created. now rewrite flat_map_app. Qed.
Lemma shared_level rank es : rlevel (reg (history rank es)) = latest_level es.
Proof.
  induction es as [|e es IH] using rev_ind; [reflexivity|]. rewrite history_snoc. unfold latest_level in *. rewrite created_snoc, map_app.
  destruct e as [lev ech|k|k s|]; cbn [step created flat_map app map fst].
  - rewrite last_last. reflexivity.
  - rewrite app_nil_r. destruct (nth_error (objs (history rank es)) k); exact IH.
  - rewrite app_nil_r. destruct (nth_error (objs (history rank es)) k); exact IH.
  - rewrite app_nil_r. exact IH.
Qed.
Lemma emitted_snoc rank es k s lev ech : nth_error (created es) k = Some (lev, ech) ->
  exists out, emitted (history rank (es ++ [ELog k s])) = emitted (history rank es) ++ [(k, out)] /\
    (forall h, In h out <-> (ech = [] \/ In rank ech) /\ latest_level es <= s /\ exists l, In (h, l) (handlers (reg (history rank es))) /\ l <= s).
Proof.
  intros H. destruct (created_obj rank es k lev ech H) as (L & EL & _ & <-). exists (log L (reg (history rank es)) s). split.
  - rewrite history_snoc. cbn [step]. now rewrite EL.
  - intros h. rewrite log_spec, shared_level. destruct (history_sane rank es) as (_ & _ & Hv). rewrite Forall_forall in Hv. rewrite (Hv L (nth_error_In _ _ EL)). reflexivity.
Qed.
Lemma handlers_after rank es : 
  handlers (reg (history rank es)) = [] /\ es = [] \/
  exists es' e, es = es' ++ [e] /\ let hs := handlers (reg (history rank es')) in
    match e with
    | ENew lev _ => handlers (reg (history rank es)) = odd_positions hs ++ [(next_id (reg (history rank es')), lev)]
    | EFile k => match nth_error (created es') k with Some (lev, _) => handlers (reg (history rank es)) = hs ++ [(next_id (reg (history rank es')), lev)] | None => handlers (reg (history rank es)) = hs end
    | ELog _ _ => handlers (reg (history rank es)) = hs
    | ERemove => handlers (reg (history rank es)) = odd_positions hs
    end.
Proof.
  induction es as [|e es _] using rev_ind; [left; split; reflexivity|]. right. exists es, e. split; [reflexivity|]. cbn zeta.
  destruct (history_sane rank es) as (Hn & _ & _). rewrite !history_snoc. destruct e as [lev ech|k|k s|]; cbn [step].
  - cbn [new_logger reg]. cbn [add_handler handlers next_id]. rewrite remove_all_skips by exact Hn. reflexivity.
  - destruct (nth_error (created es) k) as [[lev ech]|] eqn:E.
    + destruct (created_obj rank es k lev ech E) as (L & -> & <- & _). reflexivity.
    + destruct (nth_error (objs (history rank es)) k) as [L|] eqn:EL; [|reflexivity]. apply objs_created in EL. congruence.
  - destruct (nth_error (objs (history rank es)) k); reflexivity.
  - cbn [reg]. now rewrite remove_all_skips.
Qed.
Lemma handler_levels rank es : Forall (fun h => In (snd h) (map fst (created es))) (handlers (reg (history rank es))).
Proof.
  induction es as [|e es IH] using rev_ind; [constructor|]. destruct (handlers_after rank (es ++ [e])) as [[_ E]|(es' & e' & E & H)]; [now apply app_eq_nil in E|].
  apply app_inj_tail in E as [<- <-]. rewrite created_snoc, map_app.
  assert (Hodd : forall l : list handler, Forall (fun h => In (snd h) (map fst (created es))) l -> Forall (fun h => In (snd h) (map fst (created es))) (odd_positions l)).
  { intros l Hl. rewrite Forall_forall in *. intros h Hh. apply Hl. now apply odd_positions_In. }
  assert (Hw : forall (l : list handler) c, Forall (fun h => In (snd h) (map fst (created es))) l -> Forall (fun h => In (snd h) (map fst (created es) ++ c)) l).
  { intros l c Hl. eapply Forall_impl; [|exact Hl]. intros h Hh. apply in_or_app. now left. }
  destruct e as [lev ech|k|k s|]; cbn zeta in H.
  - rewrite H. apply Forall_app. split; [now apply Hw, Hodd|]. constructor; [|constructor]. cbn. apply in_or_app. right. now left.
  - destruct (nth_error (created es) k) as [[lev ech]|] eqn:E; rewrite H; [|now apply Hw]. apply Forall_app. split; [now apply Hw|]. constructor; [|constructor]. cbn [snd]. apply in_or_app. left.
    apply nth_error_In in E. exact (in_map fst _ _ E).
  - rewrite H. now apply Hw.
  - rewrite H. now apply Hw, Hodd.
Qed.
Lemma echo_prints rank es k s lev ech : nth_error (created es) k = Some (lev, ech) -> ~ In ERemove es -> Forall (fun c => fst c <= s) (created es) ->
  exists out, emitted (history rank (es ++ [ELog k s])) = emitted (history rank es) ++ [(k, out)] /\ (out <> [] <-> (ech = [] \/ In rank ech)).
Proof.
  intros H Hn Hl. destruct (emitted_snoc rank es k s lev ech H) as (out & E & Ho). exists out. split; [exact E|]. split.
  - intros Hne. destruct out as [|h out]; [contradiction|]. apply (Ho h). now left.
  - intros Hech Hnil. subst out.
    assert (Hs : latest_level es <= s).
    { unfold latest_level. rewrite Forall_forall in Hl. destruct (created es) as [|c cs] eqn:Ec; [destruct k; discriminate|].
      assert (Hi : In (last (map fst (c :: cs)) 0) (map fst (c :: cs))). { clear. cbn [map]. generalize (map fst cs) as l, (fst c) as a. induction l as [|b l IH]; intros a; [now left|]. right. exact (IH b). }
      apply in_map_iff in Hi as (c' & <- & Hc'). now apply Hl. }
    destruct (created_obj rank es k lev ech H) as (L & EL & _).
    destruct (handlers (reg (history rank es))) as [|[h l] hs] eqn:Eh.
    + apply (handlers_nonempty rank es); auto. intros E0. rewrite E0 in EL. destruct k; discriminate.
    + destruct (proj2 (Ho h)) as []. split; [exact Hech|]. split; [exact Hs|]. exists l. split; [now left|].
      pose proof (handler_levels rank es) as HL. rewrite Eh in HL. apply Forall_inv in HL. cbn in HL. apply in_map_iff in HL as (c' & <- & Hc'). rewrite Forall_forall in Hl. now apply Hl.
Qed.
Lemma handlers_left rank es :
  (handlers (reg (history rank (es ++ [ERemove]))) = odd_positions (handlers (reg (history rank es)))) /\
  length (handlers (reg (history rank (es ++ [ERemove])))) = (length (handlers (reg (history rank es))) / 2)%nat /\
  (forall lev ech, exists h, handlers (reg (history rank (es ++ [ENew lev ech]))) = odd_positions (handlers (reg (history rank es))) ++ [(h, lev)]) /\
  (forall k lev ech, nth_error (created es) k = Some (lev, ech) -> exists h, handlers (reg (history rank (es ++ [EFile k]))) = handlers (reg (history rank es)) ++ [(h, lev)]).
Proof.
  assert (A : forall e, exists es' e', es ++ [e] = es' ++ [e'] /\ es' = es /\ e' = e) by (intros e; exists es, e; auto).
  assert (R : handlers (reg (history rank (es ++ [ERemove]))) = odd_positions (handlers (reg (history rank es)))).
  { destruct (handlers_after rank (es ++ [ERemove])) as [[_ E]|(es' & e' & E & H)]; [now apply app_eq_nil in E|]. apply app_inj_tail in E as [<- <-]. exact H. }
  split; [exact R|]. split; [rewrite R; apply odd_positions_length|]. split.
  - intros lev ech. destruct (handlers_after rank (es ++ [ENew lev ech])) as [[_ E]|(es' & e' & E & H)]; [now apply app_eq_nil in E|]. apply app_inj_tail in E as [<- <-]. eexists. exact H.
  - intros k lev ech Hk. destruct (handlers_after rank (es ++ [EFile k])) as [[_ E]|(es' & e' & E & H)]; [now apply app_eq_nil in E|]. apply app_inj_tail in E as [<- <-]. cbn zeta in H. rewrite Hk in H. eexists. exact H.
Qed.
Lemma remove_all_refuted : ~ (forall rank es, emits_nothing_after_removal rank es).
Proof. intros H. specialize (H 0 [ENew 20 []; EFile 0]). discriminate H. Qed.
Lemma old_logfile_still_written : exists h, ~ In h (map fst (handlers (reg (history 0 [ENew 20 []])))) /\
  In h (map fst (handlers (reg (history 0 [ENew 20 []; EFile 0])))) /\
  last (emitted (history 0 [ENew 20 []; EFile 0; ENew 20 []; ELog 1 30])) (0%nat, []) = (1%nat, [h; 2%nat]).
Proof. exists 1%nat. cbn. repeat split; auto. intros [H|[]]. discriminate. Qed.
Lemma level_is_shared : ~ (forall rank es k s lev ech, nth_error (created es) k = Some (lev, ech) -> In rank ech -> lev <= s -> ~ In ERemove es ->
  exists out, emitted (history rank (es ++ [ELog k s])) = emitted (history rank es) ++ [(k, out)] /\ out <> []).
Proof.
  intros H. destruct (H 0 [ENew 10 [0]; ENew 40 [0]] 0%nat 20 10 [0] eq_refl) as (out & E & Hne); [now left|lia| |].
  - intros [E|[E|[]]]; discriminate.
  - cbn in E. injection E as <-. contradiction.
Qed.
