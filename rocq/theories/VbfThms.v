(** Histories of interactions and time steps. *)
From Coq Require Import FunctionalExtensionality Permutation.
From Verif Require Import Base SpecGrid SpecGhostSum SpecLag SpecVbf Comm Blocking SpecBlocking Spmd BlockFacts Lagrangian LagProofs LagComm RunsTo SpreadProofs Vbf Bodies SpecBodies VbfProofs.

Section H.
Context {T : Type}.
Variables (add sub mul : T -> T -> T) (z stiff damp : T).
Variables (n nc master : Z) (A : arrays) (N : Z).
Hypothesis HA : NoDup (all_arrays A).
Hypothesis Hnc : 0 <= nc.
Hypothesis Hmaster : 0 <= master < n.
Notation mem_ := (Z -> @lmem T).
Notation fstate := (fstate n nc master A N).
Notation prog := (calls_prog add sub mul z stiff damp n nc master A).

Definition event_of (c : @call T) : @event T := match c with CInteract _ _ _ body flow => Interact body flow | CAdvance dt => Advance dt end.
Definition mapping_of (c : @call T) : list (list Z) := match c with CInteract a _ _ _ _ => [a] | CAdvance _ => [] end.
Definition call_ok (c : @call T) : Prop := match c with CInteract a o _ _ _ => mapping_ok n master N a o | CAdvance _ => True end.

Lemma calls_ok cs : forall s (m : mem_) st, fstate s m st -> Forall call_ok cs -> moves_change_counts n (address s) (flat_map mapping_of cs) ->
  exists m', runs_to n (prog s cs) m m' /\ fstate (final n s cs) m' (fold_left (ev1 add sub mul stiff damp) (map event_of cs) st).
Proof.
  induction cs as [|c cs IH]; intros s m st Hs Hok Hmv.
  - exists m. split; [|exact Hs]. apply runs_to_nil.
  - apply Forall_inv in Hok as Hc. apply Forall_inv_tail in Hok. destruct Hs as [Hi Hf]. destruct c as [a' o' pos body flow|dt].
    + cbn [flat_map mapping_of app moves_change_counts] in Hmv. destruct Hmv as [Hd Hmv]. cbn [call_ok] in Hc.
      destruct (interact_ok add sub mul z stiff damp n nc master A N HA Hnc Hmaster s a' o' m (pm st) (vm st) pos body flow Hi Hc) as (m1 & R1 & Hi1 & _ & _ & Hf1 & _).
      { intros Hfl. apply Hd. intros r Hr. rewrite <- (noflag_num n s a' Hfl r Hr). destruct Hi as (_ & Hn & _). auto. }
      destruct (IH (remapped n s a' o') m1 (ev1 add sub mul stiff damp st (Interact body flow))) as (m2 & R2 & H2); [split; [exact Hi1|exact Hf1]|exact Hok|exact Hmv|].
      exists m2. split; [|exact H2]. exact (runs_to_app _ _ _ _ _ _ R1 R2).
    + destruct (advance_ok add mul n nc master A N HA s dt m (pm st) (vm st) Hi) as (m1 & R1 & Hi1 & F1).
      destruct (IH s m1 (ev1 add sub mul stiff damp st (Advance dt))) as (m2 & R2 & H2); [split; [exact Hi1|]|exact Hok|exact Hmv|].
      { intros c j Hcc Hj. rewrite F1; [exact (Hf c j Hcc Hj)|]. cbn [fst]. pose proof (arr_neq A HA) as H. decompose [and] H. auto. }
      exists m2. split; [|exact H2]. exact (runs_to_app _ _ _ _ _ _ R1 R2).
Qed.

Definition zero_start (m : mem_) : Prop := (forall r f x, 0 <= r < n -> In f (locals A) -> m r (f, x) = z) /\ (forall x, m master (gfo A, x) = z).
Lemma init_state a0 o0 m : mapping_ok n master N a0 o0 -> zero_start m -> fstate (vb_init a0 o0) m (at_rest z).
Proof.
  intros Hv [H1 H2]. split; [|intros; apply H2]. split; [exact Hv|]. split; [intros; apply count_eq|].
  split; intros r c i j Hr Hc Hij; apply H1; auto; unfold locals; cbn [In]; tauto.
Qed.

Lemma final_address cs : forall s, address (final n s cs) = last (flat_map mapping_of cs) (address s).
Proof.
  assert (L : forall (l : list (list Z)) x d, last (x :: l) d = last l x).
  { assert (D : forall (l : list (list Z)) x d d', last (x :: l) d = last (x :: l) d') by (induction l as [|y l IHl]; intros x d d'; [reflexivity|exact (IHl y d d')]).
    intros [|y l] x d; [reflexivity|]. exact (D l y d x). }
  induction cs as [|c cs IH]; intros s; [reflexivity|]. unfold final in *. cbn [fold_left]. rewrite IH. destruct c as [a' o' pos body flow|dt]; cbn [call1 flat_map mapping_of app]; [|reflexivity].
  cbn [remapped address]. now rewrite L.
Qed.

Theorem history_ok a0 o0 cs (m : mem_) : mapping_ok n master N a0 o0 -> zero_start m -> Forall call_ok cs -> moves_change_counts n a0 (flat_map mapping_of cs) ->
  let a := last (flat_map mapping_of cs) a0 in let h := history add sub mul z stiff damp (map event_of cs) in
  exists m', runs_to n (prog (vb_init a0 o0) cs) m m' /\
    (forall r c i j, 0 <= r < n -> 0 <= c < nc -> ith_node a r i j ->
       m' r (lag_local a (lpm A) r c i) = pm h c j /\ m' r (lag_local a (lvm A) r c i) = vm h c j) /\
    (forall c j, 0 <= c < nc -> 0 <= j < N -> m' master (gfo A, c * N + j) = fo h c j).
Proof.
  intros Hv Hz Hok Hmv a h. destruct (calls_ok cs (vb_init a0 o0) m (at_rest z) (init_state a0 o0 m Hv Hz) Hok Hmv) as (m' & R & (Hi & Hf)).
  exists m'. split; [exact R|]. split; [|exact Hf]. destruct Hi as (_ & _ & HP & HV). rewrite final_address in HP, HV. intros. split; [now apply HP|now apply HV].
Qed.

(** A mapping that exchanges nodes but leaves every count unchanged. *)
Theorem exchange_stale a0 o0 cs (m : mem_) a' o' pos body flow (was : Z -> Z) : mapping_ok n master N a0 o0 -> zero_start m -> Forall call_ok cs -> moves_change_counts n a0 (flat_map mapping_of cs) ->
  mapping_ok n master N a' o' ->
  let a := last (flat_map mapping_of cs) a0 in let h := history add sub mul z stiff damp (map event_of cs) in
  (forall r, 0 <= r < n -> node_count a' r = node_count a r) ->
  (forall r i j, 0 <= r < n -> ith_node a' r i j -> ith_node a r i (was j)) ->
  exists m', runs_to n (prog (vb_init a0 o0) (cs ++ [CInteract a' o' pos body flow])) m m' /\
    (forall r c i j, 0 <= r < n -> 0 <= c < nc -> ith_node a' r i j -> m' r (lag_local a' (lpm A) r c i) = pm h c (was j)) /\
    (forall c j, 0 <= c < nc -> 0 <= j < N -> m' master (gfo A, c * N + j) = add (mul stiff (pm h c (was j))) (mul damp (sub (flow c j) (body c j)))).
Proof.
  intros Hv Hz Hok Hmv Hv' a h Hcnt Hwas. destruct (calls_ok cs (vb_init a0 o0) m (at_rest z) (init_state a0 o0 m Hv Hz) Hok Hmv) as (m1 & R1 & (Hi & Hf)).
  set (s := final n (vb_init a0 o0) cs) in *. assert (Ea : address s = a) by apply final_address.
  destruct (interact_stale add sub mul z stiff damp n nc master A N HA Hnc Hmaster s a' o' m1 _ _ pos body flow was Hi Hv') as (m2 & R2 & K1 & K2).
  - unfold update_flag. apply not_true_is_false. intros E. apply existsb_exists in E as (r & Hr & E). apply zrange_In in Hr. apply negb_true_iff, Z.eqb_neq in E. apply E.
    destruct Hi as (_ & Hn & _). rewrite Hn by lia. rewrite count_eq, Ea. symmetry. apply Hcnt. lia.
  - rewrite Ea. exact Hwas.
  - exists m2. split; [|split; [|exact K2]].
    + assert (E : forall r, prog (vb_init a0 o0) (cs ++ [CInteract a' o' pos body flow]) r = prog (vb_init a0 o0) cs r ++ prog s [CInteract a' o' pos body flow] r).
      { unfold s. generalize (vb_init a0 o0). clear. induction cs as [|c cs IH]; intros s r; [reflexivity|]. cbn [app calls_prog]. rewrite IH. rewrite app_assoc. reflexivity. }
      refine (runs_to_ext _ _ _ _ _ _ _); [intros r _; symmetry; apply E|]. refine (runs_to_app _ _ _ _ _ _ R1 _).
      refine (runs_to_ext _ _ _ _ _ _ R2). intros r _. cbn [calls_prog call_prog]. now rewrite app_nil_r.
    + destruct K1 as (_ & _ & HP & _). intros. now apply HP.
Qed.

(** Every history: what each node continues with. *)
Definition mevent_of (c : @call T) : @mevent T := match c with CInteract a _ _ body flow => MInteract a body flow | CAdvance dt => MAdvance dt end.
Lemma place_in_nth l : forall i j, NoDup l -> nth_error l i = Some j -> place_in j l = i.
Proof.
  induction l as [|x l IH]; intros i j Hd Hi; [destruct i; discriminate|]. inversion Hd; subst. cbn [place_in]. destruct i as [|i]; cbn in Hi.
  - injection Hi as ->. now rewrite Z.eqb_refl.
  - destruct (Z.eqb_spec x j) as [->|Hx]; [apply nth_error_In in Hi; contradiction|]. f_equal. now apply IH.
Qed.
Lemma nodes_of_NoDup a r : NoDup (nodes_of a r).
Proof. unfold nodes_of. apply NoDup_filter. apply zrange_NoDup. Qed.
Lemma ith_owner a r i j : ith_node a r i j -> nth (Z.to_nat j) a (-1) = r.
Proof. intros [_ H]. apply nth_error_In in H. unfold nodes_of in H. apply filter_In in H as [_ H]. now apply Z.eqb_eq. Qed.
Lemma occupant_spec a a' r i j : node_count a' r = node_count a r -> ith_node a' r i j -> ith_node a r i (occupant_before a a' j).
Proof.
  intros Hc Hj. unfold occupant_before. rewrite (ith_owner _ _ _ _ Hj). destruct Hj as [Hi Hj]. rewrite (place_in_nth _ _ _ (nodes_of_NoDup a' r) Hj).
  split; [exact Hi|]. apply nth_error_nth'. unfold node_count in Hc. assert (X : (Z.to_nat i < length (nodes_of a' r))%nat) by (apply nth_error_Some; congruence). lia.
Qed.
Lemma same_counts_flag s a' : (forall r, 0 <= r < n -> num s r = node_count (address s) r) -> same_counts n (address s) a' = negb (update_flag n s a').
Proof.
  intros Hn. unfold same_counts, update_flag. assert (G : forall l, (forall r, In r l -> 0 <= r < n) -> forallb (fun r => node_count a' r =? node_count (address s) r) l = negb (existsb (fun r => negb (num s r =? local_num_lag_nodes a' r)) l)).
  { induction l as [|r l IH]; intros Hl; [reflexivity|]. cbn [forallb existsb]. rewrite negb_orb, negb_involutive, IH by (intros; apply Hl; now right). f_equal.
    rewrite count_eq, Hn by (apply Hl; now left). apply Z.eqb_sym. }
  apply G. intros r Hr. apply zrange_In in Hr. lia.
Qed.

Lemma mcalls_ok cs : forall s (m : mem_) st, fstate s m st -> Forall call_ok cs ->
  exists m', runs_to n (prog s cs) m m' /\ address (final n s cs) = fst (fold_left (mev1 add sub mul stiff damp n) (map mevent_of cs) (address s, st)) /\
    fstate (final n s cs) m' (snd (fold_left (mev1 add sub mul stiff damp n) (map mevent_of cs) (address s, st))).
Proof.
  induction cs as [|c cs IH]; intros s m st Hs Hok.
  - exists m. split; [|split; [reflexivity|exact Hs]]. apply runs_to_nil.
  - apply Forall_inv in Hok as Hc. apply Forall_inv_tail in Hok. destruct Hs as [Hi Hf]. destruct c as [a' o' pos body flow|dt].
    + cbn [call_ok] in Hc. assert (Hn : forall r, 0 <= r < n -> num s r = node_count (address s) r). { destruct Hi as (_ & Hn & _). intros r Hr. rewrite Hn by lia. reflexivity. }
      cbn [map mevent_of fold_left mev1]. set (st1 := ev1 add sub mul stiff damp _ _).
      assert (X : exists m1, runs_to n (calls_prog add sub mul z stiff damp n nc master A s [CInteract a' o' pos body flow]) m m1 /\ fstate (remapped n s a' o') m1 st1).
      { destruct (update_flag n s a') eqn:E.
        - destruct (interact_ok add sub mul z stiff damp n nc master A N HA Hnc Hmaster s a' o' m (pm st) (vm st) pos body flow Hi Hc) as (m1 & R1 & Hi1 & _ & _ & Hf1 & _); [congruence|].
          exists m1. split; [refine (runs_to_ext _ _ _ _ _ _ R1); intros r _; cbn [calls_prog call_prog]; now rewrite app_nil_r|].
          assert (Ec : forall j, continues n (address s) a' j = j). { intros j. unfold continues. rewrite same_counts_flag by exact Hn. now rewrite E. }
          unfold st1. cbn [ev1 pm vm fo]. replace (fun c j => pm st c (continues n (address s) a' j)) with (pm st); [split; [exact Hi1|intros c j Hcc Hj; cbn [fo]; rewrite Ec; now apply Hf1]|].
          extensionality c. extensionality j. now rewrite Ec.
        - assert (Ec : forall j, continues n (address s) a' j = occupant_before (address s) a' j). { intros j. unfold continues. rewrite same_counts_flag by exact Hn. now rewrite E. }
          destruct (interact_stale add sub mul z stiff damp n nc master A N HA Hnc Hmaster s a' o' m (pm st) (vm st) pos body flow (continues n (address s) a') Hi Hc E) as (m1 & R1 & Hi1 & Hf1).
          { intros r i j Hr Hij. rewrite Ec. apply occupant_spec; [|exact Hij]. rewrite <- Hn by lia. symmetry. now apply (noflag_num n s a'). }
          exists m1. split; [refine (runs_to_ext _ _ _ _ _ _ R1); intros r _; cbn [calls_prog call_prog]; now rewrite app_nil_r|]. split; [exact Hi1|exact Hf1]. }
      destruct X as (m1 & R1 & S1). destruct (IH (remapped n s a' o') m1 st1 S1 Hok) as (m2 & R2 & EA & S2). exists m2. split; [|split; [exact EA|exact S2]].
      pose proof (runs_to_app _ _ _ _ _ _ R1 R2) as R. refine (runs_to_ext _ _ _ _ _ _ R). intros r _. cbn [calls_prog]. now rewrite app_nil_r.
    + destruct (advance_ok add mul n nc master A N HA s dt m (pm st) (vm st) Hi) as (m1 & R1 & Hi1 & F1).
      destruct (IH s m1 (ev1 add sub mul stiff damp st (Advance dt))) as (m2 & R2 & EA & H2); [split; [exact Hi1|]|exact Hok|].
      { intros c j Hcc Hj. rewrite F1; [exact (Hf c j Hcc Hj)|]. cbn [fst]. pose proof (arr_neq A HA) as H. decompose [and] H. auto. }
      exists m2. split; [|split; [exact EA|exact H2]]. exact (runs_to_app _ _ _ _ _ _ R1 R2).
Qed.
Theorem mapped_history_ok a0 o0 cs (m : mem_) : mapping_ok n master N a0 o0 -> zero_start m -> Forall call_ok cs ->
  let a := fst (mapped_history add sub mul z stiff damp n a0 (map mevent_of cs)) in let h := snd (mapped_history add sub mul z stiff damp n a0 (map mevent_of cs)) in
  exists m', runs_to n (prog (vb_init a0 o0) cs) m m' /\ (forall r c i j, 0 <= r < n -> 0 <= c < nc -> ith_node a r i j ->
       m' r (lag_local a (lpm A) r c i) = pm h c j /\ m' r (lag_local a (lvm A) r c i) = vm h c j) /\ (forall c j, 0 <= c < nc -> 0 <= j < N -> m' master (gfo A, c * N + j) = fo h c j).
Proof.
  intros Hv Hz Hok a h. destruct (mcalls_ok cs (vb_init a0 o0) m (at_rest z) (init_state a0 o0 m Hv Hz) Hok) as (m' & R & EA & (Hi & Hf)).
  change (fold_left _ _ _) with (mapped_history add sub mul z stiff damp n a0 (map mevent_of cs)) in EA, Hi, Hf.
  exists m'. split; [exact R|]. split; [|exact Hf]. destruct Hi as (_ & _ & HP & HV). rewrite EA in HP, HV. intros. split; [now apply HP|now apply HV].
Qed.

(** Node counts: no condition on the moves. *)
Lemma counts_ok (cs : list (@call T)) : forall s : vb, (forall r, 0 <= r < n -> num s r = node_count (address s) r) -> forall r, 0 <= r < n -> num (final n s cs) r = node_count (address (final n s cs)) r.
Proof.
  induction cs as [|c cs IH]; intros s Hs r Hr; [now apply Hs|]. unfold final. cbn [fold_left]. apply IH; auto. destruct c as [a' o' pos body flow|dt]; auto.
  cbn [call1 remapped num address]. intros r' Hr'. destruct (update_flag n s a') eqn:E; [apply count_eq|]. now apply (noflag_num n s a').
Qed.
Lemma counts_sum a : Forall (fun r => 0 <= r < n) a -> fold_right Z.add 0 (map (node_count a) (zrange 0 n)) = Z.of_nat (length a).
Proof.
  intros Ha. assert (G : forall R, fold_right Z.add 0 (map (node_count a) R) = Z.of_nat (length (flat_map (nodes_of a) R))).
  { induction R as [|r R IHR]; [reflexivity|]. cbn [map fold_right flat_map]. rewrite IHR, app_length. unfold node_count. lia. }
  assert (En : zprod [n] = n) by (cbn; lia). assert (Ha' : Forall (fun r => 0 <= r < zprod [n]) a) by (now rewrite En). pose proof (Permutation_length (nodes_perm [n] a Ha')) as E. rewrite En in E. rewrite G, E. unfold zrange. rewrite map_length, seq_length. lia.
Qed.
End H.
