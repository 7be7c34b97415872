(** The restart of a coupled simulation (C57), for flows of any kind, then in two and three dimensions. *)
From Coq Require Import QArith String FunctionalExtensionality Permutation.
From Verif Require Import Base SpecGrid SpecGhost SpecGhostSum SpecStencil SpecStep SpecPenalise SpecFilter SpecDouble SpecLag SpecIB SpecVbf SpecNS SpecBodies SpecCoupled Comm Blocking SpecBlocking Spmd Lagrangian LagProofs Vbf VbfProofs
  Stencil KernelList NSSteps NavierStokes Coupled SpecTracks CoupledProofs CoupledThms IoLag IoEul SpecResume Resume ResumeSerial ResumeProofs Restart SpecRestart.
From Verif Require FieldProofs LoopProofs RestartProofs RestartRefute RestartSerial StepHistory IoEulProofs IBThms.
Open Scope Z_scope.
Open Scope list_scope.

Lemma flows_calls {T F} (es : list (event T F)) : flows (calls es) = flows es.
Proof. induction es as [|e es IH]; [reflexivity|]. destruct e; cbn [calls filter flows existsb] in *; auto. Qed.

Section G.
Context {T F : Type}.
Variables (add sub mul : T -> T -> T) (z fl : T) (val : T -> Q) (scale : T -> T) (sum : list T -> T) (dx shift : Q) (g : Z).
Variables (Fs kept vels fs : list nat) (nb : nat) (flow_ok : F -> Prop) (sf : F -> F -> Prop).
Variable flow_step : (Z -> list Z -> T) -> (nat -> list Z -> T) -> F -> nat -> list Z -> T.
Variables (dims loc : list Z) (actors : nat -> actor T) (bufsz : list (list Z)) (W : list nat).
Variables (dims' loc' : list Z) (actors' : nat -> actor T) (bufsz' : list (list Z)).
Variables (prog prog' : (nat -> vb) -> list (event T F) -> list (@segment T)).
Variables (ord : nat -> list Z -> list Z) (files : nat -> lfile T).
Notation n := (zprod dims).
Notation n' := (zprod dims').
Notation N := (global_size dims loc).
Notation nc := (Z.of_nat (length fs)).
Notation sees := (tracks z dims loc g Fs fs nb actors bufsz).
Notation sees' := (tracks z dims' loc' g Fs fs nb actors' bufsz').
Notation ok := (event_ok dims loc nb actors dx shift flow_ok).
Notation ok' := (event_ok dims' loc' nb actors' dx shift flow_ok).
Notation bodies := (fun b => a_body (actors b)).
Notation ser := (serial_coupled add sub mul z scale sum dx shift vels flow_step bodies (fun _ _ j => j)).
Notation coll := (collects add sub mul z scale sum dx shift vels flow_step bodies (fun _ _ j => j)).
Hypothesis Hrun : forall es ss m st bk, sees ss m st -> off_edge z dims loc st -> ghosts_ok actors false es -> Forall ok es -> all_fit dims (fun _ _ j => j) ss es -> booked fs nb actors m bk ->
  exists m', segs_end n (prog ss es) m m' /\ (forall m'', segs_end n (prog ss es) m m'' -> m'' = m') /\ sees (final_maps dims ss es) m' (ser st es) /\ booked fs nb actors m' (coll st bk es).
Hypothesis Hrun' : forall es ss m st, sees' ss m st -> off_edge z dims' loc' st -> ghosts_ok actors' false es -> Forall ok' es -> all_fit dims' (fun _ _ j => j) ss es ->
  exists m', segs_end n' (prog' ss es) m m' /\ (forall m'', segs_end n' (prog' ss es) m m'' -> m'' = m') /\ sees' (final_maps dims' ss es) m' (ser st es).
Hypothesis Happ : forall ss a b, prog ss (a ++ b) = prog ss a ++ prog (final_maps dims ss a) b.
Hypothesis Hg : 1 <= g.
Hypothesis Hdx : (0 < dx)%Q.
Hypothesis Hok : grid_ok dims loc.
Hypothesis Hok' : grid_ok dims' loc'.
Hypothesis EN : global_size dims loc = global_size dims' loc'.
Hypothesis ED : length dims = length dims'.
Hypothesis Hb : forall b, a_body (actors b) = a_body (actors' b).
Hypothesis HA' : actors_ok dims' g nb actors' W.
Hypothesis HW : incl Fs W /\ incl fs W.
Hypothesis Hkept : incl kept Fs.
Hypothesis Hvels : forall c, 0 <= c < nc -> In (nth (Z.to_nat c) vels 0%nat) kept.
Hypothesis Hsf : forall s s', sf s s' -> forall f u, flow_step f u s = flow_step f u s'.
Hypothesis Hflow : forall f f' u u' s, flow_ok s -> (forall c P, 0 <= c < nc -> inb N P -> f c P = f' c P) -> (forall a P, In a kept -> inb N P -> u a P = u' a P) ->
  forall a P, In a Fs -> inb N P -> flow_step f u s a P = flow_step f' u' s a P.
Hypothesis Hcount : forall b, (b < nb)%nat -> v_count (a_body (actors b)) <> nc.
Hypothesis Hloc : forall b, (b < nb)%nat -> a_local (actors b) = false /\ a_local (actors' b) = false.
Hypothesis Hord : forall b addr, (b < nb)%nat -> NoDup (ord b addr) /\ forall s, In s (ord b addr) <-> In s addr /\ s <> a_master (actors' b).
(** The first run, up to the save. *)
Variables (ss : nat -> vb) (m0 m : mem T) (st : cstate T) (es es1 es2 : list (event T F)).
Hypothesis Ht : sees ss m0 st.
Hypothesis Ho : off_edge z dims loc st.
Hypothesis He : Forall ok es.
Hypothesis Hgh : ghosts_ok actors false es.
Hypothesis Hmv : moves_ok n (cs_map st) es.
Hypothesis Hmet : forall b, (b < nb)%nat -> meets b es = true.
Hypothesis Hread : forall b p, (b < nb)%nat -> last_pose b es = Some p -> readable val nc (v_count (a_body (actors b))) p.
Hypothesis R0 : segs_end n (prog ss es) m0 m.
(** The restarted simulator, when the flow has been loaded. *)
Variables (m1 : mem T) (u' : nat -> list Z -> T) (ss1 : nat -> vb).
Hypothesis Hfile : forall b, (b < nb)%nat -> lag_saved_as nc [mismatch_fields nc (actors b)] m (files b).
Hypothesis Hu' : represents_ext false dims' loc' g Fs m1 u'.
Hypothesis Hinside : represents dims' loc' g kept m1 (cs_u (ser st es)).
Hypothesis Hforc : forc z dims' loc' g fs (fun _ _ => z) (by_rank m1).
Hypothesis Hbufs : forall b, (b < nb)%nat -> Forall2 (fun f sz => zero_buf z n' f sz (by_rank m1)) (a_bufs (actors' b)) bufsz'.

Lemma fits a : Forall ok a -> moves_ok n (cs_map st) a -> all_fit dims (fun _ _ j => j) ss a.
Proof. intros Ha Hm. exact (all_fit_own _ _ _ _ _ _ _ a ss (cs_map st) (tracks_nums _ _ _ _ _ _ _ _ _ _ _ _ Ht) (tr_map _ _ _ _ _ _ _ _ _ _ _ _ Ht) Hm Ha). Qed.
Lemma nothing_booked : booked fs nb actors m0 (fun _ : nat => @None (collected T)).
Proof. intros b k _ _ X; discriminate. Qed.
Lemma first_part : sees (final_maps dims ss es) m (ser st es) /\ booked fs nb actors m (coll st (fun _ => None) es).
Proof.
  destruct (Hrun es ss m0 st (fun _ => None) Ht Ho Hgh He (fits _ He Hmv) nothing_booked) as (m' & _ & U & T1 & B1).
  rewrite (U m R0). split; [exact T1|exact B1].
Qed.
Lemma goes_on : Forall ok (es ++ es1) -> ghosts_ok actors false (es ++ es1) -> moves_ok n (cs_map st) (es ++ es1) ->
  forall e, segs_end n (prog (final_maps dims ss es) es1) m e -> sees (final_maps dims ss (es ++ es1)) e (ser (ser st es) es1).
Proof.
  intros He1 Hgh1 Hmv1 e R. destruct (Hrun (es ++ es1) ss m0 st (fun _ => None) Ht Ho Hgh1 He1 (fits _ He1 Hmv1) nothing_booked) as (m2 & _ & U2 & T2 & _).
  rewrite (U2 e); [|rewrite Happ; exact (segs_app _ _ _ _ _ _ R0 R)]. unfold serial_coupled in *. rewrite fold_left_app in T2. exact T2.
Qed.

(** What each file holds: what has been collected, and the positions. *)
Lemma in_files b : (b < nb)%nat -> exists p k, last_pose b es = Some p /\ coll st (fun _ => None) es b = Some k /\ stored_positions val nc (actors b) m = p_nodes p /\ ok (ELag b p) /\
  (forall c j, 0 <= c < nc -> 0 <= j < v_count (a_body (actors b)) ->
    m (a_master (actors b), (gpm (a_arrays (actors b)), c * v_count (a_body (actors b)) + j)) = co_pm k c j /\
    m (a_master (actors b), (gvm (a_arrays (actors b)), c * v_count (a_body (actors b)) + j)) = co_vm k c j).
Proof.
  intros Hbn. destruct first_part as (_ & Bk). destruct (met_book add sub mul z scale sum dx shift vels flow_step bodies st (fun _ => None) b es (Hmet b Hbn)) as (k & p & e0 & e & e1 & K1 & K2 & K3 & K4 & _ & K5 & _).
  exists p, k. split; [exact K2|]. split; [exact K1|]. pose proof (Bk b k Hbn (proj1 (Hloc b Hbn)) K1) as B. split; [|split].
  - rewrite (Hread b p Hbn K2). unfold stored_positions. apply map_ext_in. intros j Hj. apply zrange_In in Hj. apply map_ext_in. intros c Hc. apply zrange_In in Hc. f_equal.
    destruct (B c j ltac:(clear -Hc; lia) ltac:(clear -Hj; lia)) as (_ & _ & X). rewrite X. now rewrite K5.
  - pose proof He as He1. rewrite Forall_forall in He1. assert (I : In e es) by (rewrite K3; apply in_or_app; right; now left). specialize (He1 e I). destruct K4 as [-> | ->]; exact He1.
  - intros c j Hc Hj. destruct (B c j Hc Hj) as (X & Y & _). auto.
Qed.

Definition again (mB : mem T) (ssB : nat -> vb) : cstate T :=
  {| cs_u := u'; cs_f := fun _ _ => z; cs_map := fun b => address (ssB b);
     cs_st := fun b => {| pm := fun c j => m (a_master (actors b), (gpm (a_arrays (actors b)), c * v_count (a_body (actors b)) + j));
                          vm := fun c j => m (a_master (actors b), (gvm (a_arrays (actors b)), c * v_count (a_body (actors b)) + j));
                          fo := fun c j => mB (a_master (actors' b), (gfo (a_arrays (actors' b)), c * v_count (a_body (actors' b)) + j)) |} |}.

Lemma arrays_out b x : (b < nb)%nat -> In x (all_arrays (a_arrays (actors' b))) -> ~ In x W.
Proof.
  intros Hbn Hx. destruct HA' as [Hnd _]. intros Hw. refine (BodiesProofs.nodup_disj W _ x Hnd Hw _). apply in_flat_map. exists b. split; [apply in_seq; lia|]. apply in_or_app. now left.
Qed.
Lemma ids_apart' b b' x : (b < nb)%nat -> (b' < nb)%nat -> b <> b' -> In x (all_arrays (a_arrays (actors' b))) -> ~ In x (actor_ids (actors' b')).
Proof. intros H1 H2 H3 H4. apply (CoupledProofs.ids_apart dims' g fs fs W nb actors' eq_refl HA' b b'); auto. apply in_or_app. now left. Qed.
Lemma arrays_bufs b b' x : (b < nb)%nat -> (b' < nb)%nat -> In x (all_arrays (a_arrays (actors' b))) -> ~ In x (a_bufs (actors' b')).
Proof.
  intros H1 H2 Hx Hy. destruct (Nat.eq_dec b b') as [<- |Hne].
  - pose proof (CoupledProofs.ids_one dims' g fs fs W nb actors' eq_refl HA' b H1) as H. exact (BodiesProofs.nodup_disj _ _ x H Hx Hy).
  - apply (ids_apart' b b' x H1 H2 Hne Hx). apply in_or_app. now right.
Qed.

Lemma restarted : exists mB ssB, resumed z fl val dx shift dims' loc' nc actors' ord files nb m1 ss1 mB ssB /\
  (forall mB' ssB', resumed z fl val dx shift dims' loc' nc actors' ord files nb m1 ss1 mB' ssB' -> mB' = mB /\ ssB' = ssB) /\
  sees' ssB mB (again mB ssB) /\ alike bodies N nc nb kept Fs (fun _ => true) false (given_back z (coll st (fun _ => None) es) (fun b => fo (cs_st (again mB ssB) b)) (ser st es)) (again mB ssB).
Proof.
  destruct (resumed_ok z fl val dx shift nc nb dims' loc' actors actors' ord files m ltac:(lia) Hdx Hok' Hb Hcount) with (k := nb) (m1 := m1) (ss := ss1) as (mB & ssB & R & U & C & Fr); auto.
  - intros b Hbn. destruct (in_files b Hbn) as (p & k & _ & _ & _ & (_ & Hp & _) & _). pose proof (po_count _ _ _ _ _ _ _ Hp). lia.
  - intros b Hbn. pose proof (CoupledProofs.ids_one dims' g fs fs W nb actors' eq_refl HA' b Hbn) as H. now apply IBThms.nodup_app_l in H.
  - intros b b' x H1 H2 H3 H4 H5. apply (ids_apart' b b' x H1 H2 H3 H4). apply in_or_app. now left.
  - intros b Hbn. apply (proj2 HA' b Hbn).
  - intros b Hbn. destruct (in_files b Hbn) as (p & k & _ & _ & -> & (_ & Hp & _) & _). pose proof (po_nodes _ _ _ _ _ _ _ Hp) as Hn. revert Hn. apply Forall_impl. intros x. unfold in_domain. rewrite EN.
    replace (map (fun _ => 0) dims') with (map (fun _ : Z => 0) dims); [auto|]. clear -ED. revert dims' ED. induction dims as [|a l IH]; intros [|a' l'] E; try discriminate; cbn; auto. f_equal. apply IH. now injection E.
  - exists mB, ssB. split; [exact R|]. split; [exact U|].
    assert (Fw : forall r x, In (fst x) W -> mB (r, x) = m1 (r, x)) by (intros r x Hx; apply Fr; intros b Hbn Hi; exact (arrays_out b _ Hbn Hi Hx)).
    split.
    + constructor; cbn [again cs_u cs_f cs_map cs_st].
      * intros r f I0 Hr Hf HI HO. rewrite <- (Hu' r f I0 Hr Hf HI HO). unfold field. apply Fw. cbn [fst]. exact (proj1 HW _ Hf).
      * destruct Hforc as [F1 F2]. split; intros; unfold by_rank; rewrite Fw by (cbn [fst]; apply (proj2 HW); eauto using nth_error_In); [eapply F1|eapply F2]; eauto.
      * intros b Hbn. split; [exact (proj1 (C b Hbn))|]. intros c j Hc Hj. reflexivity.
      * reflexivity.
      * intros b Hbn. generalize (Hbufs b Hbn). apply (BodiesProofs.bufs_agree z dims'). intros r a Ha. unfold by_rank. apply Fr. intros b' Hb' Hi. exact (arrays_bufs b' b _ Hb' Hbn Hi Ha).
      * intros b Hbn Hl. rewrite (proj2 (Hloc b Hbn)) in Hl. discriminate.
    + constructor; cbn [again cs_u cs_f cs_map cs_st].
      * intros a P Ha HP. refine (RestartProofs.inside_eq dims' loc' g kept m1 _ u' Hok' Hinside _ a P Ha _); [|now rewrite <- EN].
        apply RestartProofs.ext_inside; auto. intros r f I0 Hr Hf HI HO. apply Hu'; auto.
      * intros c P _ _. reflexivity.
      * intros b Hbn c j Hc Hj. destruct (in_files b Hbn) as (p & k & _ & K & _ & _ & X). cbn [given_back cs_st pm]. rewrite K. cbn [pm]. symmetry. apply (X c j Hc Hj).
      * intros b Hbn _. destruct (in_files b Hbn) as (p & k & _ & K & _ & _ & X). cbn [given_back cs_st vm fo]. rewrite K. cbn [vm fo]. split; [|reflexivity]. intros c j Hc Hj. symmetry. apply (X c j Hc Hj).
Qed.
(** Nothing is lost if the bodies are settled and the forcing has been used. *)
Lemma nothing_lost f0 : cleared es = true -> (forall b, (b < nb)%nat -> settled b es = true) ->
  alike bodies N nc nb kept Fs (fun _ => false) false (ser st es) (given_back z (coll st (fun _ => None) es) f0 (ser st es)).
Proof.
  intros Hclear Hset. constructor; cbn [given_back cs_u cs_f cs_st].
  - reflexivity.
  - intros c P _ _. now rewrite (cleared_forcing add sub mul z scale sum dx shift vels flow_step bodies st es Hclear).
  - intros b Hbn c j Hc Hj. destruct (settled_book add sub mul z scale sum dx shift vels flow_step bodies st (fun _ => None) b es (Hset b Hbn)) as (k & p & K1 & _ & _ & K4 & _). rewrite K1. cbn [pm]. now rewrite K4.
  - discriminate.
Qed.

(** The second run. *)
Hypothesis He' : Forall ok' es2.
Hypothesis Hgh' : ghosts_ok actors' false es2.
Variables (mB : mem T) (ssB : nat -> vb).
Hypothesis RB : resumed z fl val dx shift dims' loc' nc actors' ord files nb m1 ss1 mB ssB.
Hypothesis Hmv' : moves_ok n' (fun b => address (ssB b)) es2.
Lemma fine_events : Forall (fine dx shift bodies N nb flow_ok) es2.
Proof.
  generalize He'. apply Forall_impl. intros [b p|b p|b dt|s|]; cbn [event_ok fine]; auto;
  (intros (H1 & H2 & _); split; [exact H1|]; rewrite <- Hb in H2; split; [exact (po_count _ _ _ _ _ _ _ H2)|]; pose proof (po_support _ _ _ _ _ _ _ H2) as H3; revert H3; rewrite EN; apply Forall_impl; intros x; apply Forall_impl; intros P [X _]; exact X).
Qed.
Lemma second_part : exists e' f0, segs_end n' (prog' ssB es2) mB e' /\ (forall e2, segs_end n' (prog' ssB es2) mB e2 -> e2 = e') /\ sees' (final_maps dims' ssB es2) e' (ser (again mB ssB) es2) /\
  alike bodies N nc nb kept Fs (fun _ => true) (flows es2) (ser (given_back z (coll st (fun _ => None) es) f0 (ser st es)) es2) (ser (again mB ssB) es2).
Proof.
  destruct restarted as (mB' & ssB' & R & U & Tb & Al). destruct (U mB ssB RB) as [-> ->].
  assert (Oe : off_edge z dims' loc' (again mB' ssB')) by (intros c P _ _; reflexivity).
  destruct (Hrun' es2 ssB' mB' (again mB' ssB') Tb Oe Hgh' He') as (e' & R2 & U2 & T2).
  { exact (all_fit_own _ _ _ _ _ _ _ es2 ssB' _ (tracks_nums _ _ _ _ _ _ _ _ _ _ _ _ Tb) (tr_map _ _ _ _ _ _ _ _ _ _ _ _ Tb) Hmv' He'). }
  exists e'. eexists. split; [exact R2|]. split; [exact U2|]. split; [exact T2|].
  eapply alike_weak; [exact Hkept| | |exact (alike_run add sub mul z scale sum dx shift vels flow_step bodies N nc nb kept Fs flow_ok Hkept Hvels Hflow es2 _ _ _ _ Al fine_events (fun b Hbn => or_introl eq_refl))].
  - intros b _. apply orb_true_r.
  - intros H. now rewrite H.
Qed.
Lemma forc_ext f f' (x : mem T) : (forall c P, 0 <= c < nc -> inb N P -> f c P = f' c P) -> forc z dims loc g fs f (by_rank x) -> forc z dims loc g fs f' (by_rank x).
Proof.
  intros E [A B]. split; [|exact B]. intros c a r I0 Hc Hn Hr HI. rewrite (A c a r I0 Hc Hn Hr HI). apply E.
  - assert (Z.to_nat c < length fs)%nat by (apply nth_error_Some; rewrite Hn; discriminate). lia.
  - apply StepProofs.inbb_spec. now apply inner_in.
Qed.
(** What the restarted run shows. *)
Theorem resume_exact (e' : mem T) : segs_end n' (prog' ssB es2) mB e' -> exists f0, let S := ser (given_back z (coll st (fun _ => None) es) f0 (ser st es)) es2 in
  represents dims' loc' g (if flows es2 then Fs else kept) e' (cs_u S) /\ (forall c f, nth_error fs c = Some f -> represents dims' loc' g [f] e' (fun _ => cs_f S (Z.of_nat c))) /\
  forall b c j, (b < nb)%nat -> 0 <= c < nc -> 0 <= j < v_count (a_body (actors b)) ->
    e' (a_master (actors' b), (gfo (a_arrays (actors' b)), c * v_count (a_body (actors b)) + j)) = fo (cs_st S b) c j.
Proof.
  intros Rb. destruct second_part as (e2 & f0 & _ & U & Y & Al). rewrite (U e' Rb). exists f0. intros S. fold S in Al. split; [|split].
  - intros r f x Hr Hf Hx. rewrite (al_u _ _ _ _ _ _ _ _ _ _ Al f _ Hf); [|rewrite EN; now apply IoEulProofs.at_inb].
    apply (RestartProofs.ext_inside dims' loc' g Fs e2 _ Hg Hok' (tr_flow _ _ _ _ _ _ _ _ _ _ _ _ Y) r f x Hr); [|exact Hx]. destruct (flows es2); auto.
  - intros c f Hn r a x Hr [<- |[]] Hx. assert (Hc : (c < length fs)%nat) by (apply nth_error_Some; rewrite Hn; discriminate).
    rewrite (al_f _ _ _ _ _ _ _ _ _ _ Al (Z.of_nat c) _ ltac:(clear -Hc; lia)); [|rewrite EN; now apply IoEulProofs.at_inb].
    destruct (tr_forc _ _ _ _ _ _ _ _ _ _ _ _ Y) as [A _]. unfold by_rank in A. unfold field.
    etransitivity; [apply (A (Z.of_nat c) f r (map (fun i => i + g) x))|].
    + lia.
    + now rewrite Nat2Z.id.
    + exact Hr.
    + now apply FieldProofs.add_g_inner.
    + f_equal. unfold ghost_pos. rewrite map_map. rewrite (map_ext _ (fun x => x)) by (intros; lia). now rewrite map_id.
  - intros b c j Hbn Hc Hj. destruct (tr_node _ _ _ _ _ _ _ _ _ _ _ _ Y b Hbn) as [_ Y1]. rewrite <- Hb in Y1.
    etransitivity; [exact (Y1 c j Hc Hj)|]. symmetry. apply (proj2 (al_vm _ _ _ _ _ _ _ _ _ _ Al b Hbn eq_refl) c j Hc Hj).
Qed.
Theorem resume (e e' : mem T) : Forall ok (es ++ es1) -> ghosts_ok actors false (es ++ es1) -> moves_ok n (cs_map st) (es ++ es1) -> Forall2 (same_event sf) (calls es1) (calls es2) ->
  cleared es = true -> (forall b, (b < nb)%nat -> settled b es = true) -> (forall b, (b < nb)%nat -> meets_first b es1 = true) ->
  segs_end n (prog (final_maps dims ss es) es1) m e -> segs_end n' (prog' ssB es2) mB e' ->
  agree dims loc dims' loc' g (kept ++ fs) e e' /\ (flows es1 = true -> agree dims loc dims' loc' g (Fs ++ fs) e e') /\
  forall b c j, (b < nb)%nat -> meets b es1 = true -> 0 <= c < nc -> 0 <= j < v_count (a_body (actors b)) ->
    e (a_master (actors b), (gfo (a_arrays (actors b)), c * v_count (a_body (actors b)) + j)) = e' (a_master (actors' b), (gfo (a_arrays (actors' b)), c * v_count (a_body (actors b)) + j)).
Proof.
  intros He1 Hgh1 Hmv1 Hsame Hclear Hset Hmf Ra Rb. pose proof (goes_on He1 Hgh1 Hmv1 e Ra) as X. destruct second_part as (e2 & f0 & _ & U & Y & Al). rewrite (U e' Rb).
  pose proof (alike_run add sub mul z scale sum dx shift vels flow_step bodies N nc nb kept Fs flow_ok Hkept Hvels Hflow es1 _ _ _ _ (nothing_lost f0 Hclear Hset)) as A.
  specialize (A ltac:(apply Forall_app in He1 as [_ H]; revert H; apply Forall_impl; intros [b p|b p|b dt|s|]; cbn [event_ok fine]; auto;
    (intros (H1 & H2 & _); split; [exact H1|]; split; [exact (po_count _ _ _ _ _ _ _ H2)|]; pose proof (po_support _ _ _ _ _ _ _ H2) as H3; revert H3; apply Forall_impl; intros x; apply Forall_impl; intros P [Q _]; exact Q)) (fun b Hbn => or_intror (Hmf b Hbn))).
  set (G0 := given_back z (coll st (fun _ => None) es) f0 (ser st es)) in *.
  assert (S : same_state (ser G0 es1) (ser G0 es2)).
  { rewrite (serial_calls add sub mul z scale sum dx shift vels flow_step bodies _ es1), (serial_calls add sub mul z scale sum dx shift vels flow_step bodies _ es2).
    apply (serial_same add sub mul z scale sum dx shift vels flow_step flow_step bodies bodies sf); auto. repeat split. }
  assert (Ef : flows es2 = flows es1).
  { rewrite <- (flows_calls es2), <- (flows_calls es1). clear -Hsame. induction Hsame as [|x y l l' Hxy Hl IH]; [reflexivity|]. cbn [flows existsb]. f_equal; [|exact IH]. destruct Hxy; reflexivity. }
  destruct S as (E1 & E2 & E3). assert (E3' : cs_st (ser G0 es1) = cs_st (ser G0 es2)) by exact E3.
  assert (G : forall l, incl l Fs -> incl l (if flows es1 then Fs else kept) -> agree dims loc dims' loc' g (l ++ fs) e e2).
  { intros l Hl Hl2 r x r' x' f Hr Hx Hr' Hx' Hf. apply in_app_iff in Hf as [Hf|Hf].
    - apply (RestartProofs.agree_of dims loc dims' loc' g Fs l e e2 _ _ Hg Hok Hok' EN (tr_flow _ _ _ _ _ _ _ _ _ _ _ _ X) (tr_flow _ _ _ _ _ _ _ _ _ _ _ _ Y) Hl); auto.
      intros a P Ha HP. rewrite (al_u _ _ _ _ _ _ _ _ _ _ A a P); [|rewrite orb_false_r; auto|exact HP]. rewrite E1. apply (al_u _ _ _ _ _ _ _ _ _ _ Al); [rewrite Ef; auto|exact HP].
    - refine (forc_agree z dims loc dims' loc' g fs _ e e2 _ (tr_forc _ _ _ _ _ _ _ _ _ _ _ _ Y) r x r' x' f Hr Hx Hr' Hx' Hf). apply (forc_ext (cs_f (ser (ser st es) es1))); [|exact (tr_forc _ _ _ _ _ _ _ _ _ _ _ _ X)].
      intros c P Hc HP. rewrite (al_f _ _ _ _ _ _ _ _ _ _ A c P Hc HP), E2. exact (al_f _ _ _ _ _ _ _ _ _ _ Al c P Hc HP). }
  split; [|split].
  - apply G; [exact Hkept|]. destruct (flows es1); [exact Hkept|intros a Ha; exact Ha].
  - intros Hfl. rewrite Hfl in G. apply G; intros a Ha; exact Ha.
  - intros b c j Hbn Hm Hc Hj. destruct (tr_node _ _ _ _ _ _ _ _ _ _ _ _ X b Hbn) as [_ X1]. destruct (tr_node _ _ _ _ _ _ _ _ _ _ _ _ Y b Hbn) as [_ Y1]. rewrite <- Hb in Y1.
    etransitivity; [exact (X1 c j Hc Hj)|]. symmetry. etransitivity; [exact (Y1 c j Hc Hj)|]. symmetry.
    rewrite (proj2 (al_vm _ _ _ _ _ _ _ _ _ _ A b Hbn ltac:(cbv beta; now rewrite Hm)) c j Hc Hj), E3'. apply (proj2 (al_vm _ _ _ _ _ _ _ _ _ _ Al b Hbn eq_refl) c j Hc Hj).
Qed.
End G.

(** ** The flow's file *)
Section L.
Context {T P : Type}.
Variables (fill : T) (close : P -> P -> bool).
Lemma flow_loaded dims loc g fs (m : mem T) (params : P) F dims' loc' (params' : P) m0 m' u : grid_ok dims loc -> grid_ok dims' loc' -> global_size dims loc = global_size dims' loc' -> 0 <= g ->
  creates_fresh fs -> NoDup (flat_map arrays_of fs) -> saved_as dims loc g fs params m F -> loaded_as fill close dims' loc' g fs params' F m0 m' ->
  represents dims loc g (flat_map arrays_of fs) m u ->
  represents dims' loc' g (flat_map arrays_of fs) m' u /\ forall r a i, 0 <= r < zprod dims' -> ~ In a (flat_map arrays_of fs) -> m' (r, (a, i)) = m0 (r, (a, i)).
Proof.
  intros H1 H2 H3 H4 H5 H6 HS HL Hu.
  assert (Hsame : forall f', In f' fs -> exists f, In f fs /\ same_field f f') by (intros f' Hf'; exists f'; split; [exact Hf'|destruct f'; cbn; auto]). split.
  - intros r a x Hr Ha Hx. apply in_flat_map in Ha as Hb. destruct Hb as (f & Hf & Haf). apply In_nth_error in Haf as (c & Hc).
    assert (R1 : represents dims loc g [a] m u) by (intros r0 b y Hr0 [<-|[]] Hy; now apply Hu).
    exact (RestartProofs.reload fill close dims loc g fs m params F dims' loc' g fs params' m0 m' H1 H2 H3 H4 H5 H6 Hsame HS HL f f c a a u Hf Hf ltac:(destruct f; cbn; auto) Hc Hc R1 r a x Hr (or_introl eq_refl) Hx).
  - destruct HS as (ws & Hp & ->). destruct (IoEulProofs.restart fill close dims loc g fs m params ws dims' loc' g fs params' m0 H1 H2 H3 H4 H5 H6 Hsame Hp) as (m1 & (_ & _ & E) & L).
    intros r a i Hr Ha. rewrite <- (E r a i Hr Ha). specialize (L r Hr). rewrite (HL r Hr) in L. destruct (close params' params); [|discriminate]. injection L as L. exact (f_equal (fun f => f (a, i)) L).
Qed.
End L.

Lemma component_range f fs : In f fs -> 0 <= component_of f fs < Z.of_nat (length fs).
Proof.
  induction fs as [|x l IH]; [intros []|]. intros H. cbn [component_of length]. destruct (Nat.eqb_spec x f) as [-> |Hne]; [lia|]. destruct H as [H|H]; [congruence|]. specialize (IH H). lia.
Qed.
Lemma put_same {T} (z : T) N fs (f f' : nat -> list Z -> T) u : (forall a P, In a fs -> inb N P -> f a P = f' a P) -> put_forcing z N fs f u = put_forcing z N fs f' u.
Proof.
  intros H. apply functional_extensionality. intros a. apply functional_extensionality. intros P. unfold put_forcing. destruct (in_dec Nat.eq_dec a fs); [|reflexivity].
  destruct (inbb N P) eqn:E; [|reflexivity]. apply H; auto. now apply StepProofs.inbb_spec.
Qed.

(** A member of one list of names is in another. *)
Ltac member H := clear -H; cbn [In] in H; repeat destruct H as [H|H]; try contradiction; subst; cbn [In]; tauto.

(** ** Two dimensions *)
Section Two.
Context {T C P : Type}.
Variables (add sub mul : T -> T -> T) (z fl : T) (val : T -> Q) (times0 scale : T -> T) (sum : list T -> T) (dx shift : Q).
Variables (damp : C -> C -> T -> T) (coord : nat -> Z -> C) (width : Z) (conv : (list Z -> T) -> list Z -> T) (Kcx Kcy : @kfun T).
Variables (w psi vx vy fx fy buf D S : nat) (nb : nat) (close : P -> P -> bool).
Hypothesis add_monoid : comm_monoid add z.
Hypothesis zeroing : forall x, times0 x = z.
Hypothesis spacing : (0 < dx)%Q.
Notation setting py px ny nx g dd xg := (ns2_setting py px ny nx g width dd xg coord w psi vx vy fx fy buf D S Kcx Kcy).
Notation W := [w; psi; vx; vy; fx; fy; buf; D; S].
Notation all_ok py px g actors := (actors_ok [py; px] g nb actors W).
Notation legal py px ny nx actors := (Forall (event_ok [py; px] [ny; nx] nb actors dx shift (flow2_ok z w vx vy fx fy))).
Notation bufsz ny nx g := [[g; nx + 2 * g]; [ny + 2 * g; g]].
Notation shows py px ny nx g actors := (tracks z [py; px] [ny; nx] g [w; psi; vx; vy] [fx; fy] nb actors (bufsz ny nx g)).
Notation program py px ny nx g full dd xg actors := (coupled_segs add sub mul z scale sum dx shift [py; px] [ny; nx] g [vx; vy] [fx; fy] actors
  (exch_2d py px ny nx g full [vx; vy]) (spread_2 add mul times0 dx shift py px ny nx g [fx; fy])
  (time_step_2d add z damp conv py px ny nx g full dd width xg w psi vx vy fx fy buf D S Kcx Kcy)).
Notation serial N := (serial_ns_2d add z damp coord width conv Kcx Kcy N w psi vx vy fx fy).
Notation fields2 := [EScalar "vorticity" w; EVector "velocity" [vx; vy]].

Lemma flow2_alike N (s : @ns2_step T) f f' u u' : NoDup [w; psi; vx; vy; fx; fy] -> length N = 2%nat -> star_local 2 [psi] 1 Kcx -> star_local 2 [psi] 1 Kcy -> 4 <= width -> Forall (fun n => 2 * width <= n) N ->
  flow2_ok z w vx vy fx fy s -> (forall c Q, 0 <= c < 2 -> inb N Q -> f c Q = f' c Q) -> (forall a Q, In a [w; vx; vy] -> inb N Q -> u a Q = u' a Q) ->
  forall a Q, In a [w; psi; vx; vy] -> inb N Q -> serial N u (with_forcing2 [fx; fy] f s) a Q = serial N u' (with_forcing2 [fx; fy] f' s) a Q.
Proof.
  intros Hnd HN HKx HKy H4 HW [Hsh _] Hf Hu a Q Ha HQ.
  assert (E : serial N u (with_forcing2 [fx; fy] f s) = serial N u (with_forcing2 [fx; fy] f' s)).
  { unfold serial_ns_2d, with_forcing2. cbn [n2_frc n2_adv n2_dif n2_free]. destruct (n2_frc s) as [[K fv]|]; [|reflexivity]. cbn [option_map fst].
    rewrite (put_same z N [fx; fy] (fun b => f (component_of b [fx; fy])) (fun b => f' (component_of b [fx; fy])) u); [reflexivity|]. intros b X Hb HX. apply Hf; [|exact HX]. exact (component_range b [fx; fy] Hb). }
  rewrite E. apply (RestartSerial.step2_forgets add z damp coord width conv Kcx Kcy N w psi vx vy fx fy Hnd HN HKx HKy); auto.
  unfold ns2_shapes in *. unfold with_forcing2. cbn [n2_adv n2_dif n2_frc]. destruct (n2_frc s) as [[K fv]|]; exact Hsh.
Qed.
Lemma arrays_kept py px ny nx g dd xg : setting py px ny nx g dd xg -> NoDup (flat_map arrays_of fields2).
Proof. intros HS. cbn. pose proof (RestartProofs.arrays6 _ _ _ _ _ _ _ _ _ _ _ _ _ _ _ _ _ _ _ _ HS) as Hnd. clear -Hnd. inversion Hnd; subst. inversion H2; subst. inversion H4; subst. inversion H6; subst. repeat constructor; simpl in *; tauto. Qed.
Lemma fbufs_out py px g (actors : nat -> actor T) b x : all_ok py px g actors -> (b < nb)%nat -> In x (a_bufs (actors b)) -> ~ In x W.
Proof.
  intros [Hnd _] Hbn Hx Hw. refine (BodiesProofs.nodup_disj W _ x Hnd Hw _). apply in_flat_map. exists b. split; [apply in_seq; lia|]. apply in_or_app. now right.
Qed.

Section S.
Variables (py px ny nx : Z) (full : bool) (dd : nat) (xg : Z -> nat -> Z -> C) (actors : nat -> actor T) (py' px' ny' nx' : Z) (full' : bool) (dd' : nat) (xg' : Z -> nat -> Z -> C) (actors' : nat -> actor T) (g : Z).
Variables (params params' : P) (FF : efile T P) (files : nat -> lfile T) (ord : nat -> list Z -> list Z) (ss ss1 : nat -> vb) (st : cstate T) (es es1 es2 : list (event T (@ns2_step T))) (m0 m mB0 m1 : mem T).
Hypothesis HS : setting py px ny nx g dd xg.
Hypothesis HS' : setting py' px' ny' nx' g dd' xg'.
Hypothesis EN : global_size [py; px] [ny; nx] = global_size [py'; px'] [ny'; nx'].
Hypothesis H4 : 4 <= width.
Hypothesis HN : Forall (fun n => 2 * width <= n) (global_size [py; px] [ny; nx]).
Hypothesis HA : all_ok py px g actors.
Hypothesis HA' : all_ok py' px' g actors'.
Hypothesis Hb : forall b, a_body (actors b) = a_body (actors' b).
Hypothesis Hloc : forall b, (b < nb)%nat -> a_local (actors b) = false /\ a_local (actors' b) = false.
Hypothesis Hord : orders_ok nb (fun b => a_master (actors' b)) ord.
Hypothesis Hsv : saveable val 2 nb (fun b => a_body (actors b)) es.
Hypothesis He : legal py px ny nx actors es.
Hypothesis Hgh : ghosts_ok actors false es.
Hypothesis Hmv : moves_ok (zprod [py; px]) (cs_map st) es.
Hypothesis Ht : shows py px ny nx g actors ss m0 st.
Hypothesis Ho : off_edge z [py; px] [ny; nx] st.
Hypothesis R0 : segs_end (zprod [py; px]) (program py px ny nx g full dd xg actors ss es) m0 m.
Hypothesis Hsav : saved_as [py; px] [ny; nx] g fields2 params m FF.
Hypothesis Hfile : forall b, (b < nb)%nat -> lag_saved_as 2 [mismatch_fields 2 (actors b)] m (files b).
Hypothesis Hforc : forc z [py'; px'] [ny'; nx'] g [fx; fy] (fun _ _ => z) (by_rank mB0).
Hypothesis Hbufs : forall b, (b < nb)%nat -> Forall2 (fun f sz => zero_buf z (zprod [py'; px']) f sz (by_rank mB0)) (a_bufs (actors' b)) (bufsz ny' nx' g).
Hypothesis Hload : loaded_as fl close [py'; px'] [ny'; nx'] g fields2 params' FF mB0 m1.
Notation N := (global_size [py; px] [ny; nx]).
Notation res := (resumed z fl val dx shift [py'; px'] [ny'; nx'] 2 actors' ord files nb m1 ss1).
Notation flow_step := (fun frc u s => serial N u (with_forcing2 [fx; fy] frc s)).

Lemma run_A : forall es ss m st bk, shows py px ny nx g actors ss m st -> off_edge z [py; px] [ny; nx] st -> ghosts_ok actors false es -> legal py px ny nx actors es -> all_fit [py; px] (fun _ _ j => j) ss es -> booked [fx; fy] nb actors m bk ->
  exists m', segs_end (zprod [py; px]) (program py px ny nx g full dd xg actors ss es) m m' /\ (forall m'', segs_end (zprod [py; px]) (program py px ny nx g full dd xg actors ss es) m m'' -> m'' = m') /\
    shows py px ny nx g actors (final_maps [py; px] ss es) m' (serial_coupled add sub mul z scale sum dx shift [vx; vy] flow_step (fun b => a_body (actors b)) (fun _ _ j => j) st es) /\
    booked [fx; fy] nb actors m' (collects add sub mul z scale sum dx shift [vx; vy] flow_step (fun b => a_body (actors b)) (fun _ _ j => j) st bk es).
Proof.
  intros es0 ss0 m2 st0 bk A1 A2 A3 A4 A5 A6.
  exact (coupled_more_2d add sub mul z times0 scale sum dx shift damp coord width conv Kcx Kcy py px ny nx g full dd xg w psi vx vy fx fy buf D S nb actors HS add_monoid zeroing spacing HA (fun _ _ j => j) es0 ss0 m2 st0 bk A1 A2 A3 A4 A5 A6).
Qed.
Lemma run_B : forall es ss m st, shows py' px' ny' nx' g actors' ss m st -> off_edge z [py'; px'] [ny'; nx'] st -> ghosts_ok actors' false es -> legal py' px' ny' nx' actors' es -> all_fit [py'; px'] (fun _ _ j => j) ss es ->
  exists m', segs_end (zprod [py'; px']) (program py' px' ny' nx' g full' dd' xg' actors' ss es) m m' /\ (forall m'', segs_end (zprod [py'; px']) (program py' px' ny' nx' g full' dd' xg' actors' ss es) m m'' -> m'' = m') /\
    shows py' px' ny' nx' g actors' (final_maps [py'; px'] ss es) m' (serial_coupled add sub mul z scale sum dx shift [vx; vy] flow_step (fun b => a_body (actors b)) (fun _ _ j => j) st es).
Proof.
  intros es0 ss0 m2 st0 A1 A2 A3 A4 A5. rewrite EN. rewrite (functional_extensionality _ _ Hb).
  exact (coupled_2d add sub mul z times0 scale sum dx shift damp coord width conv Kcx Kcy py' px' ny' nx' g full' dd' xg' w psi vx vy fx fy buf D S nb actors' HS' add_monoid zeroing spacing HA' (fun _ _ j => j) es0 ss0 m2 st0 A1 A2 A3 A4 A5).
Qed.
Notation ser := (serial_coupled add sub mul z scale sum dx shift [vx; vy] flow_step (fun b => a_body (actors b)) (fun _ _ j => j)).
Lemma flow_back : exists u', represents_ext false [py'; px'] [ny'; nx'] g [w; psi; vx; vy] m1 u' /\ represents [py'; px'] [ny'; nx'] g [w; vx; vy] m1 (cs_u (ser st es)) /\
  forc z [py'; px'] [ny'; nx'] g [fx; fy] (fun _ _ => z) (by_rank m1) /\
  forall b, (b < nb)%nat -> Forall2 (fun f sz => zero_buf z (zprod [py'; px']) f sz (by_rank m1)) (a_bufs (actors' b)) (bufsz ny' nx' g).
Proof.
  destruct (RestartProofs.set_ok _ _ _ _ _ _ _ _ _ _ _ _ _ _ _ _ _ _ _ _ HS) as (Hok & Hg & Hgl). destruct (RestartProofs.set_ok _ _ _ _ _ _ _ _ _ _ _ _ _ _ _ _ _ _ _ _ HS') as (Hok' & _ & Hgl').
  assert (Ht1 : shows py px ny nx g actors (final_maps [py; px] ss es) m (ser st es)).
  { refine (proj1 (first_part add sub mul z scale sum dx shift g [w; psi; vx; vy] [vx; vy] [fx; fy] nb _ flow_step [py; px] [ny; nx] actors (bufsz ny nx g) (program py px ny nx g full dd xg actors) run_A ss m0 m st es Ht Ho He Hgh Hmv R0)). }
  assert (Hin : represents [py; px] [ny; nx] g [w; vx; vy] m (cs_u (ser st es))).
  { intros r f x Hr Hf Hx. apply (RestartProofs.ext_inside _ _ _ _ _ _ Hg Hok (tr_flow _ _ _ _ _ _ _ _ _ _ _ _ Ht1)); auto. member Hf. }
  destruct (flow_loaded fl close [py; px] [ny; nx] g fields2 m params FF [py'; px'] [ny'; nx'] params' mB0 m1 _ Hok Hok' EN ltac:(lia) (RestartProofs.fresh2 w vx vy) (arrays_kept _ _ _ _ _ _ _ HS) Hsav Hload Hin) as [L1 L2].
  destruct (RestartProofs.some_ext [py'; px'] [ny'; nx'] g [w; psi; vx; vy] m1 Hok' Hg Hgl') as (u' & Hu'). exists u'. split; [exact Hu'|]. split; [exact L1|].
  assert (Hnf : forall f, In f [fx; fy] -> ~ In f [w; vx; vy]).
  { intros f Hf Hf'. pose proof (RestartProofs.arrays6 _ _ _ _ _ _ _ _ _ _ _ _ _ _ _ _ _ _ _ _ HS) as Hnd. apply (BodiesProofs.nodup_disj [w; psi; vx; vy] [fx; fy] f Hnd); [member Hf'|exact Hf]. }
  split.
  - destruct Hforc as [F1 F2]. split; intros; unfold by_rank; (rewrite L2; [| |apply Hnf]); eauto using nth_error_In.
  - intros b Hbn. generalize (Hbufs b Hbn). assert (Hx : forall f, In f (a_bufs (actors' b)) -> ~ In f [w; vx; vy]) by (intros f Hf Hf'; apply (fbufs_out py' px' g actors' b f HA' Hbn Hf); member Hf').
    revert Hx. generalize (a_bufs (actors' b)) (bufsz ny' nx' g). intros l k Hx Hl. induction Hl as [|f sz l k Hf Hl IH]; constructor.
    + intros r K Hr HK. unfold by_rank. rewrite L2; [now apply Hf|exact Hr|apply Hx; now left].
    + apply IH. intros f0 H0. apply Hx. now right.
Qed.
Lemma back2 : exists mB ssB, res mB ssB /\ forall es2, legal py' px' ny' nx' actors' es2 -> ghosts_ok actors' false es2 -> moves_ok (zprod [py'; px']) (fun b => address (ssB b)) es2 ->
  exists e', segs_end (zprod [py'; px']) (program py' px' ny' nx' g full' dd' xg' actors' ssB es2) mB e'.
Proof.
  destruct flow_back as (u' & U1 & U2 & U3 & U4). destruct Hsv as [S1 S4 S5].
  destruct (RestartProofs.set_ok _ _ _ _ _ _ _ _ _ _ _ _ _ _ _ _ _ _ _ _ HS) as (Hok & Hg & Hgl). destruct (RestartProofs.set_ok _ _ _ _ _ _ _ _ _ _ _ _ _ _ _ _ _ _ _ _ HS') as (Hok' & _ & Hgl').
  edestruct (restarted add sub mul z fl val scale sum dx shift g [w; psi; vx; vy] [w; vx; vy] [vx; vy] [fx; fy] nb (flow2_ok z w vx vy fx fy) flow_step
    [py; px] [ny; nx] actors (bufsz ny nx g) W [py'; px'] [ny'; nx'] actors' (bufsz ny' nx' g) (program py px ny nx g full dd xg actors) ord files run_A) with (ss := ss) (m0 := m0) (m := m) (st := st) (es := es) (m1 := m1) (u' := u') (ss1 := ss1)
    as (mB & ssB & R & U & Tb & _); auto.
  - split; intros x Hx; member Hx.
  - intros x Hx. member Hx.
  - exists mB, ssB. split; [exact R|]. intros es3 X1 X2 X3. destruct (run_B es3 ssB mB _ Tb) as (e' & Q & _); eauto.
    + intros c Q _ _. reflexivity.
    + exact (all_fit_own _ _ _ _ _ _ _ es3 ssB _ (tracks_nums _ _ _ _ _ _ _ _ _ _ _ _ Tb) (tr_map _ _ _ _ _ _ _ _ _ _ _ _ Tb) X3 X1).
Qed.
Variables (mB e e' : mem T) (ssB : nat -> vb).
Theorem exact2 : res mB ssB -> legal py' px' ny' nx' actors' es2 -> ghosts_ok actors' false es2 -> moves_ok (zprod [py'; px']) (fun b => address (ssB b)) es2 ->
  segs_end (zprod [py'; px']) (program py' px' ny' nx' g full' dd' xg' actors' ssB es2) mB e' ->
  exists f0, let S := ser (given_back z (collects add sub mul z scale sum dx shift [vx; vy] flow_step (fun b => a_body (actors b)) (fun _ _ j => j) st (fun _ => None) es) f0 (ser st es)) es2 in
  represents [py'; px'] [ny'; nx'] g (if flows es2 then [w; psi; vx; vy] else [w; vx; vy]) e' (cs_u S) /\ (forall c f, nth_error [fx; fy] c = Some f -> represents [py'; px'] [ny'; nx'] g [f] e' (fun _ => cs_f S (Z.of_nat c))) /\
  forall b c j, (b < nb)%nat -> 0 <= c < 2 -> 0 <= j < v_count (a_body (actors b)) ->
    e' (a_master (actors' b), (gfo (a_arrays (actors' b)), c * v_count (a_body (actors b)) + j)) = fo (cs_st S b) c j.
Proof.
  intros RB X1 X2 X3 Rb. destruct flow_back as (u' & U1 & U2 & U3 & U4). destruct Hsv as [S1 S4 S5].
  destruct (RestartProofs.set_ok _ _ _ _ _ _ _ _ _ _ _ _ _ _ _ _ _ _ _ _ HS) as (Hok & Hg & Hgl). destruct (RestartProofs.set_ok _ _ _ _ _ _ _ _ _ _ _ _ _ _ _ _ _ _ _ _ HS') as (Hok' & _ & Hgl').
  refine (resume_exact add sub mul z fl val scale sum dx shift g [w; psi; vx; vy] [w; vx; vy] [vx; vy] [fx; fy] nb (flow2_ok z w vx vy fx fy) flow_step
    [py; px] [ny; nx] actors (bufsz ny nx g) W [py'; px'] [ny'; nx'] actors' (bufsz ny' nx' g) (program py px ny nx g full dd xg actors) (program py' px' ny' nx' g full' dd' xg' actors') ord files run_A run_B
    Hg spacing Hok' EN eq_refl Hb HA' _ _ _ _ S5 Hloc Hord ss m0 m st es es2 Ht Ho He Hgh Hmv S1 S4 R0 m1 u' ss1 Hfile U1 U2 U3 U4 X1 X2 mB ssB RB X3 e' Rb).
  - split; intros x Hx; member Hx.
  - intros x Hx. member Hx.
  - intros c Hc. assert (c = 0 \/ c = 1) as [-> | ->] by (clear -Hc; cbn in Hc; lia); cbn; clear; tauto.
  - pose proof HS as [_ _ _ _ _ _ _ [HKx _] [HKy _]]. intros f f' u1 u2 s Hs Hf Hu. apply flow2_alike; auto. exact (RestartProofs.arrays6 _ _ _ _ _ _ _ _ _ _ _ _ _ _ _ _ _ _ _ _ HS).
Qed.
Theorem resume2 : legal py px ny nx actors (es ++ es1) -> ghosts_ok actors false (es ++ es1) -> moves_ok (zprod [py; px]) (cs_map st) (es ++ es1) -> restartable val 2 nb (fun b => a_body (actors b)) es es1 ->
  res mB ssB -> legal py' px' ny' nx' actors' es2 -> ghosts_ok actors' false es2 -> moves_ok (zprod [py'; px']) (fun b => address (ssB b)) es2 -> Forall2 (same_event eq) (calls es1) (calls es2) ->
  segs_end (zprod [py; px]) (program py px ny nx g full dd xg actors (final_maps [py; px] ss es) es1) m e ->
  segs_end (zprod [py'; px']) (program py' px' ny' nx' g full' dd' xg' actors' ssB es2) mB e' ->
  agree [py; px] [ny; nx] [py'; px'] [ny'; nx'] g [w; vx; vy; fx; fy] e e' /\ (flows es1 = true -> agree [py; px] [ny; nx] [py'; px'] [ny'; nx'] g [w; psi; vx; vy; fx; fy] e e') /\
  forall b c j, (b < nb)%nat -> meets b es1 = true -> 0 <= c < 2 -> 0 <= j < v_count (a_body (actors b)) ->
    e (a_master (actors b), (gfo (a_arrays (actors b)), c * v_count (a_body (actors b)) + j)) = e' (a_master (actors' b), (gfo (a_arrays (actors' b)), c * v_count (a_body (actors b)) + j)).
Proof.
  intros Y1 Y2 Y3 [_ Y4 Y5 Y6] RB X1 X2 X3 X4 Ra Rb. destruct flow_back as (u' & U1 & U2 & U3 & U4). destruct Hsv as [S1 S4 S5].
  destruct (RestartProofs.set_ok _ _ _ _ _ _ _ _ _ _ _ _ _ _ _ _ _ _ _ _ HS) as (Hok & Hg & Hgl). destruct (RestartProofs.set_ok _ _ _ _ _ _ _ _ _ _ _ _ _ _ _ _ _ _ _ _ HS') as (Hok' & _ & Hgl').
  refine (resume add sub mul z fl val scale sum dx shift g [w; psi; vx; vy] [w; vx; vy] [vx; vy] [fx; fy] nb (flow2_ok z w vx vy fx fy) (@eq (@ns2_step T)) flow_step
    [py; px] [ny; nx] actors (bufsz ny nx g) W [py'; px'] [ny'; nx'] actors' (bufsz ny' nx' g) (program py px ny nx g full dd xg actors) (program py' px' ny' nx' g full' dd' xg' actors') ord files run_A run_B
    _ Hg spacing Hok Hok' EN eq_refl Hb HA' _ _ _ _ _ S5 Hloc Hord ss m0 m st es es1 es2 Ht Ho He Hgh Hmv S1 S4 R0 m1 u' ss1 Hfile U1 U2 U3 U4 X1 X2 mB ssB RB X3 e e' Y1 Y2 Y3 X4 Y6 Y4 Y5 Ra Rb).
  - intros a b c. apply LoopProofs.segs_events.
  - split; intros x Hx; member Hx.
  - intros x Hx. member Hx.
  - intros c Hc. assert (c = 0 \/ c = 1) as [-> | ->] by (clear -Hc; cbn in Hc; lia); cbn; clear; tauto.
  - now intros s s' ->.
  - pose proof HS as [_ _ _ _ _ _ _ [HKx _] [HKy _]]. intros f f' u1 u2 s Hs Hf Hu. apply flow2_alike; auto. exact (RestartProofs.arrays6 _ _ _ _ _ _ _ _ _ _ _ _ _ _ _ _ _ _ _ _ HS).
Qed.
End S.
End Two.

(** ** Three dimensions *)
Section Three.
Context {T C P : Type}.
Variables (add sub mul : T -> T -> T) (z fl : T) (val : T -> Q) (times0 scale : T -> T) (sum : list T -> T) (dx shift : Q).
Variables (damp : C -> C -> T -> T) (coord : nat -> Z -> C) (width : Z) (conv : (list Z -> T) -> list Z -> T) (Kcx Kcy Kcz : @kfun T)
          (lap : T -> T -> T -> T) (fsub : T -> T -> T) (filt : option (filter_type * nat * Z)).
Variables (w0 w1 w2 p0 p1 p2 vx vy vz fx fy fz b0 b1 b2 buf D S : nat) (nb : nat) (close : P -> P -> bool).
Hypothesis add_monoid : comm_monoid add z.
Hypothesis zeroing : forall x, times0 x = z.
Hypothesis spacing : (0 < dx)%Q.
Notation ws := [w0; w1; w2].
Notation vs := [vx; vy; vz].
Notation fs := [fx; fy; fz].
Notation bs := [b0; b1; b2].
Notation Fs0 := [w0; w1; w2; p0; p1; p2; vx; vy; vz].
Notation kept := [w0; w1; w2; vx; vy; vz].
Notation setting pz py px n0 n1 n2 g xg := (ns3_setting pz py px n0 n1 n2 g width filt xg coord w0 w1 w2 p0 p1 p2 vx vy vz fx fy fz b0 b1 b2 buf D S Kcx Kcy Kcz).
Notation W := [w0; w1; w2; p0; p1; p2; vx; vy; vz; fx; fy; fz; b0; b1; b2; buf; D; S].
Notation all_ok pz py px g actors := (actors_ok [pz; py; px] g nb actors W).
Notation step_ok := (fun s => flow3_ok z ws vs bs fs (fst s)).
Notation legal pz py px n0 n1 n2 actors := (Forall (event_ok [pz; py; px] [n0; n1; n2] nb actors dx shift step_ok)).
Notation bufsz n0 n1 n2 g := [[g; n1 + 2 * g; n2 + 2 * g]; [n0 + 2 * g; g; n2 + 2 * g]; [n0 + 2 * g; n1 + 2 * g; g]].
Notation shows pz py px n0 n1 n2 g actors := (tracks z [pz; py; px] [n0; n1; n2] g Fs0 fs nb actors (bufsz n0 n1 n2 g)).
Notation program pz py px n0 n1 n2 g full xg actors := (coupled_segs add sub mul z scale sum dx shift [pz; py; px] [n0; n1; n2] g vs fs actors
  (exch_3d pz py px n0 n1 n2 g full vs) (spread_3 add mul times0 dx shift pz py px n0 n1 n2 g fs)
  (fun sr => time_step_3d add z damp conv lap fsub filt pz py px n0 n1 n2 g full width xg w0 w1 w2 p0 p1 p2 vx vy vz fx fy fz b0 b1 b2 buf D S Kcx Kcy Kcz (snd sr) (fst sr))).
Notation serial N := (serial_ns_3d add z damp coord width conv Kcx Kcy Kcz lap fsub filt N w0 w1 w2 p0 p1 p2 vx vy vz b0 b1 b2 fx fy fz).
Notation fields3 := [EVector "vorticity" ws; EVector "velocity" vs].
Notation race := (Z -> nat -> list Z -> T).
Lemma flow3_alike N (s : @ns3_step T) f f' u u' : NoDup (ws ++ [p0; p1; p2] ++ vs ++ fs ++ bs) -> length N = 3%nat -> (forall K, In K [Kcx; Kcy; Kcz] -> star_local 3 [p0; p1; p2] 1 K) ->
  3 <= width -> Forall (fun n => 2 * width <= n) N -> match filt with Some (_, order, bw) => (1 <= order)%nat /\ 3 <= bw | None => True end ->
  flow3_ok z ws vs bs fs s -> (forall c Q, 0 <= c < 3 -> inb N Q -> f c Q = f' c Q) -> (forall a Q, In a kept -> inb N Q -> u a Q = u' a Q) ->
  forall a Q, In a Fs0 -> inb N Q -> serial N u (with_forcing3 fs f s) a Q = serial N u' (with_forcing3 fs f' s) a Q.
Proof.
  intros Hnd HN HK H3 HW Hft [Hsh _] Hf Hu a Q Ha HQ.
  assert (E : serial N u (with_forcing3 fs f s) = serial N u (with_forcing3 fs f' s)).
  { unfold serial_ns_3d, with_forcing3. cbn [n3_frc n3_crs n3_upd n3_dif n3_free]. destruct (n3_frc s) as [[K fv]|]; [|reflexivity]. cbn [option_map fst].
    rewrite (put_same z N fs (fun b => f (component_of b fs)) (fun b => f' (component_of b fs)) u); [reflexivity|]. intros b X Hb HX. apply Hf; [|exact HX]. exact (component_range b fs Hb). }
  rewrite E. apply (RestartSerial.step3_forgets add z damp coord width conv Kcx Kcy Kcz lap fsub filt N w0 w1 w2 p0 p1 p2 vx vy vz b0 b1 b2 fx fy fz Hnd HN HK); auto.
  unfold ns3_shapes in *. unfold with_forcing3. cbn [n3_crs n3_upd n3_dif n3_frc]. destruct (n3_frc s) as [[K fv]|]; exact Hsh.
Qed.
Lemma arrays_kept3 pz py px n0 n1 n2 g xg : setting pz py px n0 n1 n2 g xg -> NoDup (flat_map arrays_of fields3).
Proof.
  intros HS. pose proof (RestartProofs.arrays15 _ _ _ _ _ _ _ _ _ _ _ _ _ _ _ _ _ _ _ _ _ _ _ _ _ _ _ _ _ _ _ _ HS) as Hnd. clear -Hnd.
  apply IoLagProofs.NoDup_app_split in Hnd as (A & B & X). apply IoLagProofs.NoDup_app_split in B as (_ & B & _).
  apply IoLagProofs.NoDup_app_split in B as (B & _ & _). change (NoDup (ws ++ vs)). apply IoEulProofs.NoDup_app_intro'; auto.
  intros x Hx Hx'. apply (X x Hx). apply in_or_app. right. apply in_or_app. now left.
Qed.
Lemma fbufs_out3 pz py px g (actors : nat -> actor T) b x : all_ok pz py px g actors -> (b < nb)%nat -> In x (a_bufs (actors b)) -> ~ In x W.
Proof.
  intros [Hnd _] Hbn Hx Hw. refine (BodiesProofs.nodup_disj W _ x Hnd Hw _). apply in_flat_map. exists b. split; [apply in_seq; lia|]. apply in_or_app. now right.
Qed.

Section S.
Variables (pz py px n0 n1 n2 : Z) (full : bool) (xg : Z -> nat -> Z -> C) (actors : nat -> actor T) (pz' py' px' n0' n1' n2' : Z) (full' : bool) (xg' : Z -> nat -> Z -> C) (actors' : nat -> actor T) (g : Z).
Variables (params params' : P) (FF : efile T P) (files : nat -> lfile T) (ord : nat -> list Z -> list Z) (ss ss1 : nat -> vb) (st : cstate T) (es es1 es2 : list (event T (@ns3_step T * race))) (m0 m mB0 m1 : mem T).
Hypothesis HS : setting pz py px n0 n1 n2 g xg.
Hypothesis HS' : setting pz' py' px' n0' n1' n2' g xg'.
Hypothesis EN : global_size [pz; py; px] [n0; n1; n2] = global_size [pz'; py'; px'] [n0'; n1'; n2'].
Hypothesis H3 : 3 <= width.
Hypothesis HN : Forall (fun n => 2 * width <= n) (global_size [pz; py; px] [n0; n1; n2]).
Hypothesis Hbw : match filt with Some (_, _, bw) => 3 <= bw | None => True end.
Hypothesis Hcor : full = true \/ at_most_one_split [pz; py; px].
Hypothesis Hcor' : full' = true \/ at_most_one_split [pz'; py'; px'].
Hypothesis HA : all_ok pz py px g actors.
Hypothesis HA' : all_ok pz' py' px' g actors'.
Hypothesis Hb : forall b, a_body (actors b) = a_body (actors' b).
Hypothesis Hloc : forall b, (b < nb)%nat -> a_local (actors b) = false /\ a_local (actors' b) = false.
Hypothesis Hord : orders_ok nb (fun b => a_master (actors' b)) ord.
Hypothesis Hsv : saveable val 3 nb (fun b => a_body (actors b)) es.
Hypothesis He : legal pz py px n0 n1 n2 actors es.
Hypothesis Hgh : ghosts_ok actors false es.
Hypothesis Hmv : moves_ok (zprod [pz; py; px]) (cs_map st) es.
Hypothesis Ht : shows pz py px n0 n1 n2 g actors ss m0 st.
Hypothesis Ho : off_edge z [pz; py; px] [n0; n1; n2] st.
Hypothesis R0 : segs_end (zprod [pz; py; px]) (program pz py px n0 n1 n2 g full xg actors ss es) m0 m.
Hypothesis Hsav : saved_as [pz; py; px] [n0; n1; n2] g fields3 params m FF.
Hypothesis Hfile : forall b, (b < nb)%nat -> lag_saved_as 3 [mismatch_fields 3 (actors b)] m (files b).
Hypothesis Hforc : forc z [pz'; py'; px'] [n0'; n1'; n2'] g fs (fun _ _ => z) (by_rank mB0).
Hypothesis Hbufs : forall b, (b < nb)%nat -> Forall2 (fun f sz => zero_buf z (zprod [pz'; py'; px']) f sz (by_rank mB0)) (a_bufs (actors' b)) (bufsz n0' n1' n2' g).
Hypothesis Hload : loaded_as fl close [pz'; py'; px'] [n0'; n1'; n2'] g fields3 params' FF mB0 m1.
Notation N := (global_size [pz; py; px] [n0; n1; n2]).
Notation res := (resumed z fl val dx shift [pz'; py'; px'] [n0'; n1'; n2'] 3 actors' ord files nb m1 ss1).
Notation flow_step := (fun frc u s => serial N u (with_forcing3 fs frc (fst s))).

Lemma run_A3 : forall es ss m st bk, shows pz py px n0 n1 n2 g actors ss m st -> off_edge z [pz; py; px] [n0; n1; n2] st -> ghosts_ok actors false es -> legal pz py px n0 n1 n2 actors es -> all_fit [pz; py; px] (fun _ _ j => j) ss es -> booked fs nb actors m bk ->
  exists m', segs_end (zprod [pz; py; px]) (program pz py px n0 n1 n2 g full xg actors ss es) m m' /\ (forall m'', segs_end (zprod [pz; py; px]) (program pz py px n0 n1 n2 g full xg actors ss es) m m'' -> m'' = m') /\
    shows pz py px n0 n1 n2 g actors (final_maps [pz; py; px] ss es) m' (serial_coupled add sub mul z scale sum dx shift vs flow_step (fun b => a_body (actors b)) (fun _ _ j => j) st es) /\
    booked fs nb actors m' (collects add sub mul z scale sum dx shift vs flow_step (fun b => a_body (actors b)) (fun _ _ j => j) st bk es).
Proof.
  intros es0 ss0 m2 st0 bk A1 A2 A3 A4 A5 A6.
  exact (coupled_more_3d add sub mul z times0 scale sum dx shift damp coord width conv Kcx Kcy Kcz lap fsub filt pz py px n0 n1 n2 g full xg w0 w1 w2 p0 p1 p2 vx vy vz fx fy fz b0 b1 b2 buf D S nb actors HS add_monoid zeroing spacing HA Hcor (fun _ _ j => j) es0 ss0 m2 st0 bk A1 A2 A3 A4 A5 A6).
Qed.
Lemma run_B3 : forall es ss m st, shows pz' py' px' n0' n1' n2' g actors' ss m st -> off_edge z [pz'; py'; px'] [n0'; n1'; n2'] st -> ghosts_ok actors' false es -> legal pz' py' px' n0' n1' n2' actors' es -> all_fit [pz'; py'; px'] (fun _ _ j => j) ss es ->
  exists m', segs_end (zprod [pz'; py'; px']) (program pz' py' px' n0' n1' n2' g full' xg' actors' ss es) m m' /\ (forall m'', segs_end (zprod [pz'; py'; px']) (program pz' py' px' n0' n1' n2' g full' xg' actors' ss es) m m'' -> m'' = m') /\
    shows pz' py' px' n0' n1' n2' g actors' (final_maps [pz'; py'; px'] ss es) m' (serial_coupled add sub mul z scale sum dx shift vs flow_step (fun b => a_body (actors b)) (fun _ _ j => j) st es).
Proof.
  intros es0 ss0 m2 st0 A1 A2 A3 A4 A5. rewrite EN. rewrite (functional_extensionality _ _ Hb).
  exact (coupled_3d add sub mul z times0 scale sum dx shift damp coord width conv Kcx Kcy Kcz lap fsub filt pz' py' px' n0' n1' n2' g full' xg' w0 w1 w2 p0 p1 p2 vx vy vz fx fy fz b0 b1 b2 buf D S nb actors' HS' add_monoid zeroing spacing HA' Hcor' (fun _ _ j => j) es0 ss0 m2 st0 A1 A2 A3 A4 A5).
Qed.
Notation ser := (serial_coupled add sub mul z scale sum dx shift vs flow_step (fun b => a_body (actors b)) (fun _ _ j => j)).
Lemma flow_back3 : exists u', represents_ext false [pz'; py'; px'] [n0'; n1'; n2'] g Fs0 m1 u' /\ represents [pz'; py'; px'] [n0'; n1'; n2'] g kept m1 (cs_u (ser st es)) /\
  forc z [pz'; py'; px'] [n0'; n1'; n2'] g fs (fun _ _ => z) (by_rank m1) /\
  forall b, (b < nb)%nat -> Forall2 (fun f sz => zero_buf z (zprod [pz'; py'; px']) f sz (by_rank m1)) (a_bufs (actors' b)) (bufsz n0' n1' n2' g).
Proof.
  destruct (RestartProofs.set_ok3 _ _ _ _ _ _ _ _ _ _ _ _ _ _ _ _ _ _ _ _ _ _ _ _ _ _ _ _ _ _ _ _ HS) as (Hok & Hg & Hgl). destruct (RestartProofs.set_ok3 _ _ _ _ _ _ _ _ _ _ _ _ _ _ _ _ _ _ _ _ _ _ _ _ _ _ _ _ _ _ _ _ HS') as (Hok' & _ & Hgl').
  assert (Ht1 : shows pz py px n0 n1 n2 g actors (final_maps [pz; py; px] ss es) m (ser st es)).
  { refine (proj1 (first_part add sub mul z scale sum dx shift g Fs0 vs fs nb _ flow_step [pz; py; px] [n0; n1; n2] actors (bufsz n0 n1 n2 g) (program pz py px n0 n1 n2 g full xg actors) run_A3 ss m0 m st es Ht Ho He Hgh Hmv R0)). }
  assert (Hin : represents [pz; py; px] [n0; n1; n2] g kept m (cs_u (ser st es))).
  { intros r f x Hr Hf Hx. apply (RestartProofs.ext_inside _ _ _ _ _ _ Hg Hok (tr_flow _ _ _ _ _ _ _ _ _ _ _ _ Ht1)); auto. member Hf. }
  destruct (flow_loaded fl close [pz; py; px] [n0; n1; n2] g fields3 m params FF [pz'; py'; px'] [n0'; n1'; n2'] params' mB0 m1 _ Hok Hok' EN ltac:(lia) (RestartProofs.fresh3 w0 w1 w2 vx vy vz) (arrays_kept3 _ _ _ _ _ _ _ _ HS) Hsav Hload Hin) as [L1 L2].
  destruct (RestartProofs.some_ext [pz'; py'; px'] [n0'; n1'; n2'] g Fs0 m1 Hok' Hg Hgl') as (u' & Hu'). exists u'. split; [exact Hu'|]. split; [exact L1|].
  assert (Hnf : forall f, In f fs -> ~ In f kept).
  { intros f Hf Hf'. pose proof (RestartProofs.arrays15 _ _ _ _ _ _ _ _ _ _ _ _ _ _ _ _ _ _ _ _ _ _ _ _ _ _ _ _ _ _ _ _ HS) as Hnd. apply (BodiesProofs.nodup_disj Fs0 (fs ++ bs) f Hnd); [member Hf'|apply in_or_app; now left]. }
  split.
  - destruct Hforc as [F1 F2]. split; intros; unfold by_rank; (rewrite L2; [| |apply Hnf]); eauto using nth_error_In.
  - intros b Hbn. generalize (Hbufs b Hbn). assert (Hx : forall f, In f (a_bufs (actors' b)) -> ~ In f kept) by (intros f Hf Hf'; apply (fbufs_out3 pz' py' px' g actors' b f HA' Hbn Hf); member Hf').
    revert Hx. generalize (a_bufs (actors' b)) (bufsz n0' n1' n2' g). intros l k Hx Hl. induction Hl as [|f sz l k Hf Hl IH]; constructor.
    + intros r K Hr HK. unfold by_rank. rewrite L2; [now apply Hf|exact Hr|apply Hx; now left].
    + apply IH. intros f0 H0. apply Hx. now right.
Qed.
Lemma back3 : exists mB ssB, res mB ssB /\ forall es2, legal pz' py' px' n0' n1' n2' actors' es2 -> ghosts_ok actors' false es2 -> moves_ok (zprod [pz'; py'; px']) (fun b => address (ssB b)) es2 ->
  exists e', segs_end (zprod [pz'; py'; px']) (program pz' py' px' n0' n1' n2' g full' xg' actors' ssB es2) mB e'.
Proof.
  destruct flow_back3 as (u' & U1 & U2 & U3 & U4). destruct Hsv as [S1 S4 S5].
  destruct (RestartProofs.set_ok3 _ _ _ _ _ _ _ _ _ _ _ _ _ _ _ _ _ _ _ _ _ _ _ _ _ _ _ _ _ _ _ _ HS) as (Hok & Hg & Hgl). destruct (RestartProofs.set_ok3 _ _ _ _ _ _ _ _ _ _ _ _ _ _ _ _ _ _ _ _ _ _ _ _ _ _ _ _ _ _ _ _ HS') as (Hok' & _ & Hgl').
  edestruct (restarted add sub mul z fl val scale sum dx shift g Fs0 kept vs fs nb step_ok flow_step
    [pz; py; px] [n0; n1; n2] actors (bufsz n0 n1 n2 g) W [pz'; py'; px'] [n0'; n1'; n2'] actors' (bufsz n0' n1' n2' g) (program pz py px n0 n1 n2 g full xg actors) ord files run_A3) with (ss := ss) (m0 := m0) (m := m) (st := st) (es := es) (m1 := m1) (u' := u') (ss1 := ss1)
    as (mB & ssB & R & U & Tb & _); auto.
  - split; intros x Hx; member Hx.
  - intros x Hx. member Hx.
  - exists mB, ssB. split; [exact R|]. intros es3 X1 X2 X3. destruct (run_B3 es3 ssB mB _ Tb) as (e' & Q & _); eauto.
    + intros c Q _ _. reflexivity.
    + exact (all_fit_own _ _ _ _ _ _ _ es3 ssB _ (tracks_nums _ _ _ _ _ _ _ _ _ _ _ _ Tb) (tr_map _ _ _ _ _ _ _ _ _ _ _ _ Tb) X3 X1).
Qed.
Variables (mB e e' : mem T) (ssB : nat -> vb).
Theorem exact3 : res mB ssB -> legal pz' py' px' n0' n1' n2' actors' es2 -> ghosts_ok actors' false es2 -> moves_ok (zprod [pz'; py'; px']) (fun b => address (ssB b)) es2 ->
  segs_end (zprod [pz'; py'; px']) (program pz' py' px' n0' n1' n2' g full' xg' actors' ssB es2) mB e' ->
  exists f0, let S := ser (given_back z (collects add sub mul z scale sum dx shift vs flow_step (fun b => a_body (actors b)) (fun _ _ j => j) st (fun _ => None) es) f0 (ser st es)) es2 in
  represents [pz'; py'; px'] [n0'; n1'; n2'] g (if flows es2 then Fs0 else kept) e' (cs_u S) /\ (forall c f, nth_error fs c = Some f -> represents [pz'; py'; px'] [n0'; n1'; n2'] g [f] e' (fun _ => cs_f S (Z.of_nat c))) /\
  forall b c j, (b < nb)%nat -> 0 <= c < 3 -> 0 <= j < v_count (a_body (actors b)) ->
    e' (a_master (actors' b), (gfo (a_arrays (actors' b)), c * v_count (a_body (actors b)) + j)) = fo (cs_st S b) c j.
Proof.
  intros RB X1 X2 X3 Rb. destruct flow_back3 as (u' & U1 & U2 & U3 & U4). destruct Hsv as [S1 S4 S5].
  destruct (RestartProofs.set_ok3 _ _ _ _ _ _ _ _ _ _ _ _ _ _ _ _ _ _ _ _ _ _ _ _ _ _ _ _ _ _ _ _ HS) as (Hok & Hg & Hgl). destruct (RestartProofs.set_ok3 _ _ _ _ _ _ _ _ _ _ _ _ _ _ _ _ _ _ _ _ _ _ _ _ _ _ _ _ _ _ _ _ HS') as (Hok' & _ & Hgl').
  refine (resume_exact add sub mul z fl val scale sum dx shift g Fs0 kept vs fs nb step_ok flow_step
    [pz; py; px] [n0; n1; n2] actors (bufsz n0 n1 n2 g) W [pz'; py'; px'] [n0'; n1'; n2'] actors' (bufsz n0' n1' n2' g) (program pz py px n0 n1 n2 g full xg actors) (program pz' py' px' n0' n1' n2' g full' xg' actors') ord files run_A3 run_B3
    Hg spacing Hok' EN eq_refl Hb HA' _ _ _ _ S5 Hloc Hord ss m0 m st es es2 Ht Ho He Hgh Hmv S1 S4 R0 m1 u' ss1 Hfile U1 U2 U3 U4 X1 X2 mB ssB RB X3 e' Rb).
  - split; intros x Hx; member Hx.
  - intros x Hx. member Hx.
  - intros c Hc. assert (c = 0 \/ c = 1 \/ c = 2) as [-> | [-> | ->]] by (clear -Hc; cbn in Hc; lia); cbn; clear; tauto.
  - assert (HF : match filt with Some (_, order, bw) => (1 <= order)%nat /\ 3 <= bw | None => True end).
    { destruct HS as [_ _ _ _ _ _ _ X]. destruct filt as [[[ft o] bw]|]; [|exact I]. split; [apply X|exact Hbw]. }
    intros f f' u1 u2 s Hs Hf Hu. apply flow3_alike; auto.
    + exact (RestartProofs.arrays15 _ _ _ _ _ _ _ _ _ _ _ _ _ _ _ _ _ _ _ _ _ _ _ _ _ _ _ _ _ _ _ _ HS).
    + exact (RestartProofs.vel3 _ _ _ _ _ _ _ _ _ _ _ _ _ _ _ _ _ _ _ _ _ _ _ _ _ _ _ _ _ _ _ _ HS).
Qed.
Theorem resume3 : legal pz py px n0 n1 n2 actors (es ++ es1) -> ghosts_ok actors false (es ++ es1) -> moves_ok (zprod [pz; py; px]) (cs_map st) (es ++ es1) -> restartable val 3 nb (fun b => a_body (actors b)) es es1 ->
  res mB ssB -> legal pz' py' px' n0' n1' n2' actors' es2 -> ghosts_ok actors' false es2 -> moves_ok (zprod [pz'; py'; px']) (fun b => address (ssB b)) es2 -> Forall2 (same_event (fun s s' => fst s = fst s')) (calls es1) (calls es2) ->
  segs_end (zprod [pz; py; px]) (program pz py px n0 n1 n2 g full xg actors (final_maps [pz; py; px] ss es) es1) m e ->
  segs_end (zprod [pz'; py'; px']) (program pz' py' px' n0' n1' n2' g full' xg' actors' ssB es2) mB e' ->
  agree [pz; py; px] [n0; n1; n2] [pz'; py'; px'] [n0'; n1'; n2'] g [w0; w1; w2; vx; vy; vz; fx; fy; fz] e e' /\ (flows es1 = true -> agree [pz; py; px] [n0; n1; n2] [pz'; py'; px'] [n0'; n1'; n2'] g [w0; w1; w2; p0; p1; p2; vx; vy; vz; fx; fy; fz] e e') /\
  forall b c j, (b < nb)%nat -> meets b es1 = true -> 0 <= c < 3 -> 0 <= j < v_count (a_body (actors b)) ->
    e (a_master (actors b), (gfo (a_arrays (actors b)), c * v_count (a_body (actors b)) + j)) = e' (a_master (actors' b), (gfo (a_arrays (actors' b)), c * v_count (a_body (actors b)) + j)).
Proof.
  intros Y1 Y2 Y3 [_ Y4 Y5 Y6] RB X1 X2 X3 X4 Ra Rb. destruct flow_back3 as (u' & U1 & U2 & U3 & U4). destruct Hsv as [S1 S4 S5].
  destruct (RestartProofs.set_ok3 _ _ _ _ _ _ _ _ _ _ _ _ _ _ _ _ _ _ _ _ _ _ _ _ _ _ _ _ _ _ _ _ HS) as (Hok & Hg & Hgl). destruct (RestartProofs.set_ok3 _ _ _ _ _ _ _ _ _ _ _ _ _ _ _ _ _ _ _ _ _ _ _ _ _ _ _ _ _ _ _ _ HS') as (Hok' & _ & Hgl').
  refine (resume add sub mul z fl val scale sum dx shift g Fs0 kept vs fs nb step_ok (fun s s' : @ns3_step T * race => fst s = fst s') flow_step
    [pz; py; px] [n0; n1; n2] actors (bufsz n0 n1 n2 g) W [pz'; py'; px'] [n0'; n1'; n2'] actors' (bufsz n0' n1' n2' g) (program pz py px n0 n1 n2 g full xg actors) (program pz' py' px' n0' n1' n2' g full' xg' actors') ord files run_A3 run_B3
    _ Hg spacing Hok Hok' EN eq_refl Hb HA' _ _ _ _ _ S5 Hloc Hord ss m0 m st es es1 es2 Ht Ho He Hgh Hmv S1 S4 R0 m1 u' ss1 Hfile U1 U2 U3 U4 X1 X2 mB ssB RB X3 e e' Y1 Y2 Y3 X4 Y6 Y4 Y5 Ra Rb).
  - intros a b c. apply LoopProofs.segs_events.
  - split; intros x Hx; member Hx.
  - intros x Hx. member Hx.
  - intros c Hc. assert (c = 0 \/ c = 1 \/ c = 2) as [-> | [-> | ->]] by (clear -Hc; cbn in Hc; lia); cbn; clear; tauto.
  - intros s s' E f u. now rewrite E.
  - assert (HF : match filt with Some (_, order, bw) => (1 <= order)%nat /\ 3 <= bw | None => True end).
    { destruct HS as [_ _ _ _ _ _ _ X]. destruct filt as [[[ft o] bw]|]; [|exact I]. split; [apply X|exact Hbw]. }
    intros f f' u1 u2 s Hs Hf Hu. apply flow3_alike; auto.
    + exact (RestartProofs.arrays15 _ _ _ _ _ _ _ _ _ _ _ _ _ _ _ _ _ _ _ _ _ _ _ _ _ _ _ _ _ _ _ _ HS).
    + exact (RestartProofs.vel3 _ _ _ _ _ _ _ _ _ _ _ _ _ _ _ _ _ _ _ _ _ _ _ _ _ _ _ _ _ _ _ _ HS).
Qed.
End S.
End Three.
