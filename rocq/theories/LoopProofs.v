(** The closed loop follows the serial one: proof for any dimension, from the theorem on coupled runs. *)
From Coq Require Import QArith FunctionalExtensionality.
From Verif Require Import Base SpecGrid SpecGhost SpecStep SpecVbf SpecCoupled SpecBodies SpecLoop Comm Blocking Spmd Lagrangian Vbf Coupled SpecTracks Loop.
From Verif Require Import GhostGeo HaloKernels NSSteps IoEulProofs CoupledProofs CoupledThms.
Open Scope Z_scope.
Arguments run_lops : simpl never.

Section Lists.
Context {T F : Type}.
Lemma segs_split n (l k : list (@segment T)) m m2 : segs_end n (l ++ k) m m2 -> exists m1, segs_end n l m m1 /\ segs_end n k m1 m2.
Proof.
  revert m. induction l as [|s l IH]; cbn [app]; intros m H; [exists m; split; [constructor|exact H]|].
  inversion H as [| ps l' ? m1 ? E H' | prog l' ? m1 ? R H']; subst; destruct (IH _ H') as (m' & A & B); exists m'; (split; [econstructor; eauto|exact B]).
Qed.
Variables (dims : list Z) (actors : nat -> actor T).
Lemma maps_app ss (a b : list (event T F)) : final_maps dims ss (a ++ b) = final_maps dims (final_maps dims ss a) b.
Proof. unfold final_maps. apply fold_left_app. Qed.
Lemma ghosts_app (b : list (event T F)) a : forall fr, ghosts_ok actors fr (a ++ b) -> ghosts_ok actors fr a.
Proof. induction a as [|e a IH]; intros fr; cbn [app ghosts_ok]; [easy|]. intros [A B]. split; [exact A|now apply IH]. Qed.
Lemma moves_app n (b : list (event T F)) a : forall x, moves_ok n x (a ++ b) -> moves_ok n x a.
Proof. induction a as [|e a IH]; intros x; cbn [app moves_ok]; [easy|]. destruct e; try (intros [A B]; split; [exact A|now apply IH]); apply IH. Qed.
End Lists.

Lemma positive_gs dims loc : grid_ok dims loc -> positive (global_size dims loc).
Proof.
  intros [Hl Hd Hp]. unfold global_size. revert loc Hl Hp. induction Hd as [|d dims H _ IH]; intros [|l loc] Hl Hp; cbn in *; try discriminate; [constructor|].
  inversion Hp as [|? ? H1 H2]; subst. constructor; [nia|apply IH; auto].
Qed.

Section G.
Context {T F F' B L W : Type}.
Variables (add sub mul : T -> T -> T) (z : T) (scale : T -> T) (sum : list T -> T) (dx shift : Q).
Variables (dims loc : list Z) (g : Z) (vels Fs fs : list nat) (nb : nat) (actors : nat -> actor T) (bufsz : list (list Z)).
Variable exch : list (place * place).
Variable spread : actor T -> pose T -> Z -> list (@bop T).
Variable flow : F' -> list (@phase T).
Variable rules : nat -> body_rules T B L.
Variables (script : list W -> action T F) (look : list (list T) -> W) (none : L).
Variables (ord : nat -> list Z -> list Z) (lift : list W -> F -> F').
Variable flow_step : (Z -> list Z -> T) -> (nat -> list Z -> T) -> F -> nat -> list Z -> T.
Variable flow_step' : (Z -> list Z -> T) -> (nat -> list Z -> T) -> F' -> nat -> list Z -> T.
Variable flow_ok : F' -> Prop.
Hypothesis Hlift : forall h s f u, flow_step f u s = flow_step' f u (lift h s).
Hypothesis Hok : grid_ok dims loc.
Hypothesis Hg : 1 <= g.
Notation n := (zprod dims).
Notation nc := (Z.of_nat (length fs)).
Notation bodies := (fun b => a_body (actors b)).
Notation segs := (coupled_segs add sub mul z scale sum dx shift dims loc g vels fs actors exch spread flow).
Notation serial' := (serial_coupled add sub mul z scale sum dx shift vels flow_step' bodies (fun _ _ j => j)).
Notation sloop := (serial_loop nc (global_size dims loc) Fs bodies rules script look add sub mul z scale sum dx shift vels flow_step).
Notation pcalls := (placed_calls add sub mul z scale sum dx shift dims loc vels Fs fs actors rules script look ord lift flow_step).
Notation ploop := (loop_ends add sub mul z scale sum dx shift dims loc g vels Fs fs actors exch spread flow rules script look none ord lift).
Notation sees := (tracks z dims loc g Fs fs nb actors bufsz).
Lemma segs_events a b : forall s, segs s (a ++ b) = segs s a ++ segs (final_maps dims s a) b.
Proof. induction a as [|e a IH]; intros s; [reflexivity|]. cbn [app coupled_segs]. now rewrite IH, app_assoc. Qed.
Definition legal (st : cstate T) (es : list (event T F')) : Prop :=
  Forall (event_ok dims loc nb actors dx shift flow_ok) es /\ ghosts_ok actors false es /\ moves_ok n (cs_map st) es.
Variables (ss : nat -> vb) (m : mem T) (st : cstate T).
Hypothesis Hrun : forall es, legal st es -> exists m', segs_end n (segs ss es) m m' /\ sees (final_maps dims ss es) m' (serial' st es).

Lemma legal_app es es' : legal st (es ++ es') -> legal st es.
Proof. intros (A & C & D). apply Forall_app in A as [A _]. split; [exact A|]. split; [eapply ghosts_app; eauto|eapply moves_app; eauto]. Qed.

(** What the ranks see together is the serial flow. *)
Lemma assembled_at s' mm x f P : sees s' mm x -> In f Fs -> inb (global_size dims loc) P -> assembled z dims loc g mm f P = cs_u x f P.
Proof.
  intros Ht Hf HP. destruct (tile_at dims loc P Hok HP) as (r & y & Hr & Hy & ->). unfold assembled. rewrite (owner_at dims loc r y Hok Hr Hy).
  pose proof (tr_flow _ _ _ _ _ _ _ _ _ _ _ _ Ht r f (map (fun i => i + g) y) Hr Hf) as E. rewrite sub_pos in E. apply E; [apply inner_inb; [lia|]|left]; now apply add_inner.
Qed.
Lemma look_same s' mm x : sees s' mm x -> whole (global_size dims loc) Fs (assembled z dims loc g mm) = whole (global_size dims loc) Fs (cs_u x).
Proof.
  intros Ht. unfold whole. apply map_ext_in. intros f Hf. apply map_ext_in. intros P HP. apply (assembled_at s' mm x); auto.
  unfold positions in HP. apply in_map_iff in HP as (k & <- & Hk). apply zrange_In in Hk. apply unravel_inb; [now apply positive_gs|lia].
Qed.
Lemma forces_same s' mm x b : sees s' mm x -> (b < nb)%nat ->
  gathered_forces fs actors mm (a_master (actors b)) b = listed nc (v_count (a_body (actors b))) (fo (cs_st x b)).
Proof.
  intros Ht Hb. destruct (tr_node _ _ _ _ _ _ _ _ _ _ _ _ Ht b Hb) as [_ H]. unfold gathered_forces, listed. rewrite !flat_map_concat_map. f_equal. apply map_ext_in. intros c Hc. apply map_ext_in. intros j Hj.
  apply zrange_In in Hc, Hj. apply H; lia.
Qed.
Lemma call_same o h x x' :
  (forall b, (b < nb)%nat -> x b = x' b) -> Forall (event_ok dims loc nb actors dx shift flow_ok) (map (placed_event dx shift dims loc ord lift h) (call_of rules o x')) ->
  call_of rules o x = call_of rules o x'.
Proof.
  intros Hx He. destruct o as [b|b|b dt|b dt|s|]; cbn [call_of] in *; auto; inversion He as [|? ? H1 _]; subst; cbn [placed_event event_ok] in H1; now rewrite (Hx b) by tauto.
Qed.
Lemma moved_same (o : action T F) load load' x x' b : x b = x' b -> load b = load' b -> moved rules o load x b = moved rules o load' x' b.
Proof. intros Hx Hl. destruct o; cbn [moved]; auto; unfold set_at; destruct (Nat.eqb_spec b b0) as [-> |]; congruence. Qed.
Lemma placed_same b p : p_nodes (placed dx shift dims loc ord b p : pose T) = p_nodes p /\ p_vel (placed dx shift dims loc ord b p) = p_vel p.
Proof. unfold placed. destruct (map_nodes _ _ _ _ _ _ _); auto. Qed.
Lemma events_same h (es : list (event T F)) : Forall2 (same_event (fun s s' => s' = lift h s)) es (map (placed_event dx shift dims loc ord lift h) es).
Proof. induction es as [|e es IH]; [constructor|]. cbn [map]. constructor; [|exact IH]. destruct e; cbn [placed_event]; constructor; try (symmetry; apply placed_same); reflexivity. Qed.

Theorem loop_ok k x q : l_sim x = st -> q_mem q = m -> q_maps q = ss -> q_seen q = l_seen x -> (forall b, (b < nb)%nat -> q_body q (a_master (actors b)) b = l_body x b) ->
  legal st (pcalls k x) ->
  exists y, ploop k q y /\ q_maps y = final_maps dims ss (pcalls k x) /\ segs_end n (segs ss (pcalls k x)) m (q_mem y) /\ q_seen y = l_seen (sloop k x) /\
    (forall b, (b < nb)%nat -> q_body y (a_master (actors b)) b = l_body (sloop k x) b) /\ same_state (l_sim (sloop k x)) (serial' st (pcalls k x)).
Proof.
  intros Ex Em Es Eseen Eb. induction k as [|k IH]; intros Hl.
  - exists q. cbn [placed_calls serial_loop coupled_segs]. rewrite Em, Es, Ex. repeat split; auto; try constructor.
  - cbn [placed_calls] in Hl. destruct (IH (legal_app _ _ Hl)) as (y & R & Ey & Sy & Ny & By & Ss). set (X := sloop k x) in *.
    destruct (Hrun _ Hl) as (m1 & S1 & T1). rewrite segs_events in S1. apply segs_split in S1 as (m0 & S0 & S1). pose proof (segs_det _ _ _ _ _ S0 Sy) as ->.
    assert (Eh : here dx shift dims loc actors rules script ord lift y = map (placed_event dx shift dims loc ord lift (l_seen X)) (call_of rules (script (l_seen X)) (l_body X))).
    { unfold here, next_op. rewrite Ny. f_equal. apply (call_same _ (l_seen X)); [exact By|]. destruct Hl as (Hl & _). apply Forall_app in Hl as [_ Hl]. exact Hl. }
    assert (Ssim : same_state (l_sim (sloop (S k) x)) (serial' st (pcalls (S k) x))).
    { cbn [placed_calls serial_loop serial_loop1 l_sim]. fold X. unfold serial_coupled. rewrite fold_left_app. fold X.
      apply (serial_same add sub mul z scale sum dx shift vels flow_step flow_step' bodies bodies (fun s s' => s' = lift (l_seen X) s)); auto; [intros s s' ->; apply Hlift|apply events_same]. }
    pose proof Ssim as (E1 & E2 & E3).
    exists (step_to z dx shift dims loc g Fs fs actors rules script look none ord lift y m1).
    split; [econstructor; [exact R|unfold step_segs; rewrite Eh, Ey; exact S1]|].
    split; [cbn [step_to q_maps]; rewrite Eh, Ey; cbn [placed_calls]; now rewrite maps_app|].
    split; [cbn [step_to q_mem placed_calls]; rewrite segs_events; eapply segs_app; eauto|].
    split; [cbn [step_to q_seen serial_loop serial_loop1 l_seen]; fold X; rewrite Ny; do 2 f_equal; rewrite (look_same _ _ _ T1); exact (f_equal (fun u => look (whole (global_size dims loc) Fs u)) (eq_sym E1))|].
    split; [|exact Ssim].
    intros b Hb. cbn [step_to q_body serial_loop serial_loop1 l_body]. fold X. unfold next_op. rewrite Ny. apply moved_same; [now apply By|]. rewrite Z.eqb_refl, (forces_same _ _ _ _ T1 Hb), (By b Hb).
    exact (f_equal (fun t => b_loads (rules b) (l_body X b) (listed nc (v_count (a_body (actors b))) (fo (t b)))) (eq_sym E3)).
Qed.
Theorem loop_tracks k x q : l_sim x = st -> q_mem q = m -> q_maps q = ss -> q_seen q = l_seen x -> (forall b, (b < nb)%nat -> q_body q (a_master (actors b)) b = l_body x b) ->
  legal st (pcalls k x) ->
  exists y, ploop k q y /\ q_seen y = l_seen (sloop k x) /\ (forall b, (b < nb)%nat -> q_body y (a_master (actors b)) b = l_body (sloop k x) b) /\
    exists s, same_state (l_sim (sloop k x)) s /\ sees (q_maps y) (q_mem y) s.
Proof.
  intros Ex Em Es Eseen Eb Hl. destruct (loop_ok k x q Ex Em Es Eseen Eb Hl) as (y & R & Ey & Sy & Ny & By & Ss). exists y. repeat (split; [assumption|]).
  exists (serial' st (pcalls k x)). split; [exact Ss|]. destruct (Hrun _ Hl) as (m1 & S1 & T1). rewrite Ey, <- (segs_det _ _ _ _ _ S1 Sy). exact T1.
Qed.
(** The run is determined. *)
Lemma loop_det k q y y' : ploop k q y -> ploop k q y' -> y = y'.
Proof.
  intros H. revert y'. induction H as [q|k q y m1 R IH S1]; intros y' H'; inversion H' as [|k0 q0 y0 m1' R' S1' E1 E2]; subst; auto. apply IH in R' as <-. now rewrite (segs_det _ _ _ _ _ S1 S1').
Qed.
(** A copy off the master never gets a load. *)
Lemma copies_alone k q y r b : ploop k q y -> r <> a_master (actors b) ->
  q_body y r b = fold_left (unloaded rules none b) (map (fun i => script (firstn (length (q_seen q) + i) (q_seen y))) (seq 0 k)) (q_body q r b) /\ length (q_seen y) = (length (q_seen q) + k)%nat /\ firstn (length (q_seen q)) (q_seen y) = q_seen q.
Proof.
  intros H Hr. induction H as [q|k q y m1 R IH S1].
  - cbn. rewrite firstn_all. repeat split; lia.
  - destruct (IH) as (E & El & Ef). rewrite seq_S, map_app, fold_left_app. cbn [step_to q_body q_seen map fold_left]. rewrite app_length. cbn [length]. split; [|split; [lia|]].
    + rewrite firstn_app, firstn_all2 by lia. replace (length (q_seen q) + (0 + k) - length (q_seen y))%nat with 0%nat by lia. cbn [firstn]. rewrite app_nil_r.
      replace (map (fun i => script (firstn (length (q_seen q) + i) (q_seen y ++ [look (whole (global_size dims loc) Fs (assembled z dims loc g m1))]))) (seq 0 k)) with
        (map (fun i => script (firstn (length (q_seen q) + i) (q_seen y))) (seq 0 k)).
      2:{ apply map_ext_in. intros i Hi. apply in_seq in Hi. f_equal. rewrite firstn_app. replace (length (q_seen q) + i - length (q_seen y))%nat with 0%nat by lia. cbn [firstn]. now rewrite app_nil_r. }
      rewrite <- E. unfold next_op. destruct (script (q_seen y)) as [b0|b0|b0 dt|b0 dt|s|]; cbn [moved unloaded]; auto; unfold set_at; rewrite (Nat.eqb_sym b b0); destruct (Nat.eqb_spec b0 b) as [-> |]; auto.
      destruct (Z.eqb_spec r (a_master (actors b))); [contradiction|reflexivity].
    + rewrite firstn_app, Ef. replace (length (q_seen q) - length (q_seen y))%nat with 0%nat by lia. cbn [firstn]. now rewrite app_nil_r.
Qed.
End G.

Section Same.
Context {T F B L W : Type}.
Variables (add sub mul : T -> T -> T) (z : T) (scale : T -> T) (sum : list T -> T) (dx shift : Q) (nc : Z) (N : list Z) (vels Fs : list nat).
Variables (bodies bodies' : nat -> vbody T) (rules : nat -> body_rules T B L) (script : list W -> action T F) (look : list (list T) -> W).
Variable flow_step : (Z -> list Z -> T) -> (nat -> list Z -> T) -> F -> nat -> list Z -> T.
Hypothesis Hb : forall b, bodies b = bodies' b.
Notation sloop bodies := (serial_loop nc N Fs bodies rules script look add sub mul z scale sum dx shift vels flow_step).
Definition same_loop (x x' : lstate T B W) : Prop := same_state (l_sim x) (l_sim x') /\ l_body x = l_body x' /\ l_seen x = l_seen x'.
Lemma self_same (es : list (event T F)) : Forall2 (same_event eq) es es.
Proof. induction es as [|e es IH]; constructor; auto. destruct e; constructor; reflexivity. Qed.
Lemma loop_same k x x' : same_loop x x' -> same_loop (sloop bodies k x) (sloop bodies' k x').
Proof.
  intros H. induction k as [|k IH]; [exact H|]. cbn [serial_loop]. set (X := sloop bodies k x) in *. set (X' := sloop bodies' k x') in *. destruct IH as (E1 & E2 & E3).
  unfold serial_loop1. rewrite <- E2, <- E3.
  assert (S1 : same_state (serial_coupled add sub mul z scale sum dx shift vels flow_step bodies (fun _ _ j => j) (l_sim X) (call_of rules (script (l_seen X)) (l_body X)))
                          (serial_coupled add sub mul z scale sum dx shift vels flow_step bodies' (fun _ _ j => j) (l_sim X') (call_of rules (script (l_seen X)) (l_body X)))).
  { apply (serial_same add sub mul z scale sum dx shift vels flow_step flow_step bodies bodies' eq); auto using self_same. now intros s s' ->. }
  destruct S1 as (A1 & A2 & A3). repeat split; cbn [l_sim l_body l_seen]; auto.
  - f_equal. extensionality b. now rewrite A3, Hb.
  - now rewrite A1.
Qed.
End Same.
