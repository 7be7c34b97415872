(** Property C55: construction of body-flow interactors, and simulations from their construction on. *)
From Coq Require Import QArith.
From Verif Require Import Base SpecGrid SpecGhostSum SpecStencil SpecStep SpecPenalise SpecFilter SpecDouble SpecLag SpecIB SpecVbf SpecNS SpecBodies SpecCoupled SpecLoop SpecInteractor
  Comm Blocking Spmd Stencil Lagrangian Vbf NavierStokes Coupled SpecTracks Loop Interactor.
From Verif Require PropsNS PropsCoupled PropsLoop KernelProofs CoupledThms LoopProofs InteractorProofs LagProofs IoLagProofs KernelList.
Open Scope Z_scope.

(** *** The constructor *)
Section Init.
Context {T : Type}.
Variables (mul : T -> T -> T) (pow : T -> Z -> T) (lt : T -> T -> bool) (two_dx half_dx : T) (dims loc : list Z) (dx shift : Q) (g : Z).
Notation init := (interactor_init mul pow lt two_dx half_dx dims loc dx shift g).

(** A legal request succeeds on every rank; with assume_data_locality the nodes' positions are not even looked at. *)
Theorem C55_construction_succeeds (q : request T) r :
  (0 < dx)%Q -> grid_ok dims loc -> Z.of_nat (length dims) = 2 \/ Z.of_nat (length dims) = 3 -> request_ok (zprod dims) (Z.of_nat (length dims)) g q ->
  g_local q = true \/ Forall (in_domain dx shift dims loc) (g_nodes q) -> exists x, init q r = Ready x.
Proof. intros. now apply InteractorProofs.init_succeeds. Qed.
(** Whenever it succeeds, every rank, not only the one that knows the body, has the coefficients scaled by the body's spacing, the
    width, the options and the log; and it holds as many nodes as there are nodes in its block (all on the master with
    assume_data_locality). *)
Theorem C55_all_ranks_know_the_body (q : request T) r x :
  (0 < dx)%Q -> grid_ok dims loc -> 0 <= r < zprod dims -> 0 <= g_master q < zprod dims -> g_dim q = Z.of_nat (length dims) -> init q r = Ready x ->
  k_stiff x = v_stiff (body_of mul pow q) /\ k_damp x = v_damp (body_of mul pow q) /\ k_width x = width_of q /\ k_reset x = g_reset q /\ k_local x = g_local q /\ k_auto x = g_auto q /\
  k_log x = advised lt two_dx half_dx q /\
  (g_local q = true -> k_num x = if r =? g_master q then Z.of_nat (length (g_nodes q)) else 0) /\
  (g_local q = false -> Forall (in_domain dx shift dims loc) (g_nodes q) ->
     Forall2 (fun pos s => 0 <= s < zprod dims /\ in_block dx shift dims loc s pos) (g_nodes q) (k_address x) /\ k_num x = node_count (k_address x) r /\ k_total x = Z.of_nat (length (g_nodes q))).
Proof.
  intros Hd HG Hr Hm Ed E. pose proof (InteractorProofs.init_ready mul pow lt two_dx half_dx dims loc dx shift g q r x Hm E) as (E1 & E2 & E3 & E4 & E5 & E6 & E7 & _ & _ & H).
  repeat (split; [assumption|]). split; [intros El; rewrite El in H; tauto|]. intros El Hn. rewrite El in H. destruct H as (H1 & H2 & H3). rewrite Ed in H1.
  destruct (LagProofs.map_in_domain false dims loc dx shift Hd (g_nodes q) HG Hn) as (a & Ea & F). rewrite Ea in H1. injection H1 as EA. subst a.
  split; [clear -F; induction F; constructor; tauto|]. split; auto. rewrite H3. f_equal. clear -F. induction F; cbn; congruence.
Qed.
(** ValueError on every rank exactly for a dimension other than 2 and 3 or a delta function wider than the ghost layer; an MPI
    error on every rank exactly if there is no such master. *)
Theorem C55_value_error_iff (q : request T) r : 0 <= g_master q < zprod dims -> (init q r = RaisesValueError <-> ((g_dim q <> 2 /\ g_dim q <> 3) \/ g < width_of q)).
Proof. apply InteractorProofs.init_value_error. Qed.
Theorem C55_mpi_error_iff (q : request T) r : init q r = RaisesMPIError <-> ~ 0 <= g_master q < zprod dims.
Proof. apply InteractorProofs.init_mpi_error. Qed.
(** The only way ranks end differently: the master raises IndexError, and the others wait for its broadcast for ever. *)
Theorem C55_waits_only_for_a_failed_master (q : request T) r : init q r = Waits -> r <> g_master q /\ init q (g_master q) = RaisesIndexError.
Proof. apply InteractorProofs.init_waits. Qed.
End Init.

(** C55, finding: a body with a node far enough below the domain: the master raises, rank 1 hangs. *)
Definition bad_request : request Z := {| g_stiff := 1; g_damp := 1; g_dim := 2; g_width := None; g_weight := fun _ => 1; g_reset := false; g_local := false; g_auto := true; g_master := 0; g_nodes := [[1; -20 # 1]]%Q; g_spacing := 1 |}.
Theorem C55_all_ranks_end_alike_refuted :
  request_ok 2 2 2 bad_request /\ interactor_init Z.mul Z.pow Z.ltb 2 0 [2; 1] [4; 5] 1 0 2 bad_request 0 = RaisesIndexError /\
  interactor_init Z.mul Z.pow Z.ltb 2 0 [2; 1] [4; 5] 1 0 2 bad_request 1 = Waits.
Proof. split; [repeat split; cbn; lia|]. split; vm_compute; reflexivity. Qed.

(** *** The first state of a simulation *)
(** Simulator arrays fresh (zero) with the flow set to u0 (zero outside the domain), the nb interactors constructed one after the
    other (xs b r: what the constructor left on rank r), their arrays new (numbers from [base] on): the ranks show the simulation
    at rest, whatever was in the memory before. *)
Theorem C55_simulation_starts_at_rest {T : Type} (mul : T -> T -> T) pow lt two_dx half_dx z dims loc dx shift g Fs fs W u0 bufsz (qs : nat -> request T) ord nb base xs m :
  (0 < dx)%Q -> grid_ok dims loc -> Z.of_nat (length dims) = 2 \/ Z.of_nat (length dims) = 3 -> length bufsz = length dims ->
  (forall f P, ~ inb (global_size dims loc) P -> u0 f P = z) ->
  NoDup W -> (forall f, In f W -> (f < base)%nat) -> incl Fs W -> incl fs W -> (forall f, In f Fs -> ~ In f fs) ->
  (forall b a, (b < nb)%nat -> NoDup (ord b a) /\ forall s, In s (ord b a) <-> In s a /\ s <> g_master (qs b)) ->
  (forall b, (b < nb)%nat -> request_ok (zprod dims) (Z.of_nat (length dims)) g (qs b)) ->
  (forall b, (b < nb)%nat -> g_local (qs b) = true \/ Forall (in_domain dx shift dims loc) (g_nodes (qs b))) ->
  (forall b r, (b < nb)%nat -> 0 <= r < zprod dims -> interactor_init mul pow lt two_dx half_dx dims loc dx shift g (qs b) r = Ready (xs b r)) ->
  let actors := fun b => actor_made qs base b (xs b (g_master (qs b))) in let maps := fun b => state_made qs ord b (xs b) in
  let s0 := cold_start z u0 (fun b => address (maps b)) in
  tracks z dims loc g Fs fs nb actors bufsz maps (init_memories z actors nb (start_memory z dims loc g Fs fs u0 m)) s0 /\
  off_edge z dims loc s0 /\ actors_ok dims g nb actors W /\
  forall b, (b < nb)%nat -> a_body (actors b) = body_of mul pow (qs b) /\ a_master (actors b) = g_master (qs b) /\ a_local (actors b) = g_local (qs b) /\ a_auto (actors b) = g_auto (qs b).
Proof.
  intros. split; [eapply InteractorProofs.cold_tracks; eauto|]. split; [intros c P _ _; reflexivity|]. split; [eapply InteractorProofs.cold_actors; eauto|].
  intros b Hb. eapply InteractorProofs.the_body; eauto.
Qed.

(** On every rank all mismatch, force and flow velocity arrays of the interactors, gathered and local, are zero; arrays that
    belong to no interactor are untouched. *)
Theorem C55_arrays_start_at_zero {T : Type} z (actors : nat -> actor T) nb m b r k : (b < nb)%nat ->
  let A := a_arrays (actors b) in
  (forall f, In f [gpm A; gvm A; gfo A; lpm A; lvm A; lfo A; lflow A; lpos A; lvel A] -> init_memories z actors nb m (r, (f, k)) = z) /\
  (forall f, (forall b', (b' < nb)%nat -> ~ In f (all_arrays (a_arrays (actors b')) ++ a_bufs (actors b'))) -> init_memories z actors nb m (r, (f, k)) = m (r, (f, k))).
Proof.
  intros Hb A. split; intros f Hf.
  - eapply InteractorProofs.init_zero; [exact Hb|]. subst A. apply in_app_iff. left. unfold zeroed_arrays, locals. cbn in *. tauto.
  - eapply InteractorProofs.init_same; [exact Hf|reflexivity].
Qed.

(** *** Whole simulations, from the constructors on *)
Section Two.
Context {T C B L W : Type}.
Variables (add sub mul : T -> T -> T) (pow : T -> Z -> T) (lt : T -> T -> bool) (two_dx half_dx z : T) (times0 scale : T -> T) (sum : list T -> T) (dx shift : Q).
Variables (damp : C -> C -> T -> T) (coord : nat -> Z -> C) (width : Z) (conv : (list Z -> T) -> list Z -> T) (Kcx Kcy : @kfun T).
Variables (w psi vx vy fx fy buf D S : nat) (nb base : nat).
Hypothesis add_monoid : comm_monoid add z.
Hypothesis zeroing : forall x, times0 x = z.
Hypothesis spacing : (0 < dx)%Q.
Hypothesis new_arrays : forall f, In f [w; psi; vx; vy; fx; fy; buf; D; S] -> (f < base)%nat.
Variables (rules : nat -> body_rules T B L) (script : list W -> action T (@ns2_step T)) (look : list (list T) -> W) (none : L).
Variables (u0 : nat -> list Z -> T) (bodies0 : nat -> B).
Notation setting py px ny nx g dd xg := (ns2_setting py px ny nx g width dd xg coord w psi vx vy fx fy buf D S Kcx Kcy).
Notation flow_step N := (fun frc u s => serial_ns_2d add z damp coord width conv Kcx Kcy N w psi vx vy fx fy u (with_forcing2 [fx; fy] frc s)).
Notation serially N bodies := (serial_loop 2 N [w; psi; vx; vy] bodies rules script look add sub mul z scale sum dx shift [vx; vy] (flow_step N)).
Notation on_ranks py px ny nx g full dd xg actors ord := (loop_ends add sub mul z scale sum dx shift [py; px] [ny; nx] g [vx; vy] [w; psi; vx; vy] [fx; fy] actors
  (exch_2d py px ny nx g full [vx; vy]) (spread_2 add mul times0 dx shift py px ny nx g [fx; fy])
  (time_step_2d add z damp conv py px ny nx g full dd width xg w psi vx vy fx fy buf D S Kcx Kcy) rules script look none ord (fun _ s => s)).

(** The requests qs are legal on this decomposition, and the constructors have left xs. *)
Record built_2d py px ny nx g (qs : nat -> request T) (ord : nat -> list Z -> list Z) (xs : nat -> Z -> @made T) : Prop := {
  bu_order : forall b a, NoDup (ord b a) /\ forall s, In s (ord b a) <-> In s a /\ s <> g_master (qs b);
  bu_ok : forall b, request_ok (py * px) 2 g (qs b);
  bu_in : forall b, g_local (qs b) = true \/ Forall (in_domain dx shift [py; px] [ny; nx]) (g_nodes (qs b));
  bu_made : forall b r, 0 <= r < py * px -> interactor_init mul pow lt two_dx half_dx [py; px] [ny; nx] dx shift g (qs b) r = Ready (xs b r) }.
Definition actors_2d (qs : nat -> request T) (xs : nat -> Z -> @made T) (b : nat) : actor T := actor_made qs base b (xs b (g_master (qs b))).
Definition first_2d (maps : nat -> list Z) : lstate T B W := {| l_sim := cold_start z u0 maps; l_body := bodies0; l_seen := [] |}.
Definition first_on_ranks_2d py px ny nx g (qs : nat -> request T) ord xs m : @pstate T B W :=
  {| q_mem := init_memories z (actors_2d qs xs) nb (start_memory z [py; px] [ny; nx] g [w; psi; vx; vy] [fx; fy] u0 m); q_maps := fun b => state_made qs ord b (xs b); q_body := fun _ => bodies0; q_seen := [] |}.
(** All calls of the first k steps are legal. *)
Notation legal py px ny nx qs ord xs k := (PropsLoop.legal_2d add sub mul z scale sum dx shift damp coord width conv Kcx Kcy w psi vx vy fx fy nb rules script look
  py px ny nx (actors_2d qs xs) ord k (first_2d (fun b => address (state_made qs ord b (xs b))))).

Lemma bodies_2d py px ny nx g qs ord xs : grid_ok [py; px] [ny; nx] -> built_2d py px ny nx g qs ord xs -> forall b, a_body (actors_2d qs xs b) = body_of mul pow (qs b).
Proof.
  intros G [Ho Hq Hi Hx] b. assert (P : zprod [py; px] = py * px) by (cbn [zprod fold_right]; lia).
  assert (Hq' : forall b, request_ok (zprod [py; px]) (Z.of_nat (length [py; px])) g (qs b)) by (intros; rewrite P; apply Hq).
  assert (Hx' : forall b r, 0 <= r < zprod [py; px] -> interactor_init mul pow lt two_dx half_dx [py; px] [ny; nx] dx shift g (qs b) r = Ready (xs b r)) by (intros b' r; rewrite P; apply Hx).
  exact (proj1 (InteractorProofs.the_body mul pow lt two_dx half_dx [py; px] [ny; nx] dx shift g qs (Datatypes.S b) base xs spacing G (fun b _ => Hq' b) (fun b _ => Hi b) (fun b r _ => Hx' b r) b (Nat.lt_succ_diag_r b))).
Qed.
(** C55 (2D).  From the constructors on, for any script, any number of steps and any schedules: the run ends, in one state, and
    shows the serial loop started at rest with the requested bodies. *)
Theorem C55_from_scratch_2d py px ny nx g full dd xg qs ord xs m k :
  setting py px ny nx g dd xg -> (forall f P, ~ inb (global_size [py; px] [ny; nx]) P -> u0 f P = z) -> built_2d py px ny nx g qs ord xs -> legal py px ny nx qs ord xs k ->
  exists q', on_ranks py px ny nx g full dd xg (actors_2d qs xs) ord k (first_on_ranks_2d py px ny nx g qs ord xs m) q' /\
    (forall q'', on_ranks py px ny nx g full dd xg (actors_2d qs xs) ord k (first_on_ranks_2d py px ny nx g qs ord xs m) q'' -> q'' = q') /\
    forall maps, let x := serially (global_size [py; px] [ny; nx]) (fun b => body_of mul pow (qs b)) k (first_2d maps) in
    PropsLoop.shows_loop_2d z w psi vx vy fx fy nb py px ny nx g (actors_2d qs xs) q' x.
Proof.
  intros HS Hu HB Hl. pose proof HB as [Ho Hq Hi Hx]. pose proof HS as [G Hg _ _ _ _ HD _ _].
  assert (P : zprod [py; px] = py * px) by (cbn [zprod fold_right]; lia).
  destruct (C55_simulation_starts_at_rest mul pow lt two_dx half_dx z [py; px] [ny; nx] dx shift g [w; psi; vx; vy] [fx; fy] [w; psi; vx; vy; fx; fy; buf; D; S] u0
    [[g; nx + 2 * g]; [ny + 2 * g; g]] qs ord nb base xs m) as (Ht & He & Ha & Hb); auto.
  - eapply KernelProofs.g2_ok; eauto.
  - intros f Hf. cbn in *. tauto.
  - intros f Hf. cbn in *. tauto.
  - intros f Hf Hf'. clear -HD Hf Hf'. repeat rewrite NoDup_cons_iff in HD. cbn [In] in *. destruct HD as (D1 & D2 & D3 & D4 & _). intuition congruence.
  - intros b _. rewrite P. apply Hq.
  - intros b r _. rewrite P. apply Hx.
  - assert (EB : forall b, a_body (actors_2d qs xs b) = body_of mul pow (qs b)) by (eapply bodies_2d; eauto; eapply KernelProofs.g2_ok; eauto).
    destruct (PropsLoop.C54_two_way_2d add sub mul z times0 scale sum dx shift damp coord width conv Kcx Kcy w psi vx vy fx fy buf D S nb add_monoid zeroing spacing rules script look none
      py px ny nx g full dd xg (actors_2d qs xs) ord k (first_2d (fun b => address (state_made qs ord b (xs b)))) (first_on_ranks_2d py px ny nx g qs ord xs m) HS Ha Hl Ht He (fun _ _ => eq_refl) eq_refl) as (q' & R & U & (s & S1 & T1) & B1 & N1).
    exists q'. split; [exact R|]. split; [exact U|]. intros maps x.
    destruct (LoopProofs.loop_same add sub mul z scale sum dx shift 2 (global_size [py; px] [ny; nx]) [vx; vy] [w; psi; vx; vy] (fun b => a_body (actors_2d qs xs b)) (fun b => body_of mul pow (qs b)) rules script look
      (flow_step (global_size [py; px] [ny; nx])) EB k (first_2d (fun b => address (state_made qs ord b (xs b)))) (first_2d maps)) as (E1 & E2 & E3); [repeat split|].
    fold x in E1, E2, E3. split; [exists s; split; [unfold same_state in *; intuition congruence|exact T1]|]. split; [intros b Hb'; rewrite (B1 b Hb'); now rewrite E2|congruence].
Qed.
(** C55 (2D).  Two decompositions of one domain, each with its own masters, options, order of ranks and memory before: the script
    sees the same, and ends with the same bodies and the same flow. *)
Theorem C55_from_scratch_same_2d py px ny nx full dd xg qs ord xs m py' px' ny' nx' full' dd' xg' qs' ord' xs' m' g k e e' :
  setting py px ny nx g dd xg -> setting py' px' ny' nx' g dd' xg' -> global_size [py; px] [ny; nx] = global_size [py'; px'] [ny'; nx'] ->
  (forall f P, ~ inb (global_size [py; px] [ny; nx]) P -> u0 f P = z) -> built_2d py px ny nx g qs ord xs -> built_2d py' px' ny' nx' g qs' ord' xs' ->
  (forall b, body_of mul pow (qs b) = body_of mul pow (qs' b)) -> legal py px ny nx qs ord xs k -> legal py' px' ny' nx' qs' ord' xs' k ->
  on_ranks py px ny nx g full dd xg (actors_2d qs xs) ord k (first_on_ranks_2d py px ny nx g qs ord xs m) e ->
  on_ranks py' px' ny' nx' g full' dd' xg' (actors_2d qs' xs') ord' k (first_on_ranks_2d py' px' ny' nx' g qs' ord' xs' m') e' ->
  q_seen e = q_seen e' /\ (forall b, (b < nb)%nat -> q_body e (g_master (qs b)) b = q_body e' (g_master (qs' b)) b) /\
  agree [py; px] [ny; nx] [py'; px'] [ny'; nx'] g [w; psi; vx; vy; fx; fy] (q_mem e) (q_mem e').
Proof.
  intros HS HS' EN Hu Hb Hb' EB Hl Hl' R R'.
  destruct (C55_from_scratch_2d py px ny nx g full dd xg qs ord xs m k HS Hu Hb Hl) as (e1 & _ & U & F).
  destruct (C55_from_scratch_2d py' px' ny' nx' g full' dd' xg' qs' ord' xs' m' k HS' ltac:(now rewrite <- EN) Hb' Hl') as (e2 & _ & U' & F').
  rewrite (U e R), (U' e' R'). specialize (F (fun _ => [])). specialize (F' (fun _ => [])). rewrite <- EN in *. cbv zeta in F, F'. destruct F as ((s1 & S1 & T1) & B1 & N1), F' as ((s2 & S2 & T2) & B2 & N2).
  destruct (LoopProofs.loop_same add sub mul z scale sum dx shift 2 (global_size [py; px] [ny; nx]) [vx; vy] [w; psi; vx; vy] (fun b => body_of mul pow (qs b)) (fun b => body_of mul pow (qs' b)) rules script look
    (flow_step (global_size [py; px] [ny; nx])) EB k (first_2d (fun _ => [])) (first_2d (fun _ => []))) as (E1 & E2 & E3); [repeat split|].
  split; [congruence|]. split; [intros b Hbn; exact (eq_trans (B1 b Hbn) (eq_trans (f_equal (fun f => f b) E2) (eq_sym (B2 b Hbn))))|].
  pose proof HS as [G Hg2 _ _ _ _ _ _ _]. pose proof HS' as [G' _ _ _ _ _ _ _ _].
  assert (EB' : forall b, a_body (actors_2d qs xs b) = a_body (actors_2d qs' xs' b)).
  { intros b. rewrite (bodies_2d _ _ _ _ _ _ _ _ (KernelProofs.g2_ok _ _ _ _ _ G) Hb), EB. symmetry. exact (bodies_2d _ _ _ _ _ _ _ _ (KernelProofs.g2_ok _ _ _ _ _ G') Hb' b). }
  eapply (CoupledThms.tracks_agree z _ _ _ _ g [w; psi; vx; vy] [fx; fy]); try exact T1; try exact T2; auto; try lia; [eapply KernelProofs.g2_ok; eauto|eapply KernelProofs.g2_ok; eauto|].
  unfold same_state in *. intuition congruence.
Qed.
End Two.

Section Three.
Context {T C B L W : Type}.
Variables (add sub mul : T -> T -> T) (pow : T -> Z -> T) (lt : T -> T -> bool) (two_dx half_dx z : T) (times0 scale : T -> T) (sum : list T -> T) (dx shift : Q).
Variables (damp : C -> C -> T -> T) (coord : nat -> Z -> C) (width : Z) (conv : (list Z -> T) -> list Z -> T) (Kcx Kcy Kcz : @kfun T)
          (lap : T -> T -> T -> T) (fsub : T -> T -> T) (filt : option (filter_type * nat * Z)).
Variables (w0 w1 w2 p0 p1 p2 vx vy vz fx fy fz b0 b1 b2 buf D S : nat) (nb base : nat).
Hypothesis add_monoid : comm_monoid add z.
Hypothesis zeroing : forall x, times0 x = z.
Hypothesis spacing : (0 < dx)%Q.
Notation ids := [w0; w1; w2; p0; p1; p2; vx; vy; vz; fx; fy; fz; b0; b1; b2; buf; D; S].
Hypothesis new_arrays : forall f, In f ids -> (f < base)%nat.
Variables (rules : nat -> body_rules T B L) (script : list W -> action T (@ns3_step T)) (look : list (list T) -> W) (none : L).
Variables (u0 : nat -> list Z -> T) (bodies0 : nat -> B).
Notation vs := [vx; vy; vz].
Notation fs := [fx; fy; fz].
Notation Fs0 := [w0; w1; w2; p0; p1; p2; vx; vy; vz].
Notation setting pz py px n0 n1 n2 g xg := (ns3_setting pz py px n0 n1 n2 g width filt xg coord w0 w1 w2 p0 p1 p2 vx vy vz fx fy fz b0 b1 b2 buf D S Kcx Kcy Kcz).
Notation flow_step N := (fun frc u s => serial_ns_3d add z damp coord width conv Kcx Kcy Kcz lap fsub filt N w0 w1 w2 p0 p1 p2 vx vy vz b0 b1 b2 fx fy fz u (with_forcing3 fs frc s)).
Notation time_step pz py px n0 n1 n2 g full xg := (fun sr : @ns3_step T * (Z -> nat -> list Z -> T) => time_step_3d add z damp conv lap fsub filt pz py px n0 n1 n2 g full width xg w0 w1 w2 p0 p1 p2 vx vy vz fx fy fz b0 b1 b2 buf D S Kcx Kcy Kcz (snd sr) (fst sr)).
Notation serially N bodies := (serial_loop 3 N Fs0 bodies rules script look add sub mul z scale sum dx shift vs (flow_step N)).
Notation on_ranks pz py px n0 n1 n2 g full xg actors ord race := (loop_ends add sub mul z scale sum dx shift [pz; py; px] [n0; n1; n2] g vs Fs0 fs actors
  (exch_3d pz py px n0 n1 n2 g full vs) (spread_3 add mul times0 dx shift pz py px n0 n1 n2 g fs) (time_step pz py px n0 n1 n2 g full xg) rules script look none ord (fun h s => (s, race h))).

Record built_3d pz py px n0 n1 n2 g (qs : nat -> request T) (ord : nat -> list Z -> list Z) (xs : nat -> Z -> @made T) : Prop := {
  bu3_order : forall b a, NoDup (ord b a) /\ forall s, In s (ord b a) <-> In s a /\ s <> g_master (qs b);
  bu3_ok : forall b, request_ok (pz * (py * px)) 3 g (qs b);
  bu3_in : forall b, g_local (qs b) = true \/ Forall (in_domain dx shift [pz; py; px] [n0; n1; n2]) (g_nodes (qs b));
  bu3_made : forall b r, 0 <= r < pz * (py * px) -> interactor_init mul pow lt two_dx half_dx [pz; py; px] [n0; n1; n2] dx shift g (qs b) r = Ready (xs b r) }.
Definition actors_3d (qs : nat -> request T) (xs : nat -> Z -> @made T) (b : nat) : actor T := actor_made qs base b (xs b (g_master (qs b))).
Definition first_3d (maps : nat -> list Z) : lstate T B W := {| l_sim := cold_start z u0 maps; l_body := bodies0; l_seen := [] |}.
Definition first_on_ranks_3d pz py px n0 n1 n2 g (qs : nat -> request T) ord xs m : @pstate T B W :=
  {| q_mem := init_memories z (actors_3d qs xs) nb (start_memory z [pz; py; px] [n0; n1; n2] g Fs0 fs u0 m); q_maps := fun b => state_made qs ord b (xs b); q_body := fun _ => bodies0; q_seen := [] |}.
Notation legal pz py px n0 n1 n2 qs ord xs race k := (PropsLoop.legal_3d add sub mul z scale sum dx shift damp coord width conv Kcx Kcy Kcz lap fsub filt w0 w1 w2 p0 p1 p2 vx vy vz fx fy fz b0 b1 b2 nb rules script look
  pz py px n0 n1 n2 (actors_3d qs xs) ord race k (first_3d (fun b => address (state_made qs ord b (xs b))))).
Lemma bodies_3d pz py px n0 n1 n2 g qs ord xs : grid_ok [pz; py; px] [n0; n1; n2] -> built_3d pz py px n0 n1 n2 g qs ord xs -> forall b, a_body (actors_3d qs xs b) = body_of mul pow (qs b).
Proof.
  intros G [Ho Hq Hi Hx] b. assert (P : zprod [pz; py; px] = pz * (py * px)) by (cbn [zprod fold_right]; lia).
  assert (Hq' : forall b, request_ok (zprod [pz; py; px]) (Z.of_nat (length [pz; py; px])) g (qs b)) by (intros; rewrite P; apply Hq).
  assert (Hx' : forall b r, 0 <= r < zprod [pz; py; px] -> interactor_init mul pow lt two_dx half_dx [pz; py; px] [n0; n1; n2] dx shift g (qs b) r = Ready (xs b r)) by (intros b' r; rewrite P; apply Hx).
  exact (proj1 (InteractorProofs.the_body mul pow lt two_dx half_dx [pz; py; px] [n0; n1; n2] dx shift g qs (Datatypes.S b) base xs spacing G (fun b _ => Hq' b) (fun b _ => Hi b) (fun b r _ => Hx' b r) b (Nat.lt_succ_diag_r b))).
Qed.

(** C55 (3D).  As in 2D, if the ghost exchange serves corners where two axes are split. *)
Theorem C55_from_scratch_3d pz py px n0 n1 n2 g full xg qs ord race xs m k :
  setting pz py px n0 n1 n2 g xg -> full = true \/ at_most_one_split [pz; py; px] -> (forall f P, ~ inb (global_size [pz; py; px] [n0; n1; n2]) P -> u0 f P = z) ->
  built_3d pz py px n0 n1 n2 g qs ord xs -> legal pz py px n0 n1 n2 qs ord xs race k ->
  exists q', on_ranks pz py px n0 n1 n2 g full xg (actors_3d qs xs) ord race k (first_on_ranks_3d pz py px n0 n1 n2 g qs ord xs m) q' /\
    (forall q'', on_ranks pz py px n0 n1 n2 g full xg (actors_3d qs xs) ord race k (first_on_ranks_3d pz py px n0 n1 n2 g qs ord xs m) q'' -> q'' = q') /\
    forall maps, let x := serially (global_size [pz; py; px] [n0; n1; n2]) (fun b => body_of mul pow (qs b)) k (first_3d maps) in
    PropsLoop.shows_loop_3d z w0 w1 w2 p0 p1 p2 vx vy vz fx fy fz nb pz py px n0 n1 n2 g (actors_3d qs xs) q' x.
Proof.
  intros HS Hc Hu HB Hl. pose proof HB as [Ho Hq Hi Hx]. pose proof HS as [G _ _ _ _ HD _ _].
  assert (P : zprod [pz; py; px] = pz * (py * px)) by (cbn [zprod fold_right]; lia).
  destruct (C55_simulation_starts_at_rest mul pow lt two_dx half_dx z [pz; py; px] [n0; n1; n2] dx shift g Fs0 fs ids u0
    [[g; n1 + 2 * g; n2 + 2 * g]; [n0 + 2 * g; g; n2 + 2 * g]; [n0 + 2 * g; n1 + 2 * g; g]] qs ord nb base xs m) as (Ht & He & Ha & Hb); auto.
  - eapply KernelProofs.g3_ok; eauto.
  - intros f Hf. cbn in *. tauto.
  - intros f Hf. cbn in *. tauto.
  - intros f Hf Hf'. apply (proj2 (proj2 (IoLagProofs.NoDup_app_split Fs0 (fs ++ [b0; b1; b2; buf; D; S]) HD))) in Hf. apply Hf. apply in_app_iff. auto.
  - intros b _. rewrite P. apply Hq.
  - intros b r _. rewrite P. apply Hx.
  - assert (EB : forall b, a_body (actors_3d qs xs b) = body_of mul pow (qs b)) by (eapply bodies_3d; eauto; eapply KernelProofs.g3_ok; eauto).
    destruct (PropsLoop.C54_two_way_3d add sub mul z times0 scale sum dx shift damp coord width conv Kcx Kcy Kcz lap fsub filt w0 w1 w2 p0 p1 p2 vx vy vz fx fy fz b0 b1 b2 buf D S nb add_monoid zeroing spacing rules script look none
      pz py px n0 n1 n2 g full xg (actors_3d qs xs) ord race k (first_3d (fun b => address (state_made qs ord b (xs b)))) (first_on_ranks_3d pz py px n0 n1 n2 g qs ord xs m) HS Ha Hc Hl Ht He (fun _ _ => eq_refl) eq_refl) as (q' & R & U & (s & S1 & T1) & B1 & N1).
    exists q'. split; [exact R|]. split; [exact U|]. intros maps x.
    destruct (LoopProofs.loop_same add sub mul z scale sum dx shift 3 (global_size [pz; py; px] [n0; n1; n2]) vs Fs0 (fun b => a_body (actors_3d qs xs b)) (fun b => body_of mul pow (qs b)) rules script look
      (flow_step (global_size [pz; py; px] [n0; n1; n2])) EB k (first_3d (fun b => address (state_made qs ord b (xs b)))) (first_3d maps)) as (E1 & E2 & E3); [repeat split|].
    fold x in E1, E2, E3. split; [exists s; split; [unfold same_state in *; intuition congruence|exact T1]|]. split; [intros b Hb'; rewrite (B1 b Hb'); now rewrite E2|congruence].
Qed.
Theorem C55_from_scratch_same_3d pz py px n0 n1 n2 full xg qs ord race xs m pz' py' px' n0' n1' n2' full' xg' qs' ord' race' xs' m' g k e e' :
  setting pz py px n0 n1 n2 g xg -> setting pz' py' px' n0' n1' n2' g xg' -> global_size [pz; py; px] [n0; n1; n2] = global_size [pz'; py'; px'] [n0'; n1'; n2'] ->
  full = true \/ at_most_one_split [pz; py; px] -> full' = true \/ at_most_one_split [pz'; py'; px'] ->
  (forall f P, ~ inb (global_size [pz; py; px] [n0; n1; n2]) P -> u0 f P = z) -> built_3d pz py px n0 n1 n2 g qs ord xs -> built_3d pz' py' px' n0' n1' n2' g qs' ord' xs' ->
  (forall b, body_of mul pow (qs b) = body_of mul pow (qs' b)) -> legal pz py px n0 n1 n2 qs ord xs race k -> legal pz' py' px' n0' n1' n2' qs' ord' xs' race' k ->
  on_ranks pz py px n0 n1 n2 g full xg (actors_3d qs xs) ord race k (first_on_ranks_3d pz py px n0 n1 n2 g qs ord xs m) e ->
  on_ranks pz' py' px' n0' n1' n2' g full' xg' (actors_3d qs' xs') ord' race' k (first_on_ranks_3d pz' py' px' n0' n1' n2' g qs' ord' xs' m') e' ->
  q_seen e = q_seen e' /\ (forall b, (b < nb)%nat -> q_body e (g_master (qs b)) b = q_body e' (g_master (qs' b)) b) /\
  agree [pz; py; px] [n0; n1; n2] [pz'; py'; px'] [n0'; n1'; n2'] g (Fs0 ++ fs) (q_mem e) (q_mem e').
Proof.
  intros HS HS' EN Hc Hc' Hu Hb Hb' EB Hl Hl' R R'.
  destruct (C55_from_scratch_3d pz py px n0 n1 n2 g full xg qs ord race xs m k HS Hc Hu Hb Hl) as (e1 & _ & U & F).
  destruct (C55_from_scratch_3d pz' py' px' n0' n1' n2' g full' xg' qs' ord' race' xs' m' k HS' Hc' ltac:(now rewrite <- EN) Hb' Hl') as (e2 & _ & U' & F').
  rewrite (U e R), (U' e' R'). specialize (F (fun _ => [])). specialize (F' (fun _ => [])). rewrite <- EN in *. cbv zeta in F, F'. destruct F as ((s1 & S1 & T1) & B1 & N1), F' as ((s2 & S2 & T2) & B2 & N2).
  destruct (LoopProofs.loop_same add sub mul z scale sum dx shift 3 (global_size [pz; py; px] [n0; n1; n2]) vs Fs0 (fun b => body_of mul pow (qs b)) (fun b => body_of mul pow (qs' b)) rules script look
    (flow_step (global_size [pz; py; px] [n0; n1; n2])) EB k (first_3d (fun _ => [])) (first_3d (fun _ => []))) as (E1 & E2 & E3); [repeat split|].
  split; [congruence|]. split; [intros b Hbn; exact (eq_trans (B1 b Hbn) (eq_trans (f_equal (fun f => f b) E2) (eq_sym (B2 b Hbn))))|].
  pose proof HS as [G _ _ _ _ _ _ _]. pose proof HS' as [G' _ _ _ _ _ _ _].
  assert (EB' : forall b, a_body (actors_3d qs xs b) = a_body (actors_3d qs' xs' b)).
  { intros b. rewrite (bodies_3d _ _ _ _ _ _ _ _ _ _ (KernelProofs.g3_ok _ _ _ _ _ _ _ G) Hb), EB. symmetry. exact (bodies_3d _ _ _ _ _ _ _ _ _ _ (KernelProofs.g3_ok _ _ _ _ _ _ _ G') Hb' b). }
  eapply (CoupledThms.tracks_agree z _ _ _ _ g Fs0 fs); try exact T1; try exact T2; auto; try (unfold KernelList.grid3 in G; lia); [eapply KernelProofs.g3_ok; eauto|eapply KernelProofs.g3_ok; eauto|].
  unfold same_state in *. intuition congruence.
Qed.
End Three.

(** *** A case: the two bodies and the script of PropsLoop on 2 x 1 ranks, constructed with spacing 2. *)
Definition ix_request (b : nat) : request Z :=
  match b with
  | O => {| g_stiff := 3; g_damp := 2; g_dim := 2; g_width := Some 1; g_weight := fun _ => 1; g_reset := true; g_local := false; g_auto := true; g_master := 0; g_nodes := p_nodes PropsCoupled.ex_pose0; g_spacing := 2 |}
  | _ => {| g_stiff := 1; g_damp := 1; g_dim := 2; g_width := Some 1; g_weight := v_weight (a_body (PropsCoupled.ex_actor 1)); g_reset := false; g_local := false; g_auto := true; g_master := 1; g_nodes := p_nodes PropsCoupled.ex_poseb; g_spacing := 2 |}
  end.
Definition set_order (qs : nat -> request Z) (b : nat) (a : list Z) : list Z := filter (fun s => negb (s =? g_master (qs b))) (nodup Z.eq_dec a).
Lemma set_order_ok qs b a : NoDup (set_order qs b a) /\ forall s, In s (set_order qs b a) <-> In s a /\ s <> g_master (qs b).
Proof. unfold set_order. split; [apply NoDup_filter, NoDup_nodup|]. intros s. rewrite filter_In, nodup_In, negb_true_iff, Z.eqb_neq. tauto. Qed.
Definition none_made : @made Z := {| k_stiff := 0; k_damp := 0; k_width := 0; k_num := 0; k_total := 0; k_address := []; k_reset := false; k_local := false; k_auto := false; k_log := [] |}.
Definition ix_made (b : nat) (r : Z) : @made Z := match interactor_init Z.mul Z.pow Z.ltb 2 0 [2; 1] [4; 5] 1 0 2 (ix_request b) r with Ready x => x | _ => none_made end.
Ltac qle := unfold Qle, Qlt; cbn; lia.
Lemma ix_in b : Forall (in_domain 1 0 [2; 1] [4; 5]) (g_nodes (ix_request b)).
Proof. destruct b; repeat constructor; qle. Qed.
Lemma ix_built : built_2d Z.mul Z.pow Z.ltb 2 0 1 0 2 1 4 5 2 ix_request (set_order ix_request) ix_made.
Proof.
  assert (Q : forall b, request_ok 2 2 2 (ix_request b)) by (intros [|b]; repeat split; cbn; lia).
  split; auto using set_order_ok, ix_in. intros b r _. unfold ix_made.
  assert (G : grid_ok [2; 1] [4; 5]) by (split; [reflexivity|unfold positive; repeat (apply Forall_cons; [lia|]); apply Forall_nil|unfold positive; repeat (apply Forall_cons; [lia|]); apply Forall_nil]).
  destruct (C55_construction_succeeds Z.mul Z.pow Z.ltb 2 0 [2; 1] [4; 5] 1 0 2 (ix_request b) r ltac:(qle) G (or_introl eq_refl) (Q b) (or_intror (ix_in b))) as [x ->]. reflexivity.
Qed.
Definition ix_calls : list (event Z (@ns2_step Z)) :=
  placed_calls Z.add Z.sub Z.mul 0 (fun x => x) (fold_right Z.add 0) 1 0 [2; 1] [4; 5] [2; 3]%nat [0; 1; 2; 3]%nat [4; 5]%nat (actors_2d 9 ix_request ix_made) PropsLoop.lx_rules PropsLoop.lx_script PropsLoop.lx_look (set_order ix_request) (fun _ s => s) PropsLoop.lx_flow 7
    (first_2d 0 (fun _ _ => 0) (fun _ => (false, [])) (fun b => address (state_made ix_request (set_order ix_request) b (ix_made b)))).
Lemma ix_calls_eq : ix_calls = PropsLoop.lx_calls.
Proof. vm_compute. reflexivity. Qed.
Lemma pose_as {T} dims loc dx shift master (B B' : vbody T) p : v_width B = v_width B' -> v_count B = v_count B' -> pose_ok dims loc dx shift master B p -> pose_ok dims loc dx shift master B' p.
Proof. intros E1 E2 [a b c d e]. split; rewrite <- ?E1, <- ?E2; auto. Qed.
Example C55_nonvacuous :
  built_2d Z.mul Z.pow Z.ltb 2 0 1 0 2 1 4 5 2 ix_request (set_order ix_request) ix_made /\
  PropsLoop.legal_2d Z.add Z.sub Z.mul 0 (fun x => x) (fold_right Z.add 0) 1 0 (fun _ _ : Z => fun v => v) (fun _ i => i) 2 (fun v => v) PropsNS.e_cx PropsNS.e_cy 0 1 2 3 4 5 2 PropsLoop.lx_rules PropsLoop.lx_script PropsLoop.lx_look
    2 1 4 5 (actors_2d 9 ix_request ix_made) (set_order ix_request) 7 (first_2d 0 (fun _ _ => 0) (fun _ => (false, [])) (fun b => address (state_made ix_request (set_order ix_request) b (ix_made b)))) /\
  k_stiff (ix_made 0 1) = 6 /\ k_num (ix_made 0 1) = 1 /\ k_log (ix_made 1 0) = [SameResolution].
Proof.
  split; [exact ix_built|]. split; [|vm_compute; repeat split].
  destruct PropsLoop.C54_nonvacuous as ((HE & HG & HM) & _). unfold PropsLoop.legal_2d in *. cbv zeta in *.
  change (placed_calls _ _ _ _ _ _ _ _ _ _ _ _ _ PropsCoupled.ex_actor _ _ _ _ _ _ _ _) with PropsLoop.lx_calls in HE, HG, HM.
  change (placed_calls _ _ _ _ _ _ _ _ _ _ _ _ _ _ _ _ _ _ _ _ _ _) with ix_calls. rewrite ix_calls_eq. rewrite PropsLoop.lx_calls_eq in *. split; [|split].
  - apply Forall_cons_iff in HE as [E1 HE]. apply Forall_cons_iff in HE as [E2 HE]. apply Forall_cons_iff in HE as [E3 HE]. apply Forall_cons_iff in HE as [E4 HE]. apply Forall_cons_iff in HE as [E5 HE]. apply Forall_cons_iff in HE as [E6 _].
    cbn [event_ok] in *.
    repeat (apply Forall_cons; [cbn [event_ok]; first [assumption | (split; [lia|split; [eapply pose_as; [| |apply E1 || apply E2 || apply E3]; vm_compute; reflexivity|intros H; vm_compute in H; discriminate H]])]|]). apply Forall_nil.
  - cbn; tauto.
  - exact HM.
Qed.
Print Assumptions C55_construction_succeeds.
Print Assumptions C55_all_ranks_know_the_body.
Print Assumptions C55_value_error_iff.
Print Assumptions C55_mpi_error_iff.
Print Assumptions C55_waits_only_for_a_failed_master.
Print Assumptions C55_all_ranks_end_alike_refuted.
Print Assumptions C55_simulation_starts_at_rest.
Print Assumptions C55_arrays_start_at_zero.
Print Assumptions C55_from_scratch_2d.
Print Assumptions C55_from_scratch_same_2d.
Print Assumptions C55_from_scratch_3d.
Print Assumptions C55_from_scratch_same_3d.
