(** The 2D Navier-Stokes time step. *)
From Verif Require Import Base SpecGrid SpecGhost SpecStencil SpecStep SpecPenalise SpecFilter SpecDouble SpecNS Cart CartFacts Comm Spmd GhostGeo Ghost2D Ghost3D GhostProofs FieldProofs Stencil StencilProofs HaloProofs HaloKernels HaloThms CurlProofs KernelList KernelProofs TimeStep StepProofs StepHistory PyNum Penalise PenaliseProofs Doubling DoublingProofs PoissonProofs NavierStokes NSBase NSHalo NSSteps.
Arguments run_lops : simpl never.
Arguments addr_eq : simpl never.
Arguments place_dec : simpl never.

Section Bet.
Context {T : Type}.
Variables (dims loc : list Z) (g : Z) (z : T).
Hypothesis Hok : grid_ok dims loc.
Hypothesis Hg : 1 <= g.
Notation N := (global_size dims loc).
Lemma kept_ext Fs (m m1 : mem T) u : kept dims loc g Fs m m1 -> represents_ext false dims loc g Fs m u -> represents_ext false dims loc g Fs m1 u.
Proof. intros H He r f I Hr Hf HI HQ. rewrite (H r f I Hr Hf HI) by tauto. now apply He. Qed.
Lemma deposit_ext Fs F fv (m m1 : mem T) u : (forall f, In f F -> ~ In f Fs) -> kept dims loc g Fs m m1 -> deposited z dims loc g F fv m1 ->
  represents_ext false dims loc g Fs m u -> represents_ext false dims loc g (Fs ++ F) m1 (put_forcing z N F fv u).
Proof.
  intros Hd Hk [D1 D2] He r f I Hr Hf HI HQ. unfold put_forcing. destruct (in_dec Nat.eq_dec f F) as [HF|HF].
  - destruct HQ as [HQ|[_ Ho]].
    + destruct (sub_ok g loc I HQ) as (x & Hx & ->). rewrite D1 by auto. rewrite sub_pos.
      now rewrite (proj2 (inbb_spec N _) (block_inside dims loc r x Hok Hr Hx)).
    + rewrite D2 by auto. now rewrite owner_out.
  - apply in_app_or in Hf as [Hf|Hf]; [|contradiction]. rewrite (Hk r f I Hr Hf HI) by tauto. now apply He.
Qed.
Lemma put_edge F fv (u : nat -> list Z -> T) : off_boundary z N F fv ->
  forall f P, In f F -> inb N P -> edgeb false N P = true -> put_forcing z N F fv u f P = z.
Proof. intros H f P Hf HP He. unfold put_forcing. destruct (in_dec Nat.eq_dec f F); [|contradiction]. rewrite (proj2 (inbb_spec N P) HP). now apply H. Qed.
End Bet.

Lemma hunch2 {T} py px ny nx g full F (m : mem T) r f I : grid2 py px ny nx g -> 0 <= r < zprod [py; px] -> inb (ghosted g [ny; nx]) I ->
  owner false [py; px] [ny; nx] (ghost_pos [py; px] [ny; nx] g r I) = None ->
  field (run_copies (all_copies (zprod [py; px]) (exchange2 false py px ny nx g full F)) m) (ghosted g [ny; nx]) r f I = field m (ghosted g [ny; nx]) r f I.
Proof.
  intros G Hr HI Ho. pose proof G as (A & B & C & D & E).
  apply (out_unchanged false [py; px] [ny; nx] g (g2_ok _ _ _ _ _ G) ltac:(lia) (gn2 ny nx g ltac:(auto)) (D2 full) F); auto.
  - intros dv. apply D2_dirs.
  - apply schedule2; auto. apply Permutation_refl.
Qed.

Section NS2.
Context {T C : Type}.
Variables (add : T -> T -> T) (z : T) (damp : C -> C -> T -> T) (coord : nat -> Z -> C) (width : Z)
          (conv : (list Z -> T) -> list Z -> T) (Kcx Kcy : @kfun T).
Variables (py px ny nx g : Z) (full : bool) (dd : nat) (xg : Z -> nat -> Z -> C).
Variables (w psi vx vy fx fy buf D S : nat).
Notation dims := [py; px].
Notation loc := [ny; nx].
Notation N := (global_size dims loc).
Notation n := (zprod dims).
Hypothesis G : grid2 py px ny nx g.
Hypothesis Hg2 : 2 <= g.
Hypothesis H4 : 4 <= ny /\ 4 <= nx.
Hypothesis Hw : 1 <= width /\ width <= ny /\ width <= nx.
Hypothesis Hdd : distributed_dim2 py px = Ok dd.
Hypothesis Hxg : coords_ok dims loc g xg coord.
Hypothesis Hnd : NoDup [w; psi; vx; vy; fx; fy; buf; D; S].
Hypothesis HKx : star_local 2 [psi] 1 Kcx /\ overwrites Kcx.
Hypothesis HKy : star_local 2 [psi] 1 Kcy /\ overwrites Kcy.

Ltac nd := repeat match goal with H : NoDup (_ :: _) |- _ => inversion H; clear H; subst end; simpl in *; intuition congruence.
Let Hok : grid_ok dims loc := g2_ok _ _ _ _ _ G.
Let Hg1 : 1 <= g. Proof. lia. Qed.
Let Hgn : Forall (fun n => g <= n) loc. Proof. destruct G as (?&?&?&?&?). repeat constructor; auto. Qed.
Let Hp1 : 1 <= py /\ 1 <= px. Proof. destruct G as (?&?&?&?&?). auto. Qed.
Let Hn1 : g <= ny /\ g <= nx. Proof. destruct G as (?&?&?&?&?). auto. Qed.

(** Velocity forcing. *)
Lemma frc_ok (K : @kfun T) : star_local 2 [fx; fy] 1 K -> Forall (phase_ok n) (update_vorticity_2d false py px ny nx g full w fx fy K).
Proof.
  intros HK. apply (halo2_good false py px ny nx g full 1 [fx; fy] [(w, K)] None z G); auto; try lia.
  - repeat constructor; auto.
  - nd.
  - left. repeat constructor; lia.
Qed.
Lemma frc_ext (K : @kfun T) (m : mem T) u : star_local 2 [fx; fy] 1 K -> quiet z 2 [fx; fy] 1 K ->
  represents_ext false dims loc g ([w; psi; vx; vy] ++ [fx; fy]) m u ->
  (forall r f J, 0 <= r < n -> In f [fx; fy] -> inb (ghosted g loc) J -> owner false dims loc (ghost_pos dims loc g r J) = None -> field m (ghosted g loc) r f J = z) ->
  (forall f P, In f [fx; fy] -> inb N P -> edgeb false N P = true -> u f P = z) ->
  represents_ext false dims loc g ([w; psi; vx; vy] ++ [fx; fy]) (den n (update_vorticity_2d false py px ny nx g full w fx fy K) m) (update_inside N [(w, K)] u).
Proof.
  intros HK Hq He Hz Hu.
  set (prog := halo loc g 1 (all_copies n (exchange2 false py px ny nx g full [fx; fy])) [(w, K)] (strips2 g 1 (shape0 ny g) (shape1 nx g)) (fun _ => []) z).
  assert (E : den n (update_vorticity_2d false py px ny nx g full w fx fy K) m = den n prog m) by reflexivity. rewrite E.
  apply (plain_step_ext dims loc g 1 [fx; fy] _ [(w, K)] _ (fun _ => []) z Hok ltac:(lia) Hg1 (exch2_facts false py px ny nx g full [fx; fy] Hp1 Hg1 Hn1)); auto.
  - repeat constructor; auto.
  - nd.
  - intros o K' [E'|[]]. inversion E'; subst. auto.
  - repeat constructor.
  - intros m0 r f I Hr HI Ho. apply hunch2; auto.
  - intros x Hx. apply passes2; auto; try lia. now apply add_inner.
  - intros f Hf. apply in_or_app. auto.
  - intros o K' [E'|[]]. inversion E'; subst. auto.
Qed.

(** Advection, diffusion and penalisation: afterwards the vorticity is determined everywhere again. *)
Lemma adp_good Fs (Ka Kd : @kfun T) : incl [w; psi; vx; vy] Fs -> ~ In buf Fs ->
  star_local 2 [w; vx; vy] 2 Ka -> star_local 2 [w] 1 Kd -> overwrites Kd ->
  good_step false dims loc g Fs
    (tstep_2d add z false py px ny nx g full buf vx vy (Adv w Ka) ++ tstep_2d add z false py px ny nx g full buf vx vy (Dif w Kd) ++
     penalise_2d damp false py px ny nx g width xg w)
    (fun u => on_fields [w] (sponge damp coord N width false [1; 0]%nat) (euler_step false N add z true w Kd (euler_step false N add z false w Ka u))).
Proof.
  intros Hi Hb HA HD HO.
  assert (Hwin : In w Fs) by (apply Hi; simpl; auto).
  assert (Hiv : incl [w; vx; vy] Fs) by (intros f Hf; apply Hi; simpl in *; tauto).
  assert (Hbi : ~ In buf [w; vx; vy]) by (intros H; apply Hb; now apply Hiv).
  pose proof (tstep_2d_good add z false py px ny nx g full buf vx vy Fs (Dif w Kd) G Hb ltac:(intros f Hf; apply Hi; simpl in *; tauto) ltac:(simpl; auto)) as [DO DS].
  set (aprog := [PLoc (fun _ => set_lops (ghosted g loc) [buf] z (map (fun _ => SAll) (ghosted g loc)))] ++
    halo loc g 2 (all_copies n (exchange2 false py px ny nx g full [w; vx; vy])) [(buf, Ka)] (strips2 g 2 (shape0 ny g) (shape1 nx g)) (fun _ => []) z ++
    [PLoc (fun _ => sum_lops add (ghosted g loc) w buf)]).
  assert (Ea : forall m, den n (tstep_2d add z false py px ny nx g full buf vx vy (Adv w Ka)) m = den n aprog m) by reflexivity.
  pose proof (exch2_facts false py px ny nx g full [w; vx; vy] Hp1 Hg1 Hn1) as EF.
  assert (HP : forall x, inb loc x -> passes loc g 2 (strips2 g 2 (shape0 ny g) (shape1 nx g)) (map (fun i => i + g) x) = 1%nat).
  { intros x Hx. apply passes2; auto; try lia. now apply add_inner. }
  split.
  - apply Forall_app. split; [|apply Forall_app; split; [exact DO|apply penalise_2d_local]].
    change (Forall (phase_ok n) aprog). apply (adv_ok dims loc g 2 [w; vx; vy]); auto; try lia; repeat constructor.
  - intros m u He. rewrite !den_app, Ea.
    set (m1 := den n aprog m). set (u1 := euler_step false N add z false w Ka u).
    assert (Hin1 : represents dims loc g [w] m1 u1).
    { intros r f x Hr [<-|[]] Hx. unfold m1, aprog. rewrite (adv_inner dims loc g 2 [w; vx; vy]) with (u := u); auto; try lia; simpl; auto.
      - now rewrite sub_pos.
      - repeat constructor.
      - intros r' f' I' A B D' E'. apply He; auto.
      - now apply add_inner. }
    destruct (ext_refine dims loc g Hok Hg1 Hgn [w] m1 u1 Hin1) as (uu & Huu & Heq).
    set (U := fun f P => if Nat.eqb f w then uu w P else u1 f P).
    assert (HU : represents_ext false dims loc g Fs m1 U).
    { intros r f I Hr Hf HI HQ. unfold U. destruct (Nat.eqb_spec f w) as [->|Hne]; [apply Huu; simpl; auto|].
      unfold m1, aprog. rewrite (adv_keep dims loc g 2 [w; vx; vy]) by (auto; try lia; intros ->; contradiction).
      unfold u1, euler_step. destruct (Nat.eqb_spec f w); [contradiction|]. now apply He. }
    pose proof (DS m1 U HU) as H2. set (m2 := den n (tstep_2d add z false py px ny nx g full buf vx vy (Dif w Kd)) m1) in *.
    apply rep_ext in H2. apply (penalise_2d_rep damp coord false _ py px ny nx g width xg w) in H2; auto; try lia; [|now apply tracked_ext].
    apply rep_ext in H2. apply (ext_congr dims loc g Hok _ _ _ _ H2). intros f P Hf HP'. unfold on_fields.
    destruct (in_dec Nat.eq_dec f [w]) as [Hfw|Hfw].
    + destruct Hfw as [<-|[]]. apply (sponge_forgets damp coord N width); try lia.
      * destruct G as (?&?&?&?&?). repeat constructor; nia.
      * repeat constructor; auto.
      * intros a Ha. simpl in Ha. simpl. lia.
      * intros P' HP''. unfold serial_tstep. apply euler_inside; auto. intros Q HQ. unfold U. rewrite Nat.eqb_refl. apply Heq. now apply inbb_spec.
    + unfold serial_tstep, euler_step, U, u1, euler_step. destruct (Nat.eqb_spec f w) as [->|]; [simpl in Hfw; tauto|reflexivity].
Qed.

(** Stream function. *)
Lemma solve_good Fs : incl [w; psi] Fs -> ~ In D Fs -> ~ In S Fs ->
  good_step false dims loc g Fs (poisson_solve_2d conv z false py px ny nx g dd D S psi w) (fun u => solve_effect conv z N u (psi, w)).
Proof.
  intros Hi HD HS.
  assert (HDS : D <> S) by nd.
  assert (HH : forall m u, exists m', spmd_ends (py * px) (poisson_solve_2d conv z false py px ny nx g dd D S psi w) m m' /\
     (represents_ext false dims loc g Fs m u -> represents_ext false dims loc g Fs m' (solve_effect conv z N u (psi, w)))).
  { intros m u. destruct G as (?&?&?&?&?).
    destruct (solves_2d conv z false py px ny nx g dd D S Fs [(psi, w)] m u) as (m' & E & _ & H'); auto; try lia.
    - repeat constructor; apply Hi; simpl; auto.
    - exists m'. split; [|exact H']. cbn [flat_map fst snd] in E. now rewrite app_nil_r in E. }
  assert (HO : Forall (phase_ok n) (poisson_solve_2d conv z false py px ny nx g dd D S psi w)).
  { destruct G as (?&?&?&?&?). pose proof (dist2_slab false py px dd Hdd (or_introl eq_refl)) as Hs.
    pose proof (solves_ok dims loc g Hok ltac:(lia) conv z D S (fun f => to_doubled2 false py px ny nx g dd f D) (fun f => from_doubled2 false py px ny nx g dd f D)) as X.
    specialize (X HDS). 
    assert (Y : Forall (phase_ok n) (flat_map (solve1 dims loc conv z D S (fun f => to_doubled2 false py px ny nx g dd f D) (fun f => from_doubled2 false py px ny nx g dd f D)) [(psi, w)])).
    { apply X; try (intros f; apply to2_shape; auto). repeat constructor; nd. }
    cbn [flat_map] in Y. rewrite app_nil_r in Y. exact Y. }
  split; [exact HO|]. intros m u He. destruct (HH m u) as (m' & E & H'). replace (py * px) with n in E by (cbn [zprod]; lia).
  rewrite <- (spmd_ends_det _ _ _ _ _ E (spmd_safe _ _ m HO)). auto.
Qed.

(** Velocity. *)
Lemma curl_good Fs : incl [psi] Fs ->
  good_step false dims loc g Fs (outplane_curl_2d z false py px ny nx g full vx vy psi Kcx Kcy) (overwrite_interior z N [(vx, Kcx); (vy, Kcy)]).
Proof.
  intros Hi.
  set (prog := halo loc g 1 (all_copies n (exchange2 false py px ny nx g full [psi])) [(vx, Kcx); (vy, Kcy)] (strips2 g 1 (shape0 ny g) (shape1 nx g)) (zeroed2 false py px g) z).
  change (outplane_curl_2d z false py px ny nx g full vx vy psi Kcx Kcy) with prog.
  apply (reset_good dims loc g 1 [psi]); auto; try lia.
  - now apply exch2_facts.
  - repeat constructor; nd.
  - nd.
  - intros o K [E|[E|[]]]; inversion E; subst; tauto.
  - intros o K [E|[E|[]]]; inversion E; subst; tauto.
  - repeat constructor.
  - intros r. unfold zeroed2, zero_views2. rewrite !Forall_app. repeat split; apply ifF; reflexivity.
  - intros r x Hr Hx. apply Bool.eq_true_iff_eq. rewrite edgeb_spec. apply boundary2; auto.
  - intros r I Hr HI Ho. now apply zeroed2_out.
  - intros x Hx. apply passes2; auto; try lia. now apply add_inner.
Qed.

(** The step without forcing. *)
Lemma ns_good Fs (s : @ns2_step T) : incl [w; psi; vx; vy] Fs -> ~ In buf Fs -> ~ In D Fs -> ~ In S Fs ->
  star_local 2 [w; vx; vy] 2 (n2_adv s) -> star_local 2 [w] 1 (n2_dif s) -> overwrites (n2_dif s) ->
  good_step false dims loc g Fs (navier_stokes_2d add z damp conv py px ny nx g full dd width xg w psi vx vy buf D S Kcx Kcy s)
   (fun u => let u4 := on_fields [w] (sponge damp coord N width false [1; 0]%nat) (euler_step false N add z true w (n2_dif s) (euler_step false N add z false w (n2_adv s) u)) in
     let u6 := overwrite_interior z N [(vx, Kcx); (vy, Kcy)] (solve_effect conv z N u4 (psi, w)) in
     match n2_free s with Some (a, b) => free_stream add [(vx, a); (vy, b)] u6 | None => u6 end).
Proof.
  intros Hi Hb HD HS HA HDf HO. unfold navier_stokes_2d, compute_velocity_from_vorticity_2d.
  match goal with |- good_step _ _ _ _ _ (?a ++ ?b ++ (?c ++ ?d ++ ?e) ++ ?f) _ => replace (a ++ b ++ (c ++ d ++ e) ++ f) with ((((a ++ b ++ c) ++ d) ++ e) ++ f) by now rewrite <- !app_assoc end.
  pose proof (good_step_app _ _ _ _ _ _ _ _ _ (good_step_app _ _ _ _ _ _ _ _ _ (adp_good Fs (n2_adv s) (n2_dif s) Hi Hb HA HDf HO)
    (solve_good Fs ltac:(intros f Hf; apply Hi; simpl in *; tauto) HD HS)) (curl_good Fs ltac:(intros f Hf; apply Hi; simpl in *; tauto))) as X.
  destruct (n2_free s) as [[a b]|].
  - exact (good_step_app _ _ _ _ _ _ _ _ _ X (free_good dims loc g Hok Hg1 add [(vx, a); (vy, b)] Fs ltac:(simpl; repeat constructor; nd))).
  - rewrite app_nil_r. exact X.
Qed.

Notation step := (time_step_2d add z damp conv py px ny nx g full dd width xg w psi vx vy fx fy buf D S Kcx Kcy).
Notation serial := (serial_ns_2d add z damp coord width conv Kcx Kcy N w psi vx vy fx fy).

Lemma step_ok s : ns2_step_ok z N w vx vy fx fy s -> Forall (phase_ok n) (step s).
Proof.
  intros (HA & HDf & HO & HF). unfold time_step_2d.
  pose proof (ns_good [w; psi; vx; vy] s ltac:(intros f; auto) ltac:(nd) ltac:(nd) ltac:(nd) HA HDf HO) as [OK _].
  destruct (n2_frc s) as [[K fv]|]; [|exact OK]. rewrite !Forall_app. split; [|split; [exact OK|repeat constructor]]. apply frc_ok. tauto.
Qed.
Lemma step_post s (m m1 : mem T) u : ns2_step_ok z N w vx vy fx fy s ->
  represents_ext false dims loc g [w; psi; vx; vy] m u ->
  between z dims loc g [w; psi; vx; vy] [fx; fy] (forcing_of (n2_frc s)) m m1 ->
  represents_ext false dims loc g [w; psi; vx; vy] (den n (step s) m1) (serial u s) /\
  (n2_frc s <> None -> forall r f I, 0 <= r < n -> In f [fx; fy] -> inb (ghosted g loc) I -> field (den n (step s) m1) (ghosted g loc) r f I = z).
Proof.
  intros (HA & HDf & HO & HF) He [Hk Hd]. unfold time_step_2d, serial_ns_2d.
  destruct (n2_frc s) as [[K fv]|]; cbn [forcing_of option_map snd] in Hd.
  - destruct HF as (HK & Hq & Hob). rewrite !den_app. split.
    + assert (Hdis : forall f, In f [fx; fy] -> ~ In f [w; psi; vx; vy]) by nd.
      pose proof (deposit_ext dims loc g z Hok [w; psi; vx; vy] [fx; fy] fv m m1 u Hdis Hk Hd He) as H1.
      pose proof (frc_ext K m1 _ HK Hq H1 ltac:(destruct Hd; auto) (put_edge dims loc z [fx; fy] fv u Hob)) as H2.
      pose proof (ns_good ([w; psi; vx; vy] ++ [fx; fy]) s ltac:(intros f Hf; apply in_or_app; auto) ltac:(nd) ltac:(nd) ltac:(nd) HA HDf HO) as [_ NS].
      apply NS in H2. pose proof (fill_good dims loc g Hok Hg1 z [fx; fy] ([w; psi; vx; vy] ++ [fx; fy])) as [_ FG]. apply FG in H2.
      eapply ext_sub; [|exact H2]. intros f Hf; apply in_or_app; auto.
    + intros _ r f I Hr Hf HI. apply (sets_post (ghosted g loc) n (sz_pos dims loc g Hok Hg1)); auto.
  - split; [|congruence].
    pose proof (ns_good [w; psi; vx; vy] s ltac:(intros f; auto) ltac:(nd) ltac:(nd) ltac:(nd) HA HDf HO) as [_ NS].
    apply NS. eapply kept_ext; eauto.
Qed.

Lemma history_ext hist : Forall (ns2_step_ok z N w vx vy fx fy) hist -> forall (m m' : mem T) u,
  represents_ext false dims loc g [w; psi; vx; vy] m u ->
  history dims step (fun s => between z dims loc g [w; psi; vx; vy] [fx; fy] (forcing_of (n2_frc s))) hist m m' ->
  represents_ext false dims loc g [w; psi; vx; vy] m' (fold_left serial hist u).
Proof.
  induction 1 as [|s l Hs Hl IH]; intros m m' u He Hh; inversion Hh as [|s' l' m0 m1 m2 m3 B E R]; subst; auto. cbn [fold_left].
  eapply IH; [|exact R]. rewrite (spmd_ends_det _ _ _ _ _ E (spmd_safe _ _ m1 (step_ok s Hs))). eapply step_post; eauto.
Qed.
End NS2.
