(** Which arrays a parallel program writes. *)
From Verif Require Import Base SpecGrid SpecFilter Cart Comm Spmd Ghost2D Ghost3D Stencil TimeStep Penalise Doubling Filter SpecNS NavierStokes.
Arguments run_lops : simpl never.
Arguments addr_eq : simpl never.
Arguments place_dec : simpl never.

Section W.
Context {T : Type}.
Variable W : list nat.
Definition lops_in (us : list (@lop T)) : Prop := Forall (fun u => In (fst (la u)) W) us.
Definition ops_in (p : list op) : Prop := Forall (fun o => match o with IRecv _ b => Forall (fun a => In (fst a) W) b | _ => True end) p.
Definition phase_in (p : @phase T) : Prop :=
  match p with
  | PExch C u => (forall s d, In (s, d) C -> In (fst (snd d)) W) /\ (forall r, lops_in (u r))
  | PLoc u => forall r, lops_in (u r)
  end.
Definition phases_in (ps : list (@phase T)) : Prop := Forall phase_in ps.

Lemma lops_frame us : lops_in us -> forall (m : @lmemT T) a, ~ In (fst a) W -> run_lops us m a = m a.
Proof.
  induction 1 as [|u us Hu _ IH]; intros m a Ha; [reflexivity|]. unfold run_lops in *. cbn [fold_left]. rewrite IH by auto. unfold lop1.
  destruct (addr_eq a (la u)) as [E|]; [|reflexivity]. rewrite E in Ha. contradiction.
Qed.
Lemma den_frame n ps : phases_in ps -> forall (m : mem T) r a, ~ In (fst a) W -> den n ps m (r, a) = m (r, a).
Proof.
  assert (L : forall u (m : mem T) r a, (forall r, lops_in (u r)) -> ~ In (fst a) W -> den_loc n u m (r, a) = m (r, a)).
  { intros u m r a Hu Ha. unfold den_loc. cbn [fst snd]. destruct (_ && _); [|reflexivity]. now rewrite (lops_frame _ (Hu r)). }
  induction 1 as [|p ps Hp _ IH]; intros m r a Ha; [reflexivity|]. unfold den in *. cbn [fold_left]. rewrite IH by auto. destruct p as [u|C u]; cbn [den1 phase_in] in *; [now apply L|].
  destruct Hp as [H1 H2]. rewrite L by auto. apply run_copies_frame. intros s Hs. apply H1 in Hs. contradiction.

Qed.
Lemma phases_app p q : phases_in p -> phases_in q -> phases_in (p ++ q).
Proof. intros. apply Forall_app. auto. Qed.
Lemma phases_flat {A} (f : A -> list (@phase T)) l : (forall x, In x l -> phases_in (f x)) -> phases_in (flat_map f l).
Proof. intros H. unfold phases_in. induction l as [|x l IH]; [constructor|]. cbn [flat_map]. apply Forall_app. split; [apply H; now left|apply IH; intros; apply H; now right]. Qed.
Lemma lops_app p q : lops_in p -> lops_in q -> lops_in (p ++ q).
Proof. intros. apply Forall_app. auto. Qed.
Lemma lops_flat {A} (f : A -> list (@lop T)) l : (forall x, lops_in (f x)) -> lops_in (flat_map f l).
Proof. intros H. unfold lops_in. induction l as [|x l IH]; [constructor|]. cbn [flat_map]. apply Forall_app. split; [apply H|apply IH]. Qed.
Lemma lops_map {A} (f : A -> @lop T) l : (forall x, In x l -> In (fst (la (f x))) W) -> lops_in (map f l).
Proof. intros H. apply Forall_forall. intros x Hx. apply in_map_iff in Hx as (y & <- & Hy). auto. Qed.

Lemma all_copies_in n prog : (forall r, ops_in (prog r)) -> forall s d, In (s, d) (all_copies n prog) -> In (fst (snd d)) W.
Proof.
  intros H s d Hd. unfold all_copies in Hd. apply in_flat_map in Hd as (a & _ & Hd). apply in_flat_map in Hd as (b & _ & Hd).
  unfold copies in Hd. apply in_flat_map in Hd as (ms & Hms & Hd). apply in_map_iff in Hd as (sd & E & Hsd). injection E as _ <-. cbn [snd].
  destruct ms as [x y]. apply in_combine_r in Hms. cbn [fst snd] in Hsd. destruct sd as [p q]. apply in_combine_r in Hsd. cbn [snd].
  specialize (H b). clear - Hms Hsd H. induction (prog b) as [|o p IH]; [contradiction|]. inversion H as [|? ? Ho Hp]; subst. destruct o as [o l|[o|] l]; cbn [recvs_from] in Hms; auto.
  destruct (o =? a); [|auto]. destruct Hms as [->|Hms]; [|auto]. rewrite Forall_forall in Ho. now apply Ho.
Qed.
Lemma buf3_in f ty : In f W -> Forall (fun a : addr => In (fst a) W) (buf3 f ty).
Proof. intros Hf. apply Forall_forall. intros x Hx. apply in_map_iff in Hx as (o & <- & _). exact Hf. Qed.
Lemma buf2_in ny nx g f k ty : In f W -> Forall (fun a : addr => In (fst a) W) (buf2 ny nx g f k ty).
Proof. intros Hf. apply Forall_forall. intros x Hx. apply in_map_iff in Hx as (o & <- & _). exact Hf. Qed.
Lemma exch2_in per py px ny nx g full F r : incl F W -> ops_in (exchange2 per py px ny nx g full F r).
Proof.
  intros HF. unfold exchange2. induction F as [|f F IH]; [constructor|]. cbn [flat_map]. apply Forall_app. split; [|apply IH; intros x Hx; apply HF; now right].
  assert (Hf : In f W) by (apply HF; now left). unfold exchange_scalar_field_init2. destruct full; [apply Forall_app; split|];
  repeat (constructor; [first [exact Logic.I|now apply buf2_in]|]); constructor.
Qed.
Lemma exch3_in per pz py px n0 n1 n2 g full F r : incl F W -> ops_in (exchange3 per pz py px n0 n1 n2 g full F r).
Proof.
  intros HF. unfold exchange3. induction F as [|f F IH]; [constructor|]. cbn [flat_map]. apply Forall_app. split; [|apply IH; intros x Hx; apply HF; now right].
  assert (Hf : In f W) by (apply HF; now left). unfold exchange_scalar_field_init3. destruct full; [apply Forall_app; split; [|apply Forall_app; split]|];
  repeat (constructor; [first [exact Logic.I|now apply buf3_in]|]); constructor.
Qed.
Lemma kernel_in sizes ks (k : @kern T) v : incl (map fst k) W -> lops_in (kernel_lops sizes ks k v).
Proof. intros H. apply lops_flat. intros I. apply lops_map. intros oK Ho. apply H. cbn. now apply in_map. Qed.
Lemma set_in sizes outs (z : T) v : incl outs W -> lops_in (set_lops sizes outs z v).
Proof. intros H. apply lops_flat. intros I. apply lops_map. intros o Ho. cbn. now apply H. Qed.
Lemma halo2_in per py px ny nx g full ks F (k : @kern T) zero : incl F W -> incl (map fst k) W -> phases_in (halo2 per py px ny nx g full ks F k zero).
Proof.
  intros HF Hk. constructor; [|constructor; [|constructor]].
  - split; [apply all_copies_in; intros; now apply exch2_in|intros; now apply kernel_in].
  - intros r. apply lops_app; [apply lops_flat; intros; now apply kernel_in|]. destruct zero as [[z0 bw]|]; [|constructor]. apply lops_flat. intros. now apply set_in.
Qed.
Lemma halo3_in per pz py px n0 n1 n2 g full ks F (k : @kern T) zero : incl F W -> incl (map fst k) W -> phases_in (halo3 per pz py px n0 n1 n2 g full ks F k zero).
Proof.
  intros HF Hk. constructor; [|constructor; [|constructor]].
  - split; [apply all_copies_in; intros; now apply exch3_in|intros; now apply kernel_in].
  - intros r. apply lops_app; [apply lops_flat; intros; now apply kernel_in|]. destruct zero as [[z0 bw]|]; [|constructor]. apply lops_flat. intros. now apply set_in.
Qed.
Lemma loc_in u : (forall r, lops_in (u r)) -> phases_in [PLoc u].
Proof. intros H. constructor; [exact H|constructor]. Qed.

(** Penalisation. *)
Lemma pen_in {C} (damp : C -> C -> T -> T) per topo sizes g w xg fld r a : In fld W -> lops_in (pen_axis damp per topo sizes g w xg fld r a).
Proof.
  intros H. apply lops_app; (destruct (isnone _); [|constructor]); apply lops_app; apply lops_map; intros; exact H.
Qed.
(** Poisson solve. *)
Lemma solve_in conv (z : T) dims loc to_ from_ D S : In D W -> In S W -> (forall r, ops_in (to_ r)) -> (forall r, ops_in (from_ r)) -> phases_in (solve_phases conv z dims loc to_ from_ D S).
Proof.
  intros HD HS H1 H2. unfold solve_phases. cbn [app fft_convolution]. constructor; [intros r; apply set_in; intros x [<-|[]]; exact HD|].
  constructor; [split; [now apply all_copies_in|constructor]|]. constructor; [split; [|constructor]|].
  - intros s d Hd. unfold gather_all in Hd. apply in_flat_map in Hd as (a & _ & Hd). apply in_flat_map in Hd as (b & _ & Hd). apply in_map_iff in Hd as (k & E & _). injection E as _ <-. exact HS.
  - constructor; [intros r; apply lops_map; intros; exact HD|]. constructor; [split; [now apply all_copies_in|constructor]|constructor].
Qed.
Lemma to2_in per py px ny nx g dd f D r : In D W -> ops_in (to_doubled2 per py px ny nx g dd f D r).
Proof. intros H. constructor; [exact Logic.I|]. destruct (_ <? _); repeat (constructor; [now apply buf3_in|]); constructor. Qed.
Lemma from2_in per py px ny nx g dd f D r : In f W -> ops_in (from_doubled2 per py px ny nx g dd f D r).
Proof. intros H. unfold from_doubled2. apply Forall_app. split; [destruct (_ <? _); repeat (constructor; [exact Logic.I|]); constructor|]. constructor; [now apply buf3_in|constructor]. Qed.
Lemma seq_in l : Forall (fun x => match x with Some o => ops_in [o] | None => True end) l -> ops_in (ops_of (sequence l)).
Proof.
  induction 1 as [|x l Hx _ IH]; [constructor|]. cbn [sequence]. destruct x as [o|]; [|constructor]. destruct (sequence l) as [as_| | |]; try constructor. cbn [ops_of] in *.
  inversion Hx; subst; auto. exact IH.
Qed.
Lemma to3_in per topo loc g f D r : In D W -> ops_in (ops_of (to_doubled3 per topo loc g f D r)).
Proof.
  intros H. apply seq_in. constructor; [destruct (get_cart_rank _ _ _); cbn; auto; constructor; [exact Logic.I|constructor]|].
  destruct (below_half _ _); [|constructor]. apply Forall_forall. intros x Hx. apply in_map_iff in Hx as (o & <- & _). destruct (get_cart_rank _ _ _); cbn; auto. constructor; [now apply buf3_in|constructor].
Qed.
Lemma from3_in per topo loc g f D r : In f W -> ops_in (ops_of (from_doubled3 per topo loc g f D r)).
Proof.
  intros H. apply seq_in. apply Forall_app. split.
  - destruct (below_half _ _); [|constructor]. apply Forall_forall. intros x Hx. apply in_map_iff in Hx as (o & <- & _). destruct (get_cart_rank _ _ _); cbn; auto. constructor; [exact Logic.I|constructor].
  - constructor; [|constructor]. destruct (get_cart_rank _ _ _); cbn; auto. constructor; [now apply buf3_in|constructor].
Qed.
(** Time-step kernels and filter. *)
Lemma sum_in add sizes fld flux : In fld W -> lops_in (sum_lops add sizes fld flux).
Proof. intros H. apply kernel_in. intros x [<-|[]]; exact H. Qed.
Ltac inc := let y := fresh "y" in let Hy := fresh "Hy" in intros y Hy; cbn in Hy; decompose [or] Hy; subst; auto; contradiction.
Lemma tstep2_in add (z : T) per py px ny nx g full buf vx vy (s : tstep) : In (match s with Adv f _ | Dif f _ => f end) W -> In buf W -> In vx W -> In vy W ->
  phases_in (tstep_2d add z per py px ny nx g full buf vx vy s).
Proof.
  intros. destruct s as [f K|f K]; cbn [tstep_2d].
  - apply phases_app; [apply loc_in; intros; apply set_in; inc|]. apply phases_app; [apply halo2_in; inc|]. apply loc_in. intros. now apply sum_in.
  - apply phases_app; [apply halo2_in; inc|]. apply loc_in. intros. now apply sum_in.
Qed.
Lemma tstep3_in add (z : T) per pz py px n0 n1 n2 g full buf vx vy vz (s : tstep) : In (match s with Adv f _ | Dif f _ => f end) W -> In buf W -> In vx W -> In vy W -> In vz W ->
  phases_in (tstep_3d add z per pz py px n0 n1 n2 g full buf vx vy vz s).
Proof.
  intros. destruct s as [f K|f K]; cbn [tstep_3d].
  - apply phases_app; [apply loc_in; intros; apply set_in; inc|]. apply phases_app; [apply halo3_in; inc|]. apply loc_in. intros. now apply sum_in.
  - apply phases_app; [apply halo3_in; inc|]. apply loc_in. intros. now apply sum_in.
Qed.
Lemma filter_in lap sub (z : T) per pz py px n0 n1 n2 g full bw ft buf flux order fld : In buf W -> In flux W -> In fld W ->
  phases_in (filter_3d lap sub z per pz py px n0 n1 n2 g full bw ft buf flux order fld).
Proof.
  intros Hb Hf Hl. assert (P : forall a, phases_in (filter_pass lap z per pz py px n0 n1 n2 g full bw buf flux a)).
  { intros a. apply phases_app; [apply halo3_in; inc|]. apply loc_in. intros r. apply kernel_in. inc. }
  assert (A : forall axes, phases_in (filter_apply lap sub z per pz py px n0 n1 n2 g full bw buf flux order axes fld)).
  { intros axes. apply phases_app; [apply loc_in; intros r; apply kernel_in; inc|]. apply phases_app; [|apply loc_in; intros; now apply sum_in].
    unfold filter_passes. induction order as [|o IH]; [constructor|]. cbn [repeat concat]. apply phases_app; [|exact IH]. apply phases_flat. intros; apply P. }
  assert (Cl : phases_in [clear_boundary z per pz py px n0 n1 n2 g bw flux]) by (apply loc_in; intros r; apply lops_flat; intros; apply set_in; inc).
  destruct ft; cbn [filter_3d]; (apply phases_app; [exact Cl|]); [apply A|]. apply phases_app; [apply A|]. apply phases_app; apply A.
Qed.
End W.

(** The flow simulators' steps write the simulator's own arrays only. *)
Ltac inc := let y := fresh "y" in let Hy := fresh "Hy" in intros y Hy; cbn in Hy; decompose [or] Hy; subst; cbn; tauto.
Section NS.
Context {T C : Type}.
Variables (add : T -> T -> T) (z : T) (damp : C -> C -> T -> T) (conv : (list Z -> T) -> list Z -> T).
Lemma step2_in py px ny nx g full dd width xg w psi vx vy fx fy buf D S Kcx Kcy (s : @ns2_step T) :
  phases_in [w; psi; vx; vy; fx; fy; buf; D; S] (time_step_2d add z damp conv py px ny nx g full dd width xg w psi vx vy fx fy buf D S Kcx Kcy s).
Proof.
  assert (B : phases_in [w; psi; vx; vy; fx; fy; buf; D; S] (navier_stokes_2d add z damp conv py px ny nx g full dd width xg w psi vx vy buf D S Kcx Kcy s)).
  { unfold navier_stokes_2d. apply phases_app; [apply tstep2_in; cbn; tauto|]. apply phases_app; [apply tstep2_in; cbn; tauto|]. apply phases_app.
    - apply phases_app; [|apply phases_app].
      + unfold penalise_2d. destruct (width =? 0); [constructor|]. apply loc_in. intros r. apply lops_app; apply pen_in; cbn; tauto.
      + apply solve_in; try (cbn; tauto); intros r; [apply to2_in|apply from2_in]; cbn; tauto.
      + apply halo2_in; inc.
    - destruct (n2_free s) as [[a b]|]; [|constructor]. apply loc_in. intros r. apply kernel_in. inc. }
  unfold time_step_2d. destruct (n2_frc s) as [[K fv]|]; [|exact B]. apply phases_app; [apply halo2_in; inc|]. apply phases_app; [exact B|]. apply loc_in. intros r. apply set_in. inc.
Qed.
Lemma step3_in lap sub filt pz py px n0 n1 n2 g full width xg w0 w1 w2 p0 p1 p2 vx vy vz fx fy fz b0 b1 b2 buf D S Kcx Kcy Kcz race (s : @ns3_step T) :
  phases_in [w0; w1; w2; p0; p1; p2; vx; vy; vz; fx; fy; fz; b0; b1; b2; buf; D; S]
    (time_step_3d add z damp conv lap sub filt pz py px n0 n1 n2 g full width xg w0 w1 w2 p0 p1 p2 vx vy vz fx fy fz b0 b1 b2 buf D S Kcx Kcy Kcz race s).
Proof.
  set (W := [w0; w1; w2; p0; p1; p2; vx; vy; vz; fx; fy; fz; b0; b1; b2; buf; D; S]).
  assert (U : forall a b c (K : @kfun T * @kfun T * @kfun T), incl [a; b; c] W -> phases_in W (update_vorticity_call_3d pz py px n0 n1 n2 g full w0 w1 w2 a b c K)).
  { intros a b c [[K0 K1] K2] Hi. apply halo3_in; [exact Hi|unfold W; inc]. }
  assert (B : phases_in W (navier_stokes_3d add z damp conv lap sub filt pz py px n0 n1 n2 g full width xg w0 w1 w2 p0 p1 p2 vx vy vz b0 b1 b2 buf D S Kcx Kcy Kcz race s)).
  { unfold navier_stokes_3d. apply phases_app; [apply loc_in; intros r; apply kernel_in; destruct (n3_crs s) as [[? ?] ?]; unfold W; inc|].
    apply phases_app; [apply U; unfold W; inc|]. apply phases_app; [apply phases_flat; intros c Hc; apply tstep3_in; unfold W; cbn in *; tauto|]. apply phases_app.
    - destruct filt as [[[ft order] bw]|]; [|constructor]. apply phases_flat. intros c Hc. apply filter_in; unfold W; cbn in *; tauto.
    - unfold compute_flow_velocity_3d. apply phases_app; [|apply phases_app; [|apply phases_app]].
      + apply phases_flat. intros c Hc. unfold penalise_3d. destruct (width =? 0); [constructor|]. apply loc_in. intros r. apply lops_app; [|apply lops_app]; apply pen_in; unfold W; cbn in *; tauto.
      + apply phases_flat. intros sr Hs. cbn in Hs. apply solve_in; try (unfold W; cbn; tauto); intros r; [apply to3_in|apply from3_in]; [unfold W; cbn; tauto|].
        decompose [or] Hs; subst; try contradiction; unfold W; cbn; tauto.
      + constructor; [|constructor; [|constructor]].
        * split; [apply all_copies_in; intros; apply exch3_in; unfold W; inc|]. intros r. apply lops_flat. intros I. apply lops_map. intros oK Ho. cbn in Ho |- *. decompose [or] Ho; subst; try contradiction; unfold W; cbn; tauto.
        * intros r. apply lops_app; [apply lops_flat; intros; apply kernel_in; unfold W; inc|]. apply lops_flat. intros. apply set_in. unfold W; inc.
      + destruct (n3_free s) as [[[a b] c]|]; [|constructor]. apply loc_in. intros r. apply kernel_in. unfold W; inc. }
  unfold time_step_3d. destruct (n3_frc s) as [[K fv]|]; [|exact B]. apply phases_app; [apply U; unfold W; inc|]. apply phases_app; [exact B|]. apply loc_in. intros r. apply set_in. unfold W; inc.
Qed.
End NS.
