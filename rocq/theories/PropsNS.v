(** Properties C38 and C47: whole Navier-Stokes time steps and histories of them. *)
From Verif Require Import Base SpecGrid SpecGhost SpecStencil SpecStep SpecPenalise SpecFilter SpecDouble SpecNS Comm Spmd PyNum Doubling KernelList Stencil NavierStokes.
From Verif Require KernelProofs StepHistory NSThms.

Section Two.
Context {T C : Type}.
Variables (add : T -> T -> T) (z : T) (damp : C -> C -> T -> T) (coord : nat -> Z -> C) (width : Z)
          (conv : (list Z -> T) -> list Z -> T) (Kcx Kcy : @kfun T).
Variables (w psi vx vy fx fy buf D S : nat).

(** C47 (2D).  A time step always ends, in the same memory whatever the schedule. *)
Theorem C47_step_ends_2d py px ny nx g full dd xg s (m : mem T) :
  ns2_setting py px ny nx g width dd xg coord w psi vx vy fx fy buf D S Kcx Kcy ->
  ns2_shapes w vx vy fx fy s ->
  exists m', spmd_ends (zprod [py; px]) (time_step_2d add z damp conv py px ny nx g full dd width xg w psi vx vy fx fy buf D S Kcx Kcy s) m m' /\
    forall m'', spmd_ends (zprod [py; px]) (time_step_2d add z damp conv py px ny nx g full dd width xg w psi vx vy fx fy buf D S Kcx Kcy s) m m'' -> m'' = m'.
Proof.
  intros HS Hs. destruct (NSThms.step2_ends add z damp coord width conv Kcx Kcy py px ny nx g full dd xg w psi vx vy fx fy buf D S HS s m Hs) as (m' & E).
  exists m'. split; auto. intros m'' E'. eapply (NSThms.step2_once add z damp coord width conv Kcx Kcy); eauto.
Qed.

(** C47 (2D).  A simulator run: any number of steps, each preceded by a deposit of forcing (the flow arrays being
    kept).  Such runs exist, and vorticity, stream function and velocity are those of the serial algorithm. *)
Theorem C47_history_2d py px ny nx g full dd xg hist (m : mem T) u :
  ns2_setting py px ny nx g width dd xg coord w psi vx vy fx fy buf D S Kcx Kcy ->
  Forall (ns2_step_ok z (global_size [py; px] [ny; nx]) w vx vy fx fy) hist ->
  represents_ext false [py; px] [ny; nx] g [w; psi; vx; vy] m u ->
  let run := history [py; px] (time_step_2d add z damp conv py px ny nx g full dd width xg w psi vx vy fx fy buf D S Kcx Kcy)
               (fun s => between z [py; px] [ny; nx] g [w; psi; vx; vy] [fx; fy] (forcing_of (n2_frc s))) hist m in
  (exists m', run m') /\
  (forall m', run m' -> represents_ext false [py; px] [ny; nx] g [w; psi; vx; vy] m'
     (fold_left (serial_ns_2d add z damp coord width conv Kcx Kcy (global_size [py; px] [ny; nx]) w psi vx vy fx fy) hist u)).
Proof.
  intros HS Hh He run. split.
  - apply NSThms.history_exists.
    + intros s m1 _. destruct HS as [G Hg2 H4 Hw Hdd Hxg Hnd HKx HKy]. apply NSThms.between_exists; [eapply KernelProofs.g2_ok; eauto|lia|].
      intros f [<-|[<-|[]]]; repeat (let a := fresh in let b := fresh in apply NoDup_cons_iff in Hnd as [a Hnd]); simpl in *; intuition congruence.
    + intros s m1 Hs. eapply (NSThms.step2_ends add z damp coord width conv Kcx Kcy); eauto. eapply NSThms.shapes2. rewrite Forall_forall in Hh. eauto.
  - intros m' H. eapply (NSThms.hist2 add z damp coord width conv Kcx Kcy); eauto.
Qed.

(** C47 (2D).  Two runs with different decompositions of one domain, the same global forcing and the same global
    start: the same flow everywhere. *)
Theorem C47_decomposition_independent_2d py px ny nx full dd xg py' px' ny' nx' full' dd' xg' g hist (m m' e e' : mem T) u :
  ns2_setting py px ny nx g width dd xg coord w psi vx vy fx fy buf D S Kcx Kcy ->
  ns2_setting py' px' ny' nx' g width dd' xg' coord w psi vx vy fx fy buf D S Kcx Kcy ->
  global_size [py; px] [ny; nx] = global_size [py'; px'] [ny'; nx'] ->
  Forall (ns2_step_ok z (global_size [py; px] [ny; nx]) w vx vy fx fy) hist ->
  represents_ext false [py; px] [ny; nx] g [w; psi; vx; vy] m u -> represents_ext false [py'; px'] [ny'; nx'] g [w; psi; vx; vy] m' u ->
  history [py; px] (time_step_2d add z damp conv py px ny nx g full dd width xg w psi vx vy fx fy buf D S Kcx Kcy)
    (fun s => between z [py; px] [ny; nx] g [w; psi; vx; vy] [fx; fy] (forcing_of (n2_frc s))) hist m e ->
  history [py'; px'] (time_step_2d add z damp conv py' px' ny' nx' g full' dd' width xg' w psi vx vy fx fy buf D S Kcx Kcy)
    (fun s => between z [py'; px'] [ny'; nx'] g [w; psi; vx; vy] [fx; fy] (forcing_of (n2_frc s))) hist m' e' ->
  agree [py; px] [ny; nx] [py'; px'] [ny'; nx'] g [w; psi; vx; vy] e e'.
Proof.
  intros HS HS' EN Hh He He' H H'. pose proof Hh as Hh'. rewrite EN in Hh'.
  pose proof (NSThms.hist2 add z damp coord width conv Kcx Kcy _ _ _ _ _ _ _ _ _ _ _ _ _ _ _ _ _ HS hist m e u Hh He H) as R.
  pose proof (NSThms.hist2 add z damp coord width conv Kcx Kcy _ _ _ _ _ _ _ _ _ _ _ _ _ _ _ _ _ HS' hist m' e' u Hh' He' H') as R'.
  rewrite <- EN in R'. destruct HS as [G Hg2 _ _ _ _ _ _ _], HS' as [G' _ _ _ _ _ _ _ _].
  eapply StepHistory.ext_agree; eauto; [lia|eapply KernelProofs.g2_ok; eauto|eapply KernelProofs.g2_ok; eauto].
Qed.

(** C38 (2D).  After a time step of a simulator with forcing, the forcing arrays are [z] in every cell, ghosts
    included, whatever they and all other arrays held before. *)
Theorem C38_forcing_consumed_2d py px ny nx g full dd xg s (m m' : mem T) :
  ns2_setting py px ny nx g width dd xg coord w psi vx vy fx fy buf D S Kcx Kcy ->
  ns2_shapes w vx vy fx fy s -> n2_frc s <> None ->
  spmd_ends (zprod [py; px]) (time_step_2d add z damp conv py px ny nx g full dd width xg w psi vx vy fx fy buf D S Kcx Kcy s) m m' ->
  forall r f I, 0 <= r < zprod [py; px] -> In f [fx; fy] -> inb (ghosted g [ny; nx]) I -> field m' (ghosted g [ny; nx]) r f I = z.
Proof. intros HS. exact (NSThms.step2_forcing add z damp coord width conv Kcx Kcy py px ny nx g full dd xg w psi vx vy fx fy buf D S HS s m m'). Qed.
End Two.

Section Three.
Context {T C : Type}.
Variables (add : T -> T -> T) (z : T) (damp : C -> C -> T -> T) (coord : nat -> Z -> C) (width : Z)
          (conv : (list Z -> T) -> list Z -> T) (Kcx Kcy Kcz : @kfun T)
          (lap : T -> T -> T -> T) (sub : T -> T -> T) (filt : option (filter_type * nat * Z)).
Variables (w0 w1 w2 p0 p1 p2 vx vy vz fx fy fz b0 b1 b2 buf D S : nat).
Notation flow := [w0; w1; w2; p0; p1; p2; vx; vy; vz].
Notation setting pz py px n0 n1 n2 g xg := (ns3_setting pz py px n0 n1 n2 g width filt xg coord w0 w1 w2 p0 p1 p2 vx vy vz fx fy fz b0 b1 b2 buf D S Kcx Kcy Kcz).
(** A step together with the arbitrary values of the cells computed from data in flight (see Stencil.curl_3d). *)
Notation step pz py px n0 n1 n2 g full xg := (fun sr => time_step_3d add z damp conv lap sub filt pz py px n0 n1 n2 g full width xg
  w0 w1 w2 p0 p1 p2 vx vy vz fx fy fz b0 b1 b2 buf D S Kcx Kcy Kcz (snd sr) (fst sr)).
Notation deposit_between dims loc g := (fun sr => between z dims loc g flow [fx; fy; fz] (forcing_of (n3_frc (fst sr)))).

Theorem C47_step_ends_3d pz py px n0 n1 n2 g full xg s race (m : mem T) :
  setting pz py px n0 n1 n2 g xg -> ns3_shapes [w0; w1; w2] [vx; vy; vz] [b0; b1; b2] [fx; fy; fz] s ->
  exists m', spmd_ends (zprod [pz; py; px]) (step pz py px n0 n1 n2 g full xg (s, race)) m m' /\
    forall m'', spmd_ends (zprod [pz; py; px]) (step pz py px n0 n1 n2 g full xg (s, race)) m m'' -> m'' = m'.
Proof.
  intros HS Hs. destruct (NSThms.step3_ends add z damp coord width conv Kcx Kcy Kcz lap sub filt pz py px n0 n1 n2 g full xg w0 w1 w2 p0 p1 p2 vx vy vz fx fy fz b0 b1 b2 buf D S HS s race m Hs) as (m' & E).
  exists m'. split; auto. intros m'' E'.
  exact (NSThms.step3_once add z damp coord width conv Kcx Kcy Kcz lap sub filt pz py px n0 n1 n2 g full xg w0 w1 w2 p0 p1 p2 vx vy vz fx fy fz b0 b1 b2 buf D S HS s race m m'' m' Hs E' E).
Qed.

Theorem C47_history_3d pz py px n0 n1 n2 g full xg hist (m : mem T) u :
  setting pz py px n0 n1 n2 g xg ->
  Forall (fun sr => ns3_step_ok z (global_size [pz; py; px] [n0; n1; n2]) [w0; w1; w2] [vx; vy; vz] [b0; b1; b2] [fx; fy; fz] (fst sr)) hist ->
  represents_ext false [pz; py; px] [n0; n1; n2] g flow m u ->
  let run := history [pz; py; px] (step pz py px n0 n1 n2 g full xg) (deposit_between [pz; py; px] [n0; n1; n2] g) hist m in
  (exists m', run m') /\
  (forall m', run m' -> represents_ext false [pz; py; px] [n0; n1; n2] g flow m'
     (fold_left (serial_ns_3d add z damp coord width conv Kcx Kcy Kcz lap sub filt (global_size [pz; py; px] [n0; n1; n2])
        w0 w1 w2 p0 p1 p2 vx vy vz b0 b1 b2 fx fy fz) (map fst hist) u)).
Proof.
  intros HS Hh He run. split.
  - apply NSThms.history_exists.
    + intros s m1 _. destruct HS as [G H2 Hw Hev Hxg Hnd HKc Hfilt]. apply NSThms.between_exists; [eapply KernelProofs.g3_ok; eauto|unfold grid3 in G; lia|].
      intros f Hf. eapply NS3D.f_not_0; eauto.
    + intros [s race] m1 Hs. eapply (NSThms.step3_ends add z damp coord width conv Kcx Kcy Kcz); eauto. eapply NSThms.shapes3. rewrite Forall_forall in Hh. exact (Hh _ Hs).
  - intros m' H. eapply (NSThms.hist3 add z damp coord width conv Kcx Kcy Kcz); eauto.
Qed.

(** The two runs may also differ in what was read from data in flight. *)
Theorem C47_decomposition_independent_3d pz py px n0 n1 n2 full xg pz' py' px' n0' n1' n2' full' xg' g hist hist' (m m' e e' : mem T) u :
  setting pz py px n0 n1 n2 g xg -> setting pz' py' px' n0' n1' n2' g xg' ->
  global_size [pz; py; px] [n0; n1; n2] = global_size [pz'; py'; px'] [n0'; n1'; n2'] ->
  map fst hist' = map fst hist ->
  Forall (ns3_step_ok z (global_size [pz; py; px] [n0; n1; n2]) [w0; w1; w2] [vx; vy; vz] [b0; b1; b2] [fx; fy; fz]) (map fst hist) ->
  represents_ext false [pz; py; px] [n0; n1; n2] g flow m u -> represents_ext false [pz'; py'; px'] [n0'; n1'; n2'] g flow m' u ->
  history [pz; py; px] (step pz py px n0 n1 n2 g full xg) (deposit_between [pz; py; px] [n0; n1; n2] g) hist m e ->
  history [pz'; py'; px'] (step pz' py' px' n0' n1' n2' g full' xg') (deposit_between [pz'; py'; px'] [n0'; n1'; n2'] g) hist' m' e' ->
  agree [pz; py; px] [n0; n1; n2] [pz'; py'; px'] [n0'; n1'; n2'] g flow e e'.
Proof.
  intros HS HS' EN EH Hh He He' H H'.
  assert (Hf : forall h, Forall (ns3_step_ok z (global_size [pz; py; px] [n0; n1; n2]) [w0; w1; w2] [vx; vy; vz] [b0; b1; b2] [fx; fy; fz]) (map fst h) ->
    Forall (fun sr : ns3_step * (Z -> nat -> list Z -> T) => ns3_step_ok z (global_size [pz; py; px] [n0; n1; n2]) [w0; w1; w2] [vx; vy; vz] [b0; b1; b2] [fx; fy; fz] (fst sr)) h).
  { intros h X. apply Forall_forall. intros x Hx. rewrite Forall_forall in X. apply X. now apply in_map. }
  pose proof (Hf hist Hh) as A. rewrite <- EH in Hh. pose proof (Hf hist' Hh) as A'. rewrite EN in A'.
  pose proof (NSThms.hist3 add z damp coord width conv Kcx Kcy Kcz lap sub filt _ _ _ _ _ _ _ _ _ _ _ _ _ _ _ _ _ _ _ _ _ _ _ _ _ _ _ HS hist m e u A He H) as R.
  pose proof (NSThms.hist3 add z damp coord width conv Kcx Kcy Kcz lap sub filt _ _ _ _ _ _ _ _ _ _ _ _ _ _ _ _ _ _ _ _ _ _ _ _ _ _ _ HS' hist' m' e' u A' He' H') as R'.
  rewrite EH in R'. rewrite <- EN in R'. destruct HS as [G _ _ _ _ _ _ _], HS' as [G' _ _ _ _ _ _ _].
  eapply StepHistory.ext_agree; eauto; [unfold grid3 in G; lia|eapply KernelProofs.g3_ok; eauto|eapply KernelProofs.g3_ok; eauto].
Qed.

Theorem C38_forcing_consumed_3d pz py px n0 n1 n2 g full xg s race (m m' : mem T) :
  setting pz py px n0 n1 n2 g xg -> ns3_shapes [w0; w1; w2] [vx; vy; vz] [b0; b1; b2] [fx; fy; fz] s -> n3_frc s <> None ->
  spmd_ends (zprod [pz; py; px]) (step pz py px n0 n1 n2 g full xg (s, race)) m m' ->
  forall r f I, 0 <= r < zprod [pz; py; px] -> In f [fx; fy; fz] -> inb (ghosted g [n0; n1; n2]) I -> field m' (ghosted g [n0; n1; n2]) r f I = z.
Proof. intros HS. exact (NSThms.step3_forcing add z damp coord width conv Kcx Kcy Kcz lap sub filt pz py px n0 n1 n2 g full xg w0 w1 w2 p0 p1 p2 vx vy vz fx fy fz b0 b1 b2 buf D S HS s race m m'). Qed.
End Three.

(** C38.  The simulator time is the starting time plus the sum of the steps (in a number type where addition is
    associative; in floating point it is the left-to-right sum), on every rank that was passed those steps. *)
Theorem C38_time (R : Type) (plus : R -> R -> R) (zero t0 : R) (dts : list R) :
  (forall a b c, plus a (plus b c) = plus (plus a b) c) -> (forall a, plus a zero = a) ->
  simulator_time plus t0 dts = plus t0 (fold_right plus zero dts).
Proof.
  intros A Z0. unfold simulator_time. revert t0. induction dts as [|d l IH]; intros t0; simpl; [now rewrite Z0|].
  rewrite IH. now rewrite A.
Qed.
(** Restarting: continuing with more steps from the time reached. *)
Theorem C38_time_continues (R : Type) (plus : R -> R -> R) (t0 : R) dts dts' :
  simulator_time plus t0 (dts ++ dts') = simulator_time plus (simulator_time plus t0 dts) dts'.
Proof. apply fold_left_app. Qed.

(** *** A setting that meets the hypotheses: 2 x 1 ranks with blocks of 4 x 5 cells *)
Definition e_xg : Z -> nat -> Z -> Z := fun r a i => nth a (block_start [2; 1] [4; 5] r) 0 + (i - 2).
Definition e_cx (rd : nat -> list Z -> Z) (_ : Z) : Z := rd 1%nat [1; 0] - rd 1%nat [-1; 0].
Definition e_cy (rd : nat -> list Z -> Z) (_ : Z) : Z := rd 1%nat [0; -1] - rd 1%nat [0; 1].
Definition e_adv (rd : nat -> list Z -> Z) (old : Z) : Z := old + rd 2%nat [0; 0] * (rd 0%nat [0; 2] - rd 0%nat [0; -2]).
Definition e_dif (rd : nat -> list Z -> Z) (_ : Z) : Z := rd 0%nat [1; 0] + rd 0%nat [-1; 0] - 2 * rd 0%nat [0; 0].
Definition e_frc (rd : nat -> list Z -> Z) (old : Z) : Z := old + rd 5%nat [0; 1] - rd 5%nat [0; -1] - rd 4%nat [1; 0] + rd 4%nat [-1; 0].
Definition e_fv (f : nat) (P : list Z) : Z := if list_eq_dec Z.eq_dec P [3; 2] then Z.of_nat f else 0.
Definition e_step : @ns2_step Z := {| n2_adv := e_adv; n2_dif := e_dif; n2_frc := Some (e_frc, e_fv); n2_free := Some (1, 0) |}.
Ltac is_star := match goal with
  | |- star _ _ [?a; 0] => exists 0%nat, a | |- star _ _ [0; ?a] => exists 1%nat, a end;
  split; [simpl; lia|split; [simpl; lia|reflexivity]].
Ltac local := intros rd rd' o E; unfold e_cx, e_cy, e_adv, e_dif, e_frc, e_step; cbn [n2_adv n2_dif]; unfold e_cx, e_cy, e_adv, e_dif, e_frc; rewrite !E; auto; try (simpl; auto; fail); is_star.
Example setting_instance : ns2_setting 2 1 4 5 2 2 0%nat e_xg (fun _ i => i) 0 1 2 3 4 5 6 7 8 e_cx e_cy.
Proof.
  split; try (split; [local|intros rd o o'; reflexivity]).
  - unfold grid2; lia.
  - lia.
  - lia.
  - lia.
  - reflexivity.
  - intros r a i Hr Ha Hi. reflexivity.
  - repeat constructor; simpl; intuition congruence.
Qed.
Example step_instance : ns2_step_ok 0 (global_size [2; 1] [4; 5]) 0 2 3 4 5 e_step /\ ns2_shapes 0 2 3 4 5 e_step /\ n2_frc e_step <> None.
Proof.
  assert (X : ns2_step_ok 0 (global_size [2; 1] [4; 5]) 0 2 3 4 5 e_step).
  { split; [local|]. split; [local|]. split; [intros rd o o'; reflexivity|]. cbn [n2_frc e_step]. split; [local|]. split.
    - intros rd o E. unfold e_frc. rewrite !E; try (simpl; auto; fail); try is_star. lia.
    - intros f P _ _ He. unfold e_fv. destruct (list_eq_dec Z.eq_dec P [3; 2]) as [->|]; auto. discriminate He. }
  split; [exact X|]. split; [eapply NSThms.shapes2; exact X|discriminate].
Qed.
(** The forcing does something: one step turns it into vorticity. *)
Example step_effect : serial_ns_2d Z.add 0 (fun _ _ v => v) (fun _ i => i) 2 (fun v => v) e_cx e_cy (global_size [2; 1] [4; 5]) 0 1 2 3 4 5 (fun _ _ => 0) e_step 0 [3; 3] <> 0.
Proof. vm_compute. discriminate. Qed.
(** 3D: 2 x 1 x 2 ranks, blocks of 3 x 3 x 4 cells, filter on. *)
Definition e3_c (f : nat) (rd : nat -> list Z -> Z) (_ : Z) : Z := rd f [1; 0; 0] - rd f [-1; 0; 0].
Definition e3_x (f f' : nat) (rd : nat -> list Z -> Z) (_ : Z) : Z := rd f [0; 0; 0] * rd f' [0; 0; 0].
Definition e3_u (f : nat) (rd : nat -> list Z -> Z) (old : Z) : Z := old + rd f [0; 1; 0] - rd f [0; -1; 0].
Definition e3_step : @ns3_step Z := {| n3_crs := (e3_x 0 7, e3_x 1 8, e3_x 2 6); n3_upd := (e3_u 12, e3_u 13, e3_u 14); n3_dif := e3_c;
  n3_frc := Some (e3_u 9, e3_u 10, e3_u 11, fun f P => if list_eq_dec Z.eq_dec P [3; 1; 4] then Z.of_nat f else 0); n3_free := None |}.
Ltac is_star3 := match goal with
  | |- star _ _ [0; ?a; 0] => exists 1%nat, a | |- star _ _ [?a; 0; 0] => exists 0%nat, a end;
  split; [simpl; lia|split; [simpl; lia|reflexivity]].
Ltac local3 := intros rd rd' o E; unfold e3_c, e3_x, e3_u; rewrite !E; auto; try (simpl; auto; fail); try (simpl; tauto); is_star3.
Example setting3_instance : ns3_setting 2 1 2 3 3 4 2 2 (Some (Multiplicative, 1%nat, 2)) (fun r a i => nth a (block_start [2; 1; 2] [3; 3; 4] r) 0 + (i - 2)) (fun _ i => i)
  0 1 2 3 4 5 6 7 8 9 10 11 12 13 14 15 16 17 (e3_c 3) (e3_c 4) (e3_c 5).
Proof.
  split.
  - unfold grid3; lia.
  - lia.
  - lia.
  - repeat constructor; lia.
  - intros r a i Hr Ha Hi. reflexivity.
  - repeat constructor; simpl; intuition congruence.
  - intros K [<-|[<-|[<-|[]]]]; (split; [local3|intros rd o o'; reflexivity]).
  - lia.
Qed.
Example step3_instance : ns3_step_ok 0 (global_size [2; 1; 2] [3; 3; 4]) [0; 1; 2]%nat [6; 7; 8]%nat [12; 13; 14]%nat [9; 10; 11]%nat e3_step /\ n3_frc e3_step <> None.
Proof.
  split; [|discriminate]. split; [|split; [|split]]; cbn [n3_crs n3_upd n3_dif n3_frc e3_step].
  - intros K [<-|[<-|[<-|[]]]]; (split; [local3|intros rd o o'; reflexivity]).
  - intros K [<-|[<-|[<-|[]]]]; local3.
  - intros c Hc; (split; [local3|intros rd o o'; reflexivity]).
  - split.
    + intros K [<-|[<-|[<-|[]]]]; (split; [local3|]); intros rd o E; unfold e3_u; rewrite !E; try (simpl; tauto); try is_star3; lia.
    + intros f P _ _ He. destruct (list_eq_dec Z.eq_dec P [3; 1; 4]) as [->|]; auto. discriminate He.
Qed.
Example time_instance : simulator_time Z.add 5 [1; 2; 3] = 11. Proof. reflexivity. Qed.

Print Assumptions C47_step_ends_2d.
Print Assumptions C47_history_2d.
Print Assumptions C47_decomposition_independent_2d.
Print Assumptions C47_step_ends_3d.
Print Assumptions C47_history_3d.
Print Assumptions C47_decomposition_independent_3d.
Print Assumptions C38_forcing_consumed_2d.
Print Assumptions C38_forcing_consumed_3d.
Print Assumptions C38_time.
Print Assumptions C38_time_continues.
