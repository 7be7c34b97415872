(** Property C56: restarting a flow simulation from saved vorticity and velocity. *)
From Coq Require Import String Permutation.
From Verif Require Import Base SpecGrid SpecGhost SpecStencil SpecStep SpecPenalise SpecFilter SpecDouble SpecNS Comm Spmd PyNum Doubling KernelList Stencil NavierStokes IoEul Restart SpecRestart.
From Verif Require RestartProofs RestartRefute NSThms KernelProofs NS3D.
Open Scope Z_scope.
Open Scope list_scope.

Section Two.
Context {T C P : Type}.
Variables (add : T -> T -> T) (z : T) (damp : C -> C -> T -> T) (coord : nat -> Z -> C) (width : Z)
          (conv : (list Z -> T) -> list Z -> T) (Kcx Kcy : @kfun T).
Variables (w psi vx vy fx fy buf D S : nat).
Variables (fill : T) (close : P -> P -> bool).
Notation setting py px ny nx g dd xg := (ns2_setting py px ny nx g width dd xg coord w psi vx vy fx fy buf D S Kcx Kcy).
Notation run py px ny nx g full dd xg := (history [py; px] (time_step_2d add z damp conv py px ny nx g full dd width xg w psi vx vy fx fy buf D S Kcx Kcy)
  (fun s => between z [py; px] [ny; nx] g [w; psi; vx; vy] [fx; fy] (forcing_of (n2_frc s)))).

(** C56 (2D).  Vorticity and velocity are saved at any moment (memory m), and loaded, in another simulator of the same domain
    with any decomposition and whatever in its memory (m0).  If the penalised zone is at least 4 cells wide, and no wider
    than half the domain, then both continue alike: with the same steps, vorticity and velocity agree in every cell, and
    from the first step on the stream function too. *)
Theorem C56_restart_2d py px ny nx full dd xg py' px' ny' nx' full' dd' xg' g fs fs' (params params' : P) F hist (m m0 m' e e' : mem T) :
  setting py px ny nx g dd xg -> setting py' px' ny' nx' g dd' xg' -> global_size [py; px] [ny; nx] = global_size [py'; px'] [ny'; nx'] ->
  4 <= width -> Forall (fun n => 2 * width <= n) (global_size [py; px] [ny; nx]) ->
  add_eulerian_all [ny; nx] g [] (flow_fields_2d [ny; nx] g w vx vy) = Some fs -> add_eulerian_all [ny'; nx'] g [] (flow_fields_2d [ny'; nx'] g w vx vy) = Some fs' ->
  saved_as [py; px] [ny; nx] g fs params m F -> loaded_as fill close [py'; px'] [ny'; nx'] g fs' params' F m0 m' ->
  Forall (ns2_step_ok z (global_size [py; px] [ny; nx]) w vx vy fx fy) hist ->
  run py px ny nx g full dd xg hist m e -> run py' px' ny' nx' g full' dd' xg' hist m' e' ->
  agree [py; px] [ny; nx] [py'; px'] [ny'; nx'] g [w; vx; vy] e e' /\ (hist <> [] -> agree [py; px] [ny; nx] [py'; px'] [ny'; nx'] g [w; psi; vx; vy] e e').
Proof.
  exact (RestartProofs.restart2 add z damp coord width conv Kcx Kcy w psi vx vy fx fy buf D S fill close py px ny nx full dd xg py' px' ny' nx' full' dd' xg' g fs fs' params params' F hist m m0 m' e e').
Qed.

(** C56 (2D).  All of this is possible: the fields are accepted, loading succeeds if the parameters match, and the
    restarted simulator runs. *)
Theorem C56_restart_possible_2d py px ny nx dd xg py' px' ny' nx' full' dd' xg' g (params params' : P) hist (m m0 : mem T) :
  setting py px ny nx g dd xg -> setting py' px' ny' nx' g dd' xg' -> global_size [py; px] [ny; nx] = global_size [py'; px'] [ny'; nx'] ->
  close params' params = true -> Forall (ns2_step_ok z (global_size [py; px] [ny; nx]) w vx vy fx fy) hist ->
  exists fs fs', add_eulerian_all [ny; nx] g [] (flow_fields_2d [ny; nx] g w vx vy) = Some fs /\
    add_eulerian_all [ny'; nx'] g [] (flow_fields_2d [ny'; nx'] g w vx vy) = Some fs' /\ (exists F, saved_as [py; px] [ny; nx] g fs params m F) /\
    forall F, saved_as [py; px] [ny; nx] g fs params m F -> exists m' e', loaded_as fill close [py'; px'] [ny'; nx'] g fs' params' F m0 m' /\ run py' px' ny' nx' g full' dd' xg' hist m' e'.
Proof.
  intros HS HS' EN Hc Hh. destruct (RestartProofs.set_ok _ _ _ _ _ _ _ _ _ _ _ _ _ _ _ _ _ _ _ _ HS) as (Hok & Hg & _). destruct (RestartProofs.set_ok _ _ _ _ _ _ _ _ _ _ _ _ _ _ _ _ _ _ _ _ HS') as (Hok' & _ & _).
  eexists. eexists. split; [now apply RestartProofs.fields2|]. split; [now apply RestartProofs.fields2|]. split; [eexists; eexists; split; [apply Permutation_refl|reflexivity]|].
  intros F HF. destruct (RestartProofs.reload_ok fill close [py; px] [ny; nx] g _ m params F [py'; px'] [ny'; nx'] g [EScalar "vorticity" w; EVector "velocity" [vx; vy]] params' m0 Hok Hok' EN ltac:(lia)
    (RestartProofs.fresh2 w vx vy)) as (m' & HL); auto.
  { cbn. pose proof (RestartProofs.arrays6 _ _ _ _ _ _ _ _ _ _ _ _ _ _ _ _ _ _ _ _ HS) as Hnd. clear -Hnd. inversion Hnd; subst. inversion H2; subst. inversion H4; subst. inversion H6; subst. repeat constructor; simpl in *; tauto. }
  { intros f' Hf'. exists f'. split; auto. destruct f'; cbn; auto. }
  assert (X : exists e', run py' px' ny' nx' g full' dd' xg' hist m' e').
  { apply NSThms.history_exists.
    - intros s m1 _. apply NSThms.between_exists; [exact Hok'|lia|]. pose proof (RestartProofs.arrays6 _ _ _ _ _ _ _ _ _ _ _ _ _ _ _ _ _ _ _ _ HS) as Hnd.
      clear -Hnd. intros f Hf. change (NoDup ([w; psi; vx; vy] ++ [fx; fy])) in Hnd. apply IoLagProofs.NoDup_app_split in Hnd as (_ & _ & X). intros Hf'. exact (X f Hf' Hf).
    - intros s m1 Hs. eapply (NSThms.step2_ends add z damp coord width conv Kcx Kcy); eauto. eapply NSThms.shapes2. rewrite Forall_forall in Hh. eauto. }
  destruct X as (e' & He'). eauto.
Qed.

(** C56 (2D).  For a penalised zone of any width: if the cells around the domain are restored as well, the stream function
    need not be. *)
Theorem C56_restart_with_ghosts_2d py px ny nx full dd xg py' px' ny' nx' full' dd' xg' g hist (m m' e e' : mem T) u :
  setting py px ny nx g dd xg -> setting py' px' ny' nx' g dd' xg' -> global_size [py; px] [ny; nx] = global_size [py'; px'] [ny'; nx'] ->
  represents_ext false [py; px] [ny; nx] g [w; vx; vy] m u -> represents_ext false [py'; px'] [ny'; nx'] g [w; vx; vy] m' u ->
  Forall (ns2_step_ok z (global_size [py; px] [ny; nx]) w vx vy fx fy) hist ->
  run py px ny nx g full dd xg hist m e -> run py' px' ny' nx' g full' dd' xg' hist m' e' ->
  agree [py; px] [ny; nx] [py'; px'] [ny'; nx'] g [w; vx; vy] e e' /\ (hist <> [] -> agree [py; px] [ny; nx] [py'; px'] [ny'; nx'] g [w; psi; vx; vy] e e').
Proof.
  exact (RestartProofs.restart2_ghosts add z damp coord width conv Kcx Kcy w psi vx vy fx fy buf D S py px ny nx full dd xg py' px' ny' nx' full' dd' xg' g hist m m' e e' u).
Qed.
End Two.

Section Three.
Context {T C P : Type}.
Variables (add : T -> T -> T) (z : T) (damp : C -> C -> T -> T) (coord : nat -> Z -> C) (width : Z)
          (conv : (list Z -> T) -> list Z -> T) (Kcx Kcy Kcz : @kfun T)
          (lap : T -> T -> T -> T) (sub : T -> T -> T) (filt : option (filter_type * nat * Z)).
Variables (w0 w1 w2 p0 p1 p2 vx vy vz fx fy fz b0 b1 b2 buf D S : nat).
Variables (fill : T) (close : P -> P -> bool).
Notation flow := [w0; w1; w2; p0; p1; p2; vx; vy; vz].
Notation kept := [w0; w1; w2; vx; vy; vz].
Notation setting pz py px n0 n1 n2 g xg := (ns3_setting pz py px n0 n1 n2 g width filt xg coord w0 w1 w2 p0 p1 p2 vx vy vz fx fy fz b0 b1 b2 buf D S Kcx Kcy Kcz).
Notation run pz py px n0 n1 n2 g full xg := (history [pz; py; px] (fun sr => time_step_3d add z damp conv lap sub filt pz py px n0 n1 n2 g full width xg
    w0 w1 w2 p0 p1 p2 vx vy vz fx fy fz b0 b1 b2 buf D S Kcx Kcy Kcz (snd sr) (fst sr))
  (fun sr => between z [pz; py; px] [n0; n1; n2] g flow [fx; fy; fz] (forcing_of (n3_frc (fst sr))))).
Notation step_ok N := (ns3_step_ok z N [w0; w1; w2] [vx; vy; vz] [b0; b1; b2] [fx; fy; fz]).

(** C56 (3D).  The same if the penalised zone is at least 3 cells wide and the filter is off or leaves at least 3 cells at
    the boundary alone. *)
Theorem C56_restart_3d pz py px n0 n1 n2 full xg pz' py' px' n0' n1' n2' full' xg' g fs fs' (params params' : P) F hist hist' (m m0 m' e e' : mem T) :
  setting pz py px n0 n1 n2 g xg -> setting pz' py' px' n0' n1' n2' g xg' -> global_size [pz; py; px] [n0; n1; n2] = global_size [pz'; py'; px'] [n0'; n1'; n2'] ->
  3 <= width -> Forall (fun n => 2 * width <= n) (global_size [pz; py; px] [n0; n1; n2]) -> match filt with Some (_, _, bw) => 3 <= bw | None => True end ->
  add_eulerian_all [n0; n1; n2] g [] (flow_fields_3d [n0; n1; n2] g w0 w1 w2 vx vy vz) = Some fs -> add_eulerian_all [n0'; n1'; n2'] g [] (flow_fields_3d [n0'; n1'; n2'] g w0 w1 w2 vx vy vz) = Some fs' ->
  saved_as [pz; py; px] [n0; n1; n2] g fs params m F -> loaded_as fill close [pz'; py'; px'] [n0'; n1'; n2'] g fs' params' F m0 m' ->
  map fst hist' = map fst hist -> Forall (step_ok (global_size [pz; py; px] [n0; n1; n2])) (map fst hist) ->
  run pz py px n0 n1 n2 g full xg hist m e -> run pz' py' px' n0' n1' n2' g full' xg' hist' m' e' ->
  agree [pz; py; px] [n0; n1; n2] [pz'; py'; px'] [n0'; n1'; n2'] g kept e e' /\ (hist <> [] -> agree [pz; py; px] [n0; n1; n2] [pz'; py'; px'] [n0'; n1'; n2'] g flow e e').
Proof.
  exact (RestartProofs.restart3 add z damp coord width conv Kcx Kcy Kcz lap sub filt w0 w1 w2 p0 p1 p2 vx vy vz fx fy fz b0 b1 b2 buf D S fill close
    pz py px n0 n1 n2 full xg pz' py' px' n0' n1' n2' full' xg' g fs fs' params params' F hist hist' m m0 m' e e').
Qed.

Theorem C56_restart_possible_3d pz py px n0 n1 n2 xg pz' py' px' n0' n1' n2' full' xg' g (params params' : P) hist (m m0 : mem T) :
  setting pz py px n0 n1 n2 g xg -> setting pz' py' px' n0' n1' n2' g xg' -> global_size [pz; py; px] [n0; n1; n2] = global_size [pz'; py'; px'] [n0'; n1'; n2'] ->
  close params' params = true -> Forall (step_ok (global_size [pz; py; px] [n0; n1; n2])) (map fst hist) ->
  exists fs fs', add_eulerian_all [n0; n1; n2] g [] (flow_fields_3d [n0; n1; n2] g w0 w1 w2 vx vy vz) = Some fs /\
    add_eulerian_all [n0'; n1'; n2'] g [] (flow_fields_3d [n0'; n1'; n2'] g w0 w1 w2 vx vy vz) = Some fs' /\ (exists F, saved_as [pz; py; px] [n0; n1; n2] g fs params m F) /\
    forall F, saved_as [pz; py; px] [n0; n1; n2] g fs params m F -> exists m' e', loaded_as fill close [pz'; py'; px'] [n0'; n1'; n2'] g fs' params' F m0 m' /\ run pz' py' px' n0' n1' n2' g full' xg' hist m' e'.
Proof.
  intros HS HS' EN Hc Hh. destruct (RestartProofs.set_ok3 _ _ _ _ _ _ _ _ _ _ _ _ _ _ _ _ _ _ _ _ _ _ _ _ _ _ _ _ _ _ _ _ HS) as (Hok & Hg & _).
  destruct (RestartProofs.set_ok3 _ _ _ _ _ _ _ _ _ _ _ _ _ _ _ _ _ _ _ _ _ _ _ _ _ _ _ _ _ _ _ _ HS') as (Hok' & _ & _).
  eexists. eexists. split; [now apply RestartProofs.fields3|]. split; [now apply RestartProofs.fields3|]. split; [eexists; eexists; split; [apply Permutation_refl|reflexivity]|].
  intros F HF. destruct (RestartProofs.reload_ok fill close [pz; py; px] [n0; n1; n2] g _ m params F [pz'; py'; px'] [n0'; n1'; n2'] g [EVector "vorticity" [w0; w1; w2]; EVector "velocity" [vx; vy; vz]] params' m0 Hok Hok' EN ltac:(lia)
    (RestartProofs.fresh3 w0 w1 w2 vx vy vz)) as (m' & HL); auto.
  { pose proof (RestartProofs.arrays15 _ _ _ _ _ _ _ _ _ _ _ _ _ _ _ _ _ _ _ _ _ _ _ _ _ _ _ _ _ _ _ _ HS) as Hnd. clear -Hnd. apply IoLagProofs.NoDup_app_split in Hnd as (A & B & X). apply IoLagProofs.NoDup_app_split in B as (_ & B & _).
    apply IoLagProofs.NoDup_app_split in B as (B & _ & _). change (NoDup ([w0; w1; w2] ++ [vx; vy; vz])). apply IoEulProofs.NoDup_app_intro'; auto.
    intros x Hx Hx'. apply (X x Hx). apply in_or_app. right. apply in_or_app. now left. }
  { intros f' Hf'. exists f'. split; auto. destruct f'; cbn; auto. }
  assert (X : exists e', run pz' py' px' n0' n1' n2' g full' xg' hist m' e').
  { apply NSThms.history_exists.
    - intros s m1 _. apply NSThms.between_exists; [exact Hok'|lia|]. destruct HS as [_ _ _ _ _ Hnd _ _]. intros f Hf. eapply NS3D.f_not_0; eauto.
    - intros [s race] m1 Hs. eapply (NSThms.step3_ends add z damp coord width conv Kcx Kcy Kcz); eauto. eapply NSThms.shapes3. rewrite Forall_forall in Hh. apply Hh. now apply (in_map fst) in Hs. }
  destruct X as (e' & He'). eauto.
Qed.

Theorem C56_restart_with_ghosts_3d pz py px n0 n1 n2 full xg pz' py' px' n0' n1' n2' full' xg' g hist hist' (m m' e e' : mem T) u :
  setting pz py px n0 n1 n2 g xg -> setting pz' py' px' n0' n1' n2' g xg' -> global_size [pz; py; px] [n0; n1; n2] = global_size [pz'; py'; px'] [n0'; n1'; n2'] ->
  represents_ext false [pz; py; px] [n0; n1; n2] g kept m u -> represents_ext false [pz'; py'; px'] [n0'; n1'; n2'] g kept m' u ->
  map fst hist' = map fst hist -> Forall (step_ok (global_size [pz; py; px] [n0; n1; n2])) (map fst hist) ->
  run pz py px n0 n1 n2 g full xg hist m e -> run pz' py' px' n0' n1' n2' g full' xg' hist' m' e' ->
  agree [pz; py; px] [n0; n1; n2] [pz'; py'; px'] [n0'; n1'; n2'] g kept e e' /\ (hist <> [] -> agree [pz; py; px] [n0; n1; n2] [pz'; py'; px'] [n0'; n1'; n2'] g flow e e').
Proof.
  exact (RestartProofs.restart3_ghosts add z damp coord width conv Kcx Kcy Kcz lap sub filt w0 w1 w2 p0 p1 p2 vx vy vz fx fy fz b0 b1 b2 buf D S
    pz py px n0 n1 n2 full xg pz' py' px' n0' n1' n2' full' xg' g hist hist' m m' e e' u).
Qed.
End Three.

(** C56.  What a restart restores: the saved arrays in the domain.  Every other cell, in particular those around the domain,
    keeps what the loading simulator had there. *)
Theorem C56_what_is_restored (T P : Type) (fill : T) (close : P -> P -> bool) dims loc g fs (m : mem T) (params : P) F dims' loc' (params' : P) m0 m' Fs u u0 :
  grid_ok dims loc -> grid_ok dims' loc' -> global_size dims loc = global_size dims' loc' -> 1 <= g ->
  NoDup (map fst (all_datasets fs)) -> NoDup (flat_map arrays_of fs) -> incl (flat_map arrays_of fs) Fs ->
  saved_as dims loc g fs params m F -> loaded_as fill close dims' loc' g fs params' F m0 m' ->
  represents_ext false dims loc g Fs m u -> represents_ext false dims' loc' g Fs m0 u0 ->
  represents_ext false dims' loc' g Fs m' (fun f Q => if inbb (global_size dims loc) Q && (if in_dec Nat.eq_dec f (flat_map arrays_of fs) then true else false) then u f Q else u0 f Q).
Proof.
  intros H1 H2 H3 H4 H5 H6 H7. apply (RestartRefute.reload_ext fill close dims loc g fs m params F dims' loc' fs params' m0 m' Fs u u0); auto.
  intros f' Hf'. exists f'. repeat split; auto. destruct f'; cbn; auto.
Qed.

(** FINDING (2D).  With a penalised zone of 2 (the default) or 3 cells a restart on the same decomposition is not exact:
    from a simple state one step is made, vorticity and velocity are saved and loaded into a fresh simulator (all arrays
    zero), and after one more step in each the vorticities differ.  (The penalised zone is copied into the cells around
    the domain, the next advection reads them, and a restart loses them.) *)
Theorem C56_narrow_zone_2d_refuted width : width = 2 \/ width = 3 ->
  ns2_setting 2 1 4 8 2 width 0%nat RestartRefute.r_xg (fun _ i => i) 0 1 2 3 4 5 6 7 8 RestartRefute.r_cx RestartRefute.r_cy /\
  ns2_step_ok 0 (global_size [2; 1] [4; 8]) 0 2 3 4 5 RestartRefute.r_step /\
  exists m F m' e e', RestartRefute.r_run width [RestartRefute.r_step] RestartRefute.r_start m /\
    saved_as [2; 1] [4; 8] 2 RestartRefute.r_fields tt m F /\ loaded_as 0 (fun _ _ => true) [2; 1] [4; 8] 2 RestartRefute.r_fields tt F (fun _ => 0) m' /\
    RestartRefute.r_run width [RestartRefute.r_step] m e /\ RestartRefute.r_run width [RestartRefute.r_step] m' e' /\ ~ agree [2; 1] [4; 8] [2; 1] [4; 8] 2 [0%nat] e e'.
Proof.
  intros Hw. split; [apply RestartRefute.r_setting; lia|]. split; [exact RestartRefute.r_step_ok|]. apply RestartRefute.narrow2; [lia|]. destruct Hw as [-> | ->].
  - exists [3; 1]. split; [repeat constructor; lia|exact RestartRefute.narrow2_2].
  - exists [3; 2]. split; [repeat constructor; lia|exact RestartRefute.narrow2_3].
Qed.
(** FINDING (3D).  The same with a zone of 2 cells (the default), and with a zone of 3 cells and a filter that spares 1
    boundary cell (the default). *)
Theorem C56_narrow_zone_3d_refuted width filt : (width = 2 /\ filt = None) \/ (width = 3 /\ filt = Some (Convolution, 1%nat, 1)) ->
  ns3_setting 1 2 1 8 4 8 2 width filt RestartRefute.q_xg (fun _ i => i) 0 1 2 3 4 5 6 7 8 9 10 11 12 13 14 15 16 17 (RestartRefute.q_c 3) (RestartRefute.q_c 4) (RestartRefute.q_c 5) /\
  ns3_step_ok 0 (global_size [1; 2; 1] [8; 4; 8]) [0; 1; 2]%nat [6; 7; 8]%nat [12; 13; 14]%nat [9; 10; 11]%nat RestartRefute.q_step /\
  exists m F m' e e', RestartRefute.q_run width filt [(RestartRefute.q_step, fun _ _ _ => 0)] RestartRefute.q_start m /\
    saved_as [1; 2; 1] [8; 4; 8] 2 RestartRefute.q_fields tt m F /\ loaded_as 0 (fun _ _ => true) [1; 2; 1] [8; 4; 8] 2 RestartRefute.q_fields tt F (fun _ => 0) m' /\
    RestartRefute.q_run width filt [(RestartRefute.q_step, fun _ _ _ => 0)] m e /\ RestartRefute.q_run width filt [(RestartRefute.q_step, fun _ _ _ => 0)] m' e' /\
    ~ agree [1; 2; 1] [8; 4; 8] [1; 2; 1] [8; 4; 8] 2 [0%nat] e e'.
Proof.
  intros Hw. assert (A : 1 <= width <= 4) by lia. assert (B : match filt with Some (_, order, bw) => (1 <= order)%nat /\ 1 <= bw <= 4 | None => True end) by (destruct Hw as [[_ ->]|[_ ->]]; cbn; auto; lia).
  split; [now apply RestartRefute.q_setting|]. split; [exact RestartRefute.q_step_ok|]. apply RestartRefute.narrow3; [exact A|exact B|]. destruct Hw as [[-> ->]|[-> ->]].
  - exists [1; 3; 3]. split; [repeat constructor; lia|exact RestartRefute.narrow3_2].
  - exists [2; 3; 3]. split; [repeat constructor; lia|exact RestartRefute.narrow3_3].
Qed.

(** Settings that meet the hypotheses: the same simulators with a zone of 4 cells (2D), of 3 cells and a filter sparing 3 (3D). *)
Example C56_nonvacuous_2d : ns2_setting 2 1 4 8 2 4 0%nat RestartRefute.r_xg (fun _ i => i) 0 1 2 3 4 5 6 7 8 RestartRefute.r_cx RestartRefute.r_cy /\
  Forall (fun n => 2 * 4 <= n) (global_size [2; 1] [4; 8]) /\ ns2_step_ok 0 (global_size [2; 1] [4; 8]) 0 2 3 4 5 RestartRefute.r_step.
Proof. split; [apply RestartRefute.r_setting; lia|]. split; [repeat constructor; lia|exact RestartRefute.r_step_ok]. Qed.
Example C56_nonvacuous_3d : ns3_setting 1 2 1 8 4 8 2 3 (Some (Convolution, 1%nat, 3)) RestartRefute.q_xg (fun _ i => i) 0 1 2 3 4 5 6 7 8 9 10 11 12 13 14 15 16 17 (RestartRefute.q_c 3) (RestartRefute.q_c 4) (RestartRefute.q_c 5) /\
  Forall (fun n => 2 * 3 <= n) (global_size [1; 2; 1] [8; 4; 8]) /\
  ns3_step_ok 0 (global_size [1; 2; 1] [8; 4; 8]) [0; 1; 2]%nat [6; 7; 8]%nat [12; 13; 14]%nat [9; 10; 11]%nat RestartRefute.q_step.
Proof. split; [apply RestartRefute.q_setting; [lia|cbn; lia]|]. split; [repeat constructor; lia|exact RestartRefute.q_step_ok]. Qed.

Print Assumptions C56_restart_2d.
Print Assumptions C56_restart_possible_2d.
Print Assumptions C56_restart_with_ghosts_2d.
Print Assumptions C56_restart_3d.
Print Assumptions C56_restart_possible_3d.
Print Assumptions C56_restart_with_ghosts_3d.
Print Assumptions C56_what_is_restored.
Print Assumptions C56_narrow_zone_2d_refuted.
Print Assumptions C56_narrow_zone_3d_refuted.
