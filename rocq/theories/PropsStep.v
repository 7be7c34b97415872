(** Property C44: histories of explicit time steps. *)
From Verif Require Import Base SpecGrid SpecGhost SpecStencil SpecStep SpecPassive Comm Spmd Stencil KernelList TimeStep.
From Verif Require StepHistory Refute3 PassiveThms.

(** C44.  Any sequence of advection and diffusion time-step calls, run
    asynchronously on all ranks, ends in one memory, and its inner cells (and
    the out-of-domain ghosts the next call will read) are those of the serial
    sequence on the global grid.  Diffusion: any ghost size up to the block
    extents.  Advection: ghost size 2, blocks at least 4 wide. *)
Theorem C44_history_2d (T : Type) (add : T -> T -> T) (z : T) per py px ny nx g full buf vx vy Fs hist (m : mem T) u :
  grid2 py px ny nx g -> ~ In buf Fs -> incl [vx; vy] Fs ->
  Forall (tstep_ok [ny; nx] g Fs [vx; vy]) hist -> represents_ext per [py; px] [ny; nx] g Fs m u ->
  exists m', spmd_ends (zprod [py; px]) (flat_map (tstep_2d add z per py px ny nx g full buf vx vy) hist) m m' /\
    represents_ext per [py; px] [ny; nx] g Fs m'
      (fold_left (fun u s => serial_tstep add z per (global_size [py; px] [ny; nx]) s u) hist u).
Proof. exact (StepHistory.history_2d add z per py px ny nx g full buf vx vy Fs hist m u). Qed.

Theorem C44_history_3d (T : Type) (add : T -> T -> T) (z : T) per pz py px n0 n1 n2 g full buf vx vy vz Fs hist (m : mem T) u :
  grid3 pz py px n0 n1 n2 g -> ~ In buf Fs -> incl [vx; vy; vz] Fs ->
  Forall (tstep_ok [n0; n1; n2] g Fs [vx; vy; vz]) hist -> represents_ext per [pz; py; px] [n0; n1; n2] g Fs m u ->
  exists m', spmd_ends (zprod [pz; py; px]) (flat_map (tstep_3d add z per pz py px n0 n1 n2 g full buf vx vy vz) hist) m m' /\
    represents_ext per [pz; py; px] [n0; n1; n2] g Fs m'
      (fold_left (fun u s => serial_tstep add z per (global_size [pz; py; px] [n0; n1; n2]) s u) hist u).
Proof. exact (StepHistory.history_3d add z per pz py px n0 n1 n2 g full buf vx vy vz Fs hist m u). Qed.

(** Two runs of the same history with different decompositions of the same
    domain, started from the same global arrays, end with the same values. *)
Theorem C44_decomposition_independent_2d (T : Type) (add : T -> T -> T) (z : T) per py px ny nx py' px' ny' nx' g full full' buf vx vy Fs hist (m m' : mem T) u :
  grid2 py px ny nx g -> grid2 py' px' ny' nx' g -> global_size [py; px] [ny; nx] = global_size [py'; px'] [ny'; nx'] ->
  ~ In buf Fs -> incl [vx; vy] Fs ->
  Forall (tstep_ok [ny; nx] g Fs [vx; vy]) hist -> Forall (tstep_ok [ny'; nx'] g Fs [vx; vy]) hist ->
  represents_ext per [py; px] [ny; nx] g Fs m u -> represents_ext per [py'; px'] [ny'; nx'] g Fs m' u ->
  exists e e', spmd_ends (zprod [py; px]) (flat_map (tstep_2d add z per py px ny nx g full buf vx vy) hist) m e /\
    spmd_ends (zprod [py'; px']) (flat_map (tstep_2d add z per py' px' ny' nx' g full' buf vx vy) hist) m' e' /\
    agree [py; px] [ny; nx] [py'; px'] [ny'; nx'] g Fs e e'.
Proof. exact (StepHistory.independent_2d add z per py px ny nx py' px' ny' nx' g full full' buf vx vy Fs hist m m' u). Qed.

Theorem C44_decomposition_independent_3d (T : Type) (add : T -> T -> T) (z : T) per pz py px n0 n1 n2 pz' py' px' n0' n1' n2' g full full' buf vx vy vz Fs hist (m m' : mem T) u :
  grid3 pz py px n0 n1 n2 g -> grid3 pz' py' px' n0' n1' n2' g ->
  global_size [pz; py; px] [n0; n1; n2] = global_size [pz'; py'; px'] [n0'; n1'; n2'] ->
  ~ In buf Fs -> incl [vx; vy; vz] Fs ->
  Forall (tstep_ok [n0; n1; n2] g Fs [vx; vy; vz]) hist -> Forall (tstep_ok [n0'; n1'; n2'] g Fs [vx; vy; vz]) hist ->
  represents_ext per [pz; py; px] [n0; n1; n2] g Fs m u -> represents_ext per [pz'; py'; px'] [n0'; n1'; n2'] g Fs m' u ->
  exists e e', spmd_ends (zprod [pz; py; px]) (flat_map (tstep_3d add z per pz py px n0 n1 n2 g full buf vx vy vz) hist) m e /\
    spmd_ends (zprod [pz'; py'; px']) (flat_map (tstep_3d add z per pz' py' px' n0' n1' n2' g full' buf vx vy vz) hist) m' e' /\
    agree [pz; py; px] [n0; n1; n2] [pz'; py'; px'] [n0'; n1'; n2'] g Fs e e'.
Proof. exact (StepHistory.independent_3d add z per pz py px n0 n1 n2 pz' py' px' n0' n1' n2' g full full' buf vx vy vz Fs hist m m' u). Qed.

(** The passive simulators' time steps are such histories (2D and 3D scalar, 3D vector). *)
Theorem C44_passive_scalar_calls_ok (T : Type) loc g Fs vel fld (steps : list (@kfun T * @kfun T)) :
  In fld Fs -> g = 2 -> Forall (fun n => 4 <= n) loc ->
  Forall (fun Ks => star_local (length loc) (fld :: vel) 2 (fst Ks) /\ star_local (length loc) [fld] 1 (snd Ks) /\ overwrites (snd Ks)) steps ->
  Forall (tstep_ok loc g Fs vel) (flat_map (fun Ks => passive_scalar_calls fld (fst Ks) (snd Ks)) steps).
Proof. exact (StepHistory.scalar_calls_ok loc g Fs vel fld steps). Qed.
Theorem C44_passive_vector_calls_ok (T : Type) loc g Fs vel f0 f1 f2 (steps : list ((nat -> @kfun T) * (nat -> @kfun T))) :
  incl [f0; f1; f2] Fs -> g = 2 -> Forall (fun n => 4 <= n) loc ->
  Forall (fun Ks => forall f, In f [f0; f1; f2] ->
    star_local (length loc) (f :: vel) 2 (fst Ks f) /\ star_local (length loc) [f] 1 (snd Ks f) /\ overwrites (snd Ks f)) steps ->
  Forall (tstep_ok loc g Fs vel) (flat_map (fun Ks => passive_vector_calls f0 f1 f2 (fst Ks) (snd Ks)) steps).
Proof. exact (StepHistory.vector_calls_ok loc g Fs vel f0 f1 f2 steps). Qed.

(** Any number of steps of the passive simulators: advect, then diffuse the advected array;
    a vector component by component. *)
Theorem C44_passive_scalar_2d (T : Type) (add : T -> T -> T) (z : T) per py px ny nx g full buf vx vy Fs fld steps (m : mem T) u :
  grid2 py px ny nx g -> ~ In buf Fs -> incl [vx; vy] Fs -> In fld Fs -> g = 2 -> 4 <= ny /\ 4 <= nx ->
  Forall (fun Ks : @kfun T * @kfun T => star_local 2 [fld; vx; vy] 2 (fst Ks) /\ star_local 2 [fld] 1 (snd Ks) /\ overwrites (snd Ks)) steps ->
  represents_ext per [py; px] [ny; nx] g Fs m u ->
  exists m', spmd_ends (zprod [py; px]) (flat_map (tstep_2d add z per py px ny nx g full buf vx vy) (flat_map (fun Ks => passive_scalar_calls fld (fst Ks) (snd Ks)) steps)) m m' /\
    represents_ext per [py; px] [ny; nx] g Fs m'
      (fold_left (fun u Ks => transported add z per (global_size [py; px] [ny; nx]) fld (fst Ks) (snd Ks) u) steps u).
Proof. exact (PassiveThms.passive_scalar_2d add z per py px ny nx g full buf vx vy Fs fld steps m u). Qed.
Theorem C44_passive_scalar_3d (T : Type) (add : T -> T -> T) (z : T) per pz py px n0 n1 n2 g full buf vx vy vz Fs fld steps (m : mem T) u :
  grid3 pz py px n0 n1 n2 g -> ~ In buf Fs -> incl [vx; vy; vz] Fs -> In fld Fs -> g = 2 -> 4 <= n0 /\ 4 <= n1 /\ 4 <= n2 ->
  Forall (fun Ks : @kfun T * @kfun T => star_local 3 [fld; vx; vy; vz] 2 (fst Ks) /\ star_local 3 [fld] 1 (snd Ks) /\ overwrites (snd Ks)) steps ->
  represents_ext per [pz; py; px] [n0; n1; n2] g Fs m u ->
  exists m', spmd_ends (zprod [pz; py; px]) (flat_map (tstep_3d add z per pz py px n0 n1 n2 g full buf vx vy vz) (flat_map (fun Ks => passive_scalar_calls fld (fst Ks) (snd Ks)) steps)) m m' /\
    represents_ext per [pz; py; px] [n0; n1; n2] g Fs m'
      (fold_left (fun u Ks => transported add z per (global_size [pz; py; px] [n0; n1; n2]) fld (fst Ks) (snd Ks) u) steps u).
Proof. exact (PassiveThms.passive_scalar_3d add z per pz py px n0 n1 n2 g full buf vx vy vz Fs fld steps m u). Qed.
Theorem C44_passive_vector_3d (T : Type) (add : T -> T -> T) (z : T) per pz py px n0 n1 n2 g full buf vx vy vz Fs f0 f1 f2 steps (m : mem T) u :
  grid3 pz py px n0 n1 n2 g -> ~ In buf Fs -> incl [vx; vy; vz] Fs -> incl [f0; f1; f2] Fs -> NoDup [f0; f1; f2] -> (forall f, In f [f0; f1; f2] -> ~ In f [vx; vy; vz]) ->
  g = 2 -> 4 <= n0 /\ 4 <= n1 /\ 4 <= n2 ->
  Forall (fun Ks : (nat -> @kfun T) * (nat -> @kfun T) => forall f, In f [f0; f1; f2] ->
    star_local 3 [f; vx; vy; vz] 2 (fst Ks f) /\ star_local 3 [f] 1 (snd Ks f) /\ overwrites (snd Ks f)) steps ->
  represents_ext per [pz; py; px] [n0; n1; n2] g Fs m u ->
  exists m', spmd_ends (zprod [pz; py; px]) (flat_map (tstep_3d add z per pz py px n0 n1 n2 g full buf vx vy vz) (flat_map (fun Ks => passive_vector_calls f0 f1 f2 (fst Ks) (snd Ks)) steps)) m m' /\
    represents_ext per [pz; py; px] [n0; n1; n2] g Fs m'
      (fold_left (fun u Ks => transported_vector add z per (global_size [pz; py; px] [n0; n1; n2]) [f0; f1; f2] (fst Ks) (snd Ks) u) steps u).
Proof. exact (PassiveThms.passive_vector_3d add z per pz py px n0 n1 n2 g full buf vx vy vz Fs f0 f1 f2 steps m u). Qed.

(** FINDING: with more than two ghost layers the hypothesis "ghost size 2" is
    needed: two advection steps give results that depend on the decomposition. *)
Theorem C44_wide_ghost_refuted :
  ~ (forall per py px ny nx py' px' ny' nx' g full buf vx vy Fs fld (K : @kfun Z) (k : nat) (m m' : mem Z) u,
      grid2 py px ny nx g -> grid2 py' px' ny' nx' g -> global_size [py; px] [ny; nx] = global_size [py'; px'] [ny'; nx'] ->
      2 <= g -> Forall (fun n => 4 <= n) [ny; nx; ny'; nx'] ->
      ~ In buf Fs -> incl [fld; vx; vy] Fs -> star_local 2 [fld; vx; vy] 2 K ->
      represents_ext per [py; px] [ny; nx] g Fs m u -> represents_ext per [py'; px'] [ny'; nx'] g Fs m' u ->
      exists e e', spmd_ends (zprod [py; px]) (flat_map (tstep_2d Z.add 0 per py px ny nx g full buf vx vy) (repeat (Adv fld K) k)) m e /\
        spmd_ends (zprod [py'; px']) (flat_map (tstep_2d Z.add 0 per py' px' ny' nx' g full buf vx vy) (repeat (Adv fld K) k)) m' e' /\
        agree [py; px] [ny; nx] [py'; px'] [ny'; nx'] g Fs e e').
Proof. exact Refute3.wide_ghost_refuted. Qed.

(** The hypotheses are satisfiable: 2 x 3 ranks, a history mixing both steps. *)
Definition lap5 (rd : nat -> list Z -> Z) (_ : Z) : Z :=
  rd 1%nat [1; 0] + rd 1%nat [-1; 0] + rd 1%nat [0; 1] + rd 1%nat [0; -1] - 4 * rd 1%nat [0; 0].
Definition adv (rd : nat -> list Z -> Z) (old : Z) : Z :=
  old + rd 2%nat [0; 0] * (rd 1%nat [0; 2] - rd 1%nat [0; -2]) + rd 3%nat [0; 0] * (rd 1%nat [1; 0] - rd 1%nat [-1; 0]).
Ltac is_star := match goal with
  | |- star _ _ [?a; 0] => exists 0%nat, a | |- star _ _ [0; ?a] => exists 1%nat, a end;
  split; [simpl; lia|split; [simpl; lia|reflexivity]].
Example history_instance : grid2 2 3 4 5 2 /\ ~ In 0%nat [1%nat; 2%nat; 3%nat] /\
  Forall (tstep_ok [4; 5] 2 [1%nat; 2%nat; 3%nat] [2%nat; 3%nat]) [Adv 1 adv; Dif 1 lap5; Adv 1 adv].
Proof.
  assert (A : star_local 2 [1%nat; 2%nat; 3%nat] 2 adv).
  { intros rd rd' o E. unfold adv. rewrite !E; auto; try (simpl; auto; fail); is_star. }
  assert (L : star_local 2 [1%nat] 1 lap5).
  { intros rd rd' o E. unfold lap5. rewrite !E; auto; try (simpl; auto; fail); is_star. }
  split; [unfold grid2; lia|]. split; [simpl; intuition lia|].
  repeat (constructor; [simpl; repeat split; auto; repeat constructor; lia|]). constructor.
Qed.
Example passive_vector_instance :
  grid3 2 1 2 4 4 5 2 /\ ~ In 0%nat [1; 2; 3; 4; 5; 6]%nat /\ NoDup [4; 5; 6]%nat /\ (forall f, In f [4; 5; 6]%nat -> ~ In f [1; 2; 3]%nat) /\
  forall f, star_local 3 [f; 1; 2; 3]%nat 2 (fun (rd : nat -> list Z -> Z) (o : Z) => o + rd 1%nat [0; 0; 0] * rd f [0; 0; -2]) /\
    star_local 3 [f] 1 (fun (rd : nat -> list Z -> Z) (_ : Z) => rd f [0; 1; 0] - rd f [0; 0; 0]) /\
    overwrites (fun (rd : nat -> list Z -> Z) (_ : Z) => rd f [0; 1; 0] - rd f [0; 0; 0]).
Proof.
  split; [unfold grid3; lia|]. split; [cbn; lia|]. split; [repeat constructor; cbn; lia|]. split; [cbn; lia|]. intros f. split; [|split; [|intros rd o o'; reflexivity]].
  - intros rd rd' o E. rewrite (E 1%nat [0; 0; 0]), (E f [0; 0; -2]); auto; try (cbn; auto; fail).
    + exists 2%nat, (-2). repeat split; cbn; lia.
    + exists 0%nat, 0. repeat split; cbn; lia.
  - intros rd rd' o E. rewrite (E f [0; 1; 0]), (E f [0; 0; 0]); auto; try (cbn; auto; fail).
    + exists 0%nat, 0. repeat split; cbn; lia.
    + exists 1%nat, 1. repeat split; cbn; lia.
Qed.
(** Every family of global arrays has a distributed representation, for any decomposition. *)
Example ext_instance (T : Type) per dims loc g F (u : nat -> list Z -> T) :
  represents_ext per dims loc g F (fun l => u (fst (snd l)) (ghost_pos dims loc g (fst l) (unravel (ghosted g loc) (snd (snd l))))) u.
Proof. intros r f I _ _ HI _. unfold field. simpl. now rewrite unravel_ravel. Qed.

Print Assumptions C44_history_2d.
Print Assumptions C44_history_3d.
Print Assumptions C44_decomposition_independent_2d.
Print Assumptions C44_decomposition_independent_3d.
Print Assumptions C44_passive_scalar_calls_ok.
Print Assumptions C44_passive_vector_calls_ok.
Print Assumptions C44_wide_ghost_refuted.
Print Assumptions C44_passive_scalar_2d.
Print Assumptions C44_passive_scalar_3d.
Print Assumptions C44_passive_vector_3d.
