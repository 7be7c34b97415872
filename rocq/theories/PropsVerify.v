(** Property C65: the verification cases (a field is sampled from a formula, advanced, and compared with a formula). *)
From Coq Require Import Reals QArith Lra.
From Verif Require Import Base SpecGrid SpecGhost SpecStencil SpecStep SpecPenalise SpecDouble SpecNS SpecReduce SpecDiag SpecLoop SpecAdaptive SpecVerify
  Comm Spmd PyNum Doubling KernelList Stencil NavierStokes Diagnostics Loop Adaptive Verify.
From Verif Require Import SpecPassive TimeStep PropsAdaptive.
From Verif Require KernelProofs DiagProofs AdaptiveProofs RestartProofs VerifyProofs VerifyRuns.
Open Scope Z_scope.

(** C65.  A field sampled at the ranks' cell positions is, ghost cells included, the formula at the cell centres of the global grid;
    other arrays are as before. *)
Theorem C65_sampled {T} dims loc dx g fs (F : nat -> list Q -> T) m :
  grid_ok dims loc -> 1 <= g -> formula F ->
  (forall r f I, 0 <= r < zprod dims -> In f fs -> inb (ghosted g loc) I ->
     field (from_positions dims loc dx g fs F m) (ghosted g loc) r f I = F f (centre dx (ghost_pos dims loc g r I))) /\
  represents dims loc g fs (from_positions dims loc dx g fs F m) (fun f P => F f (centre dx P)) /\
  (forall r f i, ~ In f fs -> from_positions dims loc dx g fs F m (r, (f, i)) = m (r, (f, i))).
Proof.
  intros Hok Hg HF. split; [|split].
  - intros r f I. now apply VerifyProofs.from_positions_eq.
  - apply RestartProofs.ext_inside; auto. now apply VerifyProofs.from_positions_ext.
  - intros r f i. apply VerifyProofs.from_positions_frame.
Qed.

(** The errors the ranks report exist, and are those of the global arrays. *)
Definition reported_2d (dims loc : list Z) (dx : Q) (g : Z) (fs : list nat) (F : Z -> nat -> list Q -> R) (m : mem R) (e : nat -> list Z -> R) : Prop :=
  (exists x, l2_error_2d dims loc dx g fs F m x) /\ (forall x, l2_error_2d dims loc dx g fs F m x -> x = l2_of (global_size dims loc) fs (Q2R dx) e) /\
  (exists x, linf_error dims loc dx g fs F m x) /\ (forall x, linf_error dims loc dx g fs F m x -> is_linf (global_size dims loc) fs e x).
Definition reported_3d (dims loc : list Z) (dx : Q) (dx15 : R) (g : Z) (fs : list nat) (F : Z -> nat -> list Q -> R) (m : mem R) (e : nat -> list Z -> R) : Prop :=
  (exists x, l2_error_3d dims loc dx g dx15 fs F m x) /\ (forall x, l2_error_3d dims loc dx g dx15 fs F m x -> x = l2_of (global_size dims loc) fs dx15 e) /\
  (exists x, linf_error dims loc dx g fs F m x) /\ (forall x, linf_error dims loc dx g fs F m x -> is_linf (global_size dims loc) fs e x).

(** C65.  Whatever order the reductions take. *)
Theorem C65_errors dims loc dx dx15 g fs (F : Z -> nat -> list Q -> R) G m u :
  grid_ok dims loc -> 1 <= g -> (0 <= dx)%Q -> fs <> [] -> formula G -> (forall r f c, 0 <= r < zprod dims -> In f fs -> F r f c = G f c) ->
  represents dims loc g fs m u ->
  reported_2d dims loc dx g fs F m (deviation dx G u) /\ reported_3d dims loc dx dx15 g fs F m (deviation dx G u).
Proof.
  intros Hok Hg Hdx Hfs HG HF Hu. assert (0 <= Q2R dx)%R by (replace 0%R with (Q2R 0) by (unfold Q2R; cbn; lra); now apply Qreals.Qle_Rle).
  assert (L : (exists x, linf_error dims loc dx g fs F m x) /\ (forall x, linf_error dims loc dx g fs F m x -> is_linf (global_size dims loc) fs (deviation dx G u) x)).
  { split; [now apply VerifyProofs.linf_exists|]. intros x. now apply VerifyProofs.linf_ok. }
  split; (split; [|split; [|exact L]]).
  - now apply VerifyProofs.l2_2d_exists.
  - intros x. now apply VerifyProofs.l2_2d_ok.
  - now apply VerifyProofs.l2_3d_exists.
  - intros x. now apply VerifyProofs.l2_3d_ok.
Qed.
(** C65.  They are numbers of the global grid: no other number is the greatest error. *)
Theorem C65_greatest_is_one N fs e a b : is_linf N fs e a -> is_linf N fs e b -> a = b.
Proof. apply VerifyProofs.linf_unique. Qed.

(** *** A whole verification run, 2D Navier-Stokes (Lamb-Oseen).  lamb_oseen_vortex.py:46-178.  Numbers in exact arithmetic; times in any. *)
Section Two.
Context {W C : Type}.
Variables (before : W -> W -> bool) (plus : W -> W -> W) (zero : W) (due : W -> W -> bool) (limits : list W) (final : W).
Variables (leW : W -> W -> Prop) (mn mxW : W -> W -> W) (mag : list R -> R) (lim : R -> W) (pre : W -> W).
Hypothesis times_ordered : ordered leW mn mxW.
Hypothesis limit_antitone : forall k l, (mag k <= mag l)%R -> leW (lim (mag l)) (lim (mag k)).
Variables (damp : C -> C -> R -> R) (coord : nat -> Z -> C) (width : Z) (conv : (list Z -> R) -> list Z -> R) (Kcx Kcy : @kfun R).
Variables (w psi vx vy fx fy buf D S : nat).
Variable mk : nat -> W -> W -> list (list R) -> @ns2_step R.
Variables (dx : Q) (t0 : W) (F0 : nat -> list Q -> R) (Fend : W -> nat -> list Q -> R).
Hypothesis dx_nonneg : (0 <= dx)%Q.
Hypothesis formulas : formula F0 /\ forall t, formula (Fend t).
Notation Fs := [w; psi; vx; vy].
Notation advance N := (fun k t d u => serial_ns_2d Rplus 0%R damp coord width conv Kcx Kcy N w psi vx vy fx fy u (mk k t d (whole N Fs u))).
Notation setting py px ny nx g dd xg := (ns2_setting py px ny nx g width dd xg coord w psi vx vy fx fy buf D S Kcx Kcy).
Notation steps_ok py px ny nx := (forall k t d ls, ns2_step_ok 0%R (global_size [py; px] [ny; nx]) w vx vy fx fy (mk k t d ls)).
Notation ranks_run py px ny nx g full dd xg := (iterations [py; px] [ny; nx] g before plus zero due limits final mag Rmax lim mn pre [vx; vy] buf
  (kept [py; px] [ny; nx] g Fs) (body_2d Rplus 0%R damp width conv Kcx Kcy w psi vx vy fx fy buf D S mk py px ny nx g full dd xg)).
Notation serial_run N := (serial_iterations before plus zero due limits final Rle mag lim pre N [vx; vy] (fun u => u) (advance N)).
Notation velocity_prog py px ny nx g full dd xg := (compute_velocity_from_vorticity_2d 0%R damp conv py px ny nx g full dd width xg w psi vx vy D S Kcx Kcy).

(** At the start: vorticity and velocity sampled, the other arrays 0. *)
Definition ranks_start dims loc g (m0 : mem R) : config R W unit :=
  {| c_count := 0; c_time := fun _ => t0; c_timers := fun _ => map (fun _ => zero) limits; c_mem := from_positions dims loc dx g [w; vx; vy] F0 m0; c_rest := tt |}.
Definition serial_start : sconfig W (nat -> list Z -> R) :=
  {| s_count := 0; s_time := t0; s_timers := map (fun _ => zero) limits; s_state := fun f P => if in_dec Nat.eq_dec f [w; vx; vy] then F0 f (centre dx P) else 0%R |}.
(** The velocity of the vorticity: sponge, Poisson solution, curl. *)
Definition serial_velocity N u := overwrite_interior 0%R N [(vx, Kcx); (vy, Kcy)] (solve_effect conv 0%R N (on_fields [w] (sponge damp coord N width false [1; 0]%nat) u) (psi, w)).

Lemma start_shown py px ny nx g dd xg m0 : setting py px ny nx g dd xg -> (forall p, m0 p = 0%R) -> all_ranks_at [py; px] [ny; nx] g Fs (ranks_start [py; px] [ny; nx] g m0) serial_start.
Proof.
  intros HS H0. split; [reflexivity|]. split; [intros r _; split; reflexivity|]. intros r f I Hr Hf HI _. cbn [ranks_start c_mem serial_start s_state].
  destruct (in_dec Nat.eq_dec f [w; vx; vy]) as [H|H].
  - apply VerifyProofs.from_positions_eq; auto; [apply (KernelProofs.g2_ok _ _ _ _ _ (s2_grid _ _ _ _ _ _ _ _ _ _ _ _ _ _ _ _ _ _ _ _ HS))|pose proof (s2_ghost _ _ _ _ _ _ _ _ _ _ _ _ _ _ _ _ _ _ _ _ HS) as X; clear - X; lia|apply formulas].
  - unfold field. rewrite VerifyProofs.from_positions_frame by exact H. apply H0.
Qed.

(** C65.  What the ranks report at any time of the run: the vorticity error, and, after computing the velocity from the vorticity, the
    velocity error, against the formula at the ranks' time: these are those of the serial run at that time. *)
Theorem C65_lamb_oseen py px ny nx g full dd xg m0 tr c :
  setting py px ny nx g dd xg -> steps_ok py px ny nx -> (forall p, m0 p = 0%R) ->
  ranks_run py px ny nx g full dd xg (ranks_start [py; px] [ny; nx] g m0) tr c ->
  let N := global_size [py; px] [ny; nx] in let F := fun r => Fend (c_time c r) in
  exists hs s, serial_run N serial_start hs s /\ length hs = length tr /\ (over [py; px] before final c <-> serial_over before final s) /\
    reported_2d [py; px] [ny; nx] dx g [w] F (c_mem c) (deviation dx (Fend (s_time s)) (s_state s)) /\
    (exists m1, spmd_ends (zprod [py; px]) (velocity_prog py px ny nx g full dd xg) (c_mem c) m1) /\
    (forall m1, spmd_ends (zprod [py; px]) (velocity_prog py px ny nx g full dd xg) (c_mem c) m1 ->
       reported_2d [py; px] [ny; nx] dx g [vx; vy] F m1 (deviation dx (Fend (s_time s)) (serial_velocity N (s_state s)))).
Proof.
  intros HS Hst H0 Hrun N F.
  destruct (C59_lockstep_2d before plus zero due limits final Rle Rmin Rmax leW mn mxW mag lim pre DiagProofs.ordered_R times_ordered limit_antitone Rplus 0%R damp coord width conv Kcx Kcy
    w psi vx vy fx fy buf D S mk py px ny nx g full dd xg _ serial_start tr c HS Hst (start_shown py px ny nx g dd xg m0 HS H0) Hrun) as (hs & s & Hser & Hsee & Hat & _).
  exists hs, s. split; [exact Hser|]. split; [symmetry; exact (AdaptiveProofs.same_length _ _ _ Hsee)|].
  pose proof (KernelProofs.g2_ok _ _ _ _ _ (s2_grid _ _ _ _ _ _ _ _ _ _ _ _ _ _ _ _ _ _ _ _ HS)) as Hok.
  assert (Hg : 1 <= g) by (pose proof (s2_ghost _ _ _ _ _ _ _ _ _ _ _ _ _ _ _ _ _ _ _ _ HS) as X; clear - X; lia).
  destruct Hat as (_ & Ht & Hm).
  assert (E : forall fs m u, fs <> [] -> incl fs Fs -> represents_ext false [py; px] [ny; nx] g Fs m u -> reported_2d [py; px] [ny; nx] dx g fs F m (deviation dx (Fend (s_time s)) u)).
  { intros fs m u Hne Hi Hu. apply (C65_errors _ _ dx 0%R g fs F (Fend (s_time s)) m u); auto; [apply formulas|intros r f p Hr _; unfold F; now destruct (Ht r Hr) as [-> _]|].
    intros r f x Hr Hf Hx. apply (RestartProofs.ext_inside [py; px] [ny; nx] g Fs m u); auto. }
  split; [|split; [|split]].
  - unfold over, serial_over, goes_on, rank. split.
    + intros H. assert (R0 : 0 <= 0 < zprod [py; px]) by (pose proof (DiagProofs.ranks_nonempty _ _ Hok) as X; clear - X; lia). rewrite <- (proj1 (Ht 0 R0)). exact (H 0 R0).
    + intros H r Hr. now rewrite (proj1 (Ht r Hr)).
  - apply E; [discriminate|intros f; clear; simpl; tauto|exact Hm].
  - apply (VerifyRuns.velocity_ends Rplus 0%R damp coord width conv Kcx Kcy py px ny nx g full dd xg w psi vx vy fx fy buf D S HS (c_mem c) (s_state s) Hm).
  - intros m1 Hm1. apply E; [discriminate|intros f; clear; simpl; tauto|].
    now apply (VerifyRuns.velocity_ends Rplus 0%R damp coord width conv Kcx Kcy py px ny nx g full dd xg w psi vx vy fx fy buf D S HS (c_mem c) (s_state s) Hm).
Qed.

(** C65.  Two decompositions of one domain report the same errors when their loops are over. *)
Theorem C65_decomposition_independent py px ny nx full dd xg py' px' ny' nx' full' dd' xg' g g' m0 m0' tr c tr' c' :
  setting py px ny nx g dd xg -> setting py' px' ny' nx' g' dd' xg' -> global_size [py; px] [ny; nx] = global_size [py'; px'] [ny'; nx'] -> steps_ok py px ny nx ->
  (forall p, m0 p = 0%R) -> (forall p, m0' p = 0%R) ->
  ranks_run py px ny nx g full dd xg (ranks_start [py; px] [ny; nx] g m0) tr c -> over [py; px] before final c ->
  ranks_run py' px' ny' nx' g' full' dd' xg' (ranks_start [py'; px'] [ny'; nx'] g' m0') tr' c' -> over [py'; px'] before final c' ->
  let F := fun r => Fend (c_time c r) in let F' := fun r => Fend (c_time c' r) in
  (forall x x', l2_error_2d [py; px] [ny; nx] dx g [w] F (c_mem c) x -> l2_error_2d [py'; px'] [ny'; nx'] dx g' [w] F' (c_mem c') x' -> x = x') /\
  (forall x x', linf_error [py; px] [ny; nx] dx g [w] F (c_mem c) x -> linf_error [py'; px'] [ny'; nx'] dx g' [w] F' (c_mem c') x' -> x = x') /\
  (forall m1 m1', spmd_ends (zprod [py; px]) (velocity_prog py px ny nx g full dd xg) (c_mem c) m1 -> spmd_ends (zprod [py'; px']) (velocity_prog py' px' ny' nx' g' full' dd' xg') (c_mem c') m1' ->
     (forall x x', l2_error_2d [py; px] [ny; nx] dx g [vx; vy] F m1 x -> l2_error_2d [py'; px'] [ny'; nx'] dx g' [vx; vy] F' m1' x' -> x = x') /\
     (forall x x', linf_error [py; px] [ny; nx] dx g [vx; vy] F m1 x -> linf_error [py'; px'] [ny'; nx'] dx g' [vx; vy] F' m1' x' -> x = x')).
Proof.
  intros HS HS' EN Hst H0 H0' R1 O1 R2 O2 F F'.
  destruct (C65_lamb_oseen _ _ _ _ _ _ _ _ _ _ _ HS Hst H0 R1) as (hs & s & S1 & _ & V1 & W1 & _ & X1).
  assert (Hst' : steps_ok py' px' ny' nx') by (rewrite <- EN; exact Hst).
  destruct (C65_lamb_oseen _ _ _ _ _ _ _ _ _ _ _ HS' Hst' H0' R2) as (hs' & s' & S2 & _ & V2 & W2 & _ & X2).
  rewrite <- EN in S2. apply V1 in O1. apply V2 in O2. fold F in W1, X1. fold F' in W2, X2.
  assert (EQ : s = s').
  { assert (L : length hs = length hs').
    { apply Nat.le_antisymm; [eapply AdaptiveProofs.serial_over_last; [|exact S2|exact O2|exact S1]|eapply AdaptiveProofs.serial_over_last; [|exact S1|exact O1|exact S2]]; eauto using DiagProofs.ordered_R. }
    eapply AdaptiveProofs.serial_det; [|exact S1|exact S2|exact L]. exact DiagProofs.ordered_R. }
  subst s'. 
  assert (K : forall fs m m' e, reported_2d [py; px] [ny; nx] dx g fs F m e -> reported_2d [py'; px'] [ny'; nx'] dx g' fs F' m' e ->
    (forall x x', l2_error_2d [py; px] [ny; nx] dx g fs F m x -> l2_error_2d [py'; px'] [ny'; nx'] dx g' fs F' m' x' -> x = x') /\
    (forall x x', linf_error [py; px] [ny; nx] dx g fs F m x -> linf_error [py'; px'] [ny'; nx'] dx g' fs F' m' x' -> x = x')).
  { intros fs m m' e (_ & A & _ & B) (_ & A' & _ & B'). rewrite <- EN in A', B'. split; intros x x' Y Y'.
    - now rewrite (A x Y), (A' x' Y').
    - exact (VerifyProofs.linf_unique _ _ _ _ _ (B x Y) (B' x' Y')). }
  destruct (K _ _ _ _ W1 W2) as [K1 K2]. split; [exact K1|]. split; [exact K2|]. intros m1 m1' Y Y'. rewrite <- EN in X2. exact (K _ _ _ _ (X1 m1 Y) (X2 m1' Y')).
Qed.
End Two.

(** *** A whole verification run, 3D advected and diffused vector (point source).  point_source_advection_diffusion.py:36-166. *)
Section Three.
Context {W : Type}.
Variables (before : W -> W -> bool) (plus : W -> W -> W) (zero : W) (due : W -> W -> bool) (limits : list W) (final : W).
Variables (leW : W -> W -> Prop) (mn mxW : W -> W -> W) (mag : list R -> R) (lim : R -> W) (pre : W -> W).
Hypothesis times_ordered : ordered leW mn mxW.
Hypothesis limit_antitone : forall k l, (mag k <= mag l)%R -> leW (lim (mag l)) (lim (mag k)).
Variables (f0 f1 f2 vx vy vz buf : nat) (mk : nat -> W -> W -> (nat -> @kfun R) * (nat -> @kfun R)).
Variables (dx : Q) (dx15 : R) (t0 : W) (F0 : nat -> list Q -> R) (Fend : W -> nat -> list Q -> R).
Hypothesis dx_nonneg : (0 <= dx)%Q.
Hypothesis formulas : formula F0 /\ forall t, formula (Fend t).
Notation Fs := [f0; f1; f2; vx; vy; vz].
Notation ranks_run pz py px n0 n1 n2 full := (iterations [pz; py; px] [n0; n1; n2] 2 before plus zero due limits final mag Rmax lim mn pre [vx; vy; vz] buf
  (kept [pz; py; px] [n0; n1; n2] 2 Fs)
  (fun k t d (m : mem R) (_ : unit) m' (_ : unit) => spmd_ends (zprod [pz; py; px]) (flat_map (tstep_3d Rplus 0%R false pz py px n0 n1 n2 2 full buf vx vy vz) (passive_vector_calls f0 f1 f2 (fst (mk k t d)) (snd (mk k t d)))) m m')).
Notation serial_run N := (serial_iterations before plus zero due limits final Rle mag lim pre N [vx; vy; vz] (fun u => u)
  (fun k t d u => transported_vector Rplus 0%R false N [f0; f1; f2] (fst (mk k t d)) (snd (mk k t d)) u)).
Definition ranks_start_3d dims loc (m0 : mem R) : config R W unit :=
  {| c_count := 0; c_time := fun _ => t0; c_timers := fun _ => map (fun _ => zero) limits; c_mem := from_positions dims loc dx 2 Fs F0 m0; c_rest := tt |}.
Definition serial_start_3d : sconfig W (nat -> list Z -> R) :=
  {| s_count := 0; s_time := t0; s_timers := map (fun _ => zero) limits; s_state := fun f P => F0 f (centre dx P) |}.
(** C65 (3D). *)
Theorem C65_point_source pz py px n0 n1 n2 full m0 tr c :
  grid3 pz py px n0 n1 n2 2 -> 4 <= n0 /\ 4 <= n1 /\ 4 <= n2 -> ~ In buf Fs -> NoDup [f0; f1; f2] -> (forall f, In f [f0; f1; f2] -> ~ In f [vx; vy; vz]) ->
  (forall k t d f, In f [f0; f1; f2] -> star_local 3 [f; vx; vy; vz] 2 (fst (mk k t d) f) /\ star_local 3 [f] 1 (snd (mk k t d) f) /\ overwrites (snd (mk k t d) f)) ->
  ranks_run pz py px n0 n1 n2 full (ranks_start_3d [pz; py; px] [n0; n1; n2] m0) tr c ->
  exists hs s, serial_run (global_size [pz; py; px] [n0; n1; n2]) serial_start_3d hs s /\ length hs = length tr /\ (over [pz; py; px] before final c <-> serial_over before final s) /\
    reported_3d [pz; py; px] [n0; n1; n2] dx dx15 2 [f0; f1; f2] (fun r => Fend (c_time c r)) (c_mem c) (deviation dx (Fend (s_time s)) (s_state s)).
Proof.
  intros G H4 Hb Hnd Hv Hk Hrun. pose proof (KernelProofs.g3_ok _ _ _ _ _ _ _ G) as Hok.
  assert (H0 : all_ranks_at [pz; py; px] [n0; n1; n2] 2 Fs (ranks_start_3d [pz; py; px] [n0; n1; n2] m0) serial_start_3d).
  { split; [reflexivity|]. split; [intros r _; split; reflexivity|]. apply VerifyProofs.from_positions_ext; [exact Hok|lia|apply formulas]. }
  destruct (C59_transport_vector_lockstep_3d before plus zero due limits final Rle Rmin Rmax leW mn mxW mag lim pre DiagProofs.ordered_R times_ordered limit_antitone Rplus 0%R
    buf vx vy vz f0 f1 f2 mk pz py px n0 n1 n2 full _ serial_start_3d tr c G H4 Hb Hnd Hv Hk H0 Hrun) as (hs & s & Hser & Hsee & Hat & _).
  exists hs, s. split; [exact Hser|]. split; [symmetry; exact (AdaptiveProofs.same_length _ _ _ Hsee)|]. destruct Hat as (_ & Ht & Hm). split.
  - unfold over, serial_over, goes_on, rank. split.
    + intros H. assert (R0 : 0 <= 0 < zprod [pz; py; px]) by (pose proof (DiagProofs.ranks_nonempty _ _ Hok) as X; clear - X; lia). rewrite <- (proj1 (Ht 0 R0)). exact (H 0 R0).
    + intros H r Hr. now rewrite (proj1 (Ht r Hr)).
  - apply (C65_errors _ _ dx dx15 2 [f0; f1; f2] (fun r => Fend (c_time c r)) (Fend (s_time s)) (c_mem c) (s_state s)); auto; [lia|discriminate|apply formulas|intros r f p Hr _; now destruct (Ht r Hr) as [-> _]|].
    intros r f x Hr Hf Hx. apply (RestartProofs.ext_inside [pz; py; px] [n0; n1; n2] 2 Fs (c_mem c) (s_state s)); auto; [lia|]. cbn [In] in *. tauto.
Qed.
(** C65 (3D).  Two decompositions of one domain report the same errors when their loops are over. *)
Theorem C65_point_source_decomposition_independent pz py px n0 n1 n2 full pz' py' px' n0' n1' n2' full' m0 m0' tr c tr' c' :
  grid3 pz py px n0 n1 n2 2 -> 4 <= n0 /\ 4 <= n1 /\ 4 <= n2 -> grid3 pz' py' px' n0' n1' n2' 2 -> 4 <= n0' /\ 4 <= n1' /\ 4 <= n2' ->
  global_size [pz; py; px] [n0; n1; n2] = global_size [pz'; py'; px'] [n0'; n1'; n2'] ->
  ~ In buf Fs -> NoDup [f0; f1; f2] -> (forall f, In f [f0; f1; f2] -> ~ In f [vx; vy; vz]) ->
  (forall k t d f, In f [f0; f1; f2] -> star_local 3 [f; vx; vy; vz] 2 (fst (mk k t d) f) /\ star_local 3 [f] 1 (snd (mk k t d) f) /\ overwrites (snd (mk k t d) f)) ->
  ranks_run pz py px n0 n1 n2 full (ranks_start_3d [pz; py; px] [n0; n1; n2] m0) tr c -> over [pz; py; px] before final c ->
  ranks_run pz' py' px' n0' n1' n2' full' (ranks_start_3d [pz'; py'; px'] [n0'; n1'; n2'] m0') tr' c' -> over [pz'; py'; px'] before final c' ->
  let F := fun r => Fend (c_time c r) in let F' := fun r => Fend (c_time c' r) in
  (forall x x', l2_error_3d [pz; py; px] [n0; n1; n2] dx 2 dx15 [f0; f1; f2] F (c_mem c) x -> l2_error_3d [pz'; py'; px'] [n0'; n1'; n2'] dx 2 dx15 [f0; f1; f2] F' (c_mem c') x' -> x = x') /\
  (forall x x', linf_error [pz; py; px] [n0; n1; n2] dx 2 [f0; f1; f2] F (c_mem c) x -> linf_error [pz'; py'; px'] [n0'; n1'; n2'] dx 2 [f0; f1; f2] F' (c_mem c') x' -> x = x').
Proof.
  intros G H4 G' H4' EN Hb Hnd Hv Hk R1 O1 R2 O2 F F'.
  destruct (C65_point_source _ _ _ _ _ _ _ _ _ _ G H4 Hb Hnd Hv Hk R1) as (hs & s & S1 & _ & V1 & W1).
  destruct (C65_point_source _ _ _ _ _ _ _ _ _ _ G' H4' Hb Hnd Hv Hk R2) as (hs' & s' & S2 & _ & V2 & W2).
  rewrite <- EN in S2. apply V1 in O1. apply V2 in O2. fold F in W1. fold F' in W2.
  assert (EQ : s = s').
  { assert (L : length hs = length hs').
    { apply Nat.le_antisymm; [eapply AdaptiveProofs.serial_over_last; [|exact S2|exact O2|exact S1]|eapply AdaptiveProofs.serial_over_last; [|exact S1|exact O1|exact S2]]; eauto using DiagProofs.ordered_R. }
    eapply AdaptiveProofs.serial_det; [|exact S1|exact S2|exact L]. exact DiagProofs.ordered_R. }
  subst s'. destruct W1 as (_ & A & _ & B), W2 as (_ & A' & _ & B'). rewrite <- EN in A', B'. split; intros x x' Y Y'.
  - now rewrite (A x Y), (A' x' Y').
  - exact (VerifyProofs.linf_unique _ _ _ _ _ (B x Y) (B' x' Y')).
Qed.
End Three.

(** *** A case: a field growing with x and y on 2 x 1 ranks with blocks of 4 x 5 cells; times in Z from 0 by 10 to 12 *)
Open Scope R_scope.
Definition pv_f (f : nat) (c : list Q) : R := INR f + Q2R (fold_right Qplus 0%Q c).
Definition pv_cx (rd : nat -> list Z -> R) (_ : R) : R := rd 1%nat [1; 0]%Z - rd 1%nat [-1; 0]%Z.
Definition pv_cy (rd : nat -> list Z -> R) (_ : R) : R := rd 1%nat [0; -1]%Z - rd 1%nat [0; 1]%Z.
Definition pv_adv (rd : nat -> list Z -> R) (old : R) : R := old + rd 2%nat [0; 0]%Z * (rd 0%nat [0; 2]%Z - rd 0%nat [0; -2]%Z).
Definition pv_dif (rd : nat -> list Z -> R) (_ : R) : R := rd 0%nat [1; 0]%Z + rd 0%nat [-1; 0]%Z - 2 * rd 0%nat [0; 0]%Z.
Definition pv_step : @ns2_step R := {| n2_adv := pv_adv; n2_dif := pv_dif; n2_frc := None; n2_free := Some (1, 1) |}.
Close Scope R_scope.
Lemma pv_formula : formula pv_f.
Proof. intros f a b H. unfold pv_f. f_equal. apply Qreals.Qeq_eqR. induction H as [|x y a b Hx H IH]; [reflexivity|]. cbn [fold_right]. now rewrite Hx, IH. Qed.
Ltac pv_local := intros rd rd' o E; unfold pv_cx, pv_cy, pv_adv, pv_dif, pv_step; cbn [n2_adv n2_dif]; unfold pv_cx, pv_cy, pv_adv, pv_dif; rewrite !E; auto; try (simpl; auto; fail); PropsNS.is_star.
Lemma pv_setting : ns2_setting 2 1 4 5 2 2 0%nat PropsNS.e_xg (fun _ i => i) 0 1 2 3 4 5 6 7 8 pv_cx pv_cy.
Proof.
  split; try (split; [pv_local|intros rd o o'; reflexivity]).
  - unfold grid2; lia.
  - lia.
  - lia.
  - lia.
  - reflexivity.
  - intros r a i Hr Ha Hi. reflexivity.
  - repeat constructor; simpl; intuition congruence.
Qed.
Lemma pv_step_ok : ns2_step_ok 0%R (global_size [2; 1] [4; 5]) 0 2 3 4 5 pv_step.
Proof. split; [pv_local|]. split; [pv_local|]. split; [intros rd o o'; reflexivity|exact I]. Qed.
(** The hypotheses hold, runs exist to the end of the loop (two iterations), and the field is not constant. *)
Example C65_nonvacuous :
  let mk := fun (k : nat) (t d : Z) (ls : list (list R)) => pv_step in
  ns2_setting 2 1 4 5 2 2 0%nat PropsNS.e_xg (fun _ i => i) 0 1 2 3 4 5 6 7 8 pv_cx pv_cy /\
  (forall k t d ls, ns2_step_ok 0%R (global_size [2; 1] [4; 5]) 0 2 3 4 5 (mk k t d ls)) /\
  ordered Z.le Z.min Z.max /\ formula pv_f /\ pv_f 0 (centre (1 # 8) [0; 0]) <> pv_f 0 (centre (1 # 8) [0; 1]) /\
  exists tr c, iterations [2; 1] [4; 5] 2 Z.ltb Z.add 0 ax_due [5] 12 abs_sum Rmax (fun _ : R => 10) Z.min (fun d => d) [2; 3]%nat 6%nat (kept [2; 1] [4; 5] 2 [0; 1; 2; 3]%nat)
    (body_2d Rplus 0%R (fun _ _ v => v) 2 (fun v => v) pv_cx pv_cy 0 1 2 3 4 5 6 7 8 mk 2 1 4 5 2 false 0%nat PropsNS.e_xg)
    (ranks_start 0 [5] 0%nat 2%nat 3%nat (1 # 8) 0 pv_f [2; 1] [4; 5] 2 (fun _ => 0%R)) tr c /\ over [2; 1] Z.ltb 12 c /\ length tr = 2%nat.
Proof.
  intros mk. split; [exact pv_setting|]. split; [intros; exact pv_step_ok|]. split; [split; intros; lia|]. split; [exact pv_formula|]. split.
  { intros E. unfold pv_f in E. apply Rplus_eq_reg_l in E. apply Qreals.eqR_Qeq in E. vm_compute in E. discriminate E. }
  assert (zo : ordered Z.le Z.min Z.max) by (split; intros; lia).
  assert (Hok : grid_ok [2; 1] [4; 5]) by exact (KernelProofs.g2_ok _ _ _ _ _ (s2_grid _ _ _ _ _ _ _ _ _ _ _ _ _ _ _ _ _ _ _ _ pv_setting)).
  set (adv := fun (k : nat) (t d : Z) u => serial_ns_2d Rplus 0%R (fun _ _ v => v) (fun (_ : nat) (i : Z) => i) 2 (fun v => v) pv_cx pv_cy (global_size [2; 1] [4; 5]) 0 1 2 3 4 5 u (mk k t d (whole (global_size [2; 1] [4; 5]) [0; 1; 2; 3]%nat u))).
  set (s0 := serial_start 0 [5] 0%nat 2%nat 3%nat (1 # 8) 0 pv_f).
  assert (TE : forall u, exists U, is_max Rle (inb (global_size [2; 1] [4; 5])) (speed abs_sum u [2; 3]%nat) U) by (intros u; apply (DiagProofs.top_exists [2; 1] [4; 5] Hok abs_sum Rle Rmin Rmax DiagProofs.ordered_R)).
  assert (SR : exists hs s, serial_iterations Z.ltb Z.add 0 ax_due [5] 12 Rle abs_sum (fun _ : R => 10) (fun d => d) (global_size [2; 1] [4; 5]) [2; 3]%nat (fun u => u) adv s0 hs s /\ serial_over Z.ltb 12 s /\ length hs = 2%nat).
  { destruct (TE (s_state s0)) as (U & HU). destruct (TE (adv 0%nat 0 10 (s_state s0))) as (U' & HU'). eexists. eexists. split.
    - eapply sis_snoc; [eapply sis_snoc; [apply sis_nil|]|]; [apply si with (U := U); [reflexivity|exact HU]|apply si with (U := U'); [reflexivity|exact HU']].
    - split; reflexivity. }
  assert (H0 : all_ranks_at [2; 1] [4; 5] 2 [0; 1; 2; 3]%nat (ranks_start 0 [5] 0%nat 2%nat 3%nat (1 # 8) 0 pv_f [2; 1] [4; 5] 2 (fun _ => 0%R)) s0).
  { apply (start_shown (C := Z) 0 [5] (fun _ i => i) 2 pv_cx pv_cy 0 1 2 3 4 5 6 7 8 (1 # 8) 0 pv_f (fun _ => pv_f) (conj pv_formula (fun _ => pv_formula)) 2 1 4 5 2 0%nat PropsNS.e_xg (fun _ => 0%R) pv_setting). reflexivity. }
  destruct (C59_ends_as_serial_2d Z.ltb Z.add 0 ax_due [5] 12 Rle Rmin Rmax Z.le Z.min Z.max abs_sum (fun _ : R => 10) (fun d => d) DiagProofs.ordered_R zo (fun _ _ _ => Z.le_refl 10)
    Rplus 0%R (fun _ _ v => v) (fun _ i => i) 2 (fun v => v) pv_cx pv_cy 0 1 2 3 4 5 6 7 8 mk 2 1 4 5 2 false 0%nat PropsNS.e_xg _ s0 pv_setting (fun _ _ _ _ => pv_step_ok) H0) as (EX & LE).
  destruct SR as (hs & s & S1 & S2 & S3). destruct (proj2 EX) as (tr & c & R1 & R2); [exists hs, s; split; assumption|].
  exists tr, c. split; [exact R1|]. split; [exact R2|]. rewrite <- S3. now apply (proj2 (LE hs s S1 S2 tr c R1)).
Qed.
Print Assumptions C65_sampled. Print Assumptions C65_errors. Print Assumptions C65_greatest_is_one. Print Assumptions C65_lamb_oseen. Print Assumptions C65_decomposition_independent. Print Assumptions C65_point_source. Print Assumptions C65_point_source_decomposition_independent.
