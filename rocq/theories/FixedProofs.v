(** Proofs for C69. *)
From Coq Require Import QArith.
From Verif Require Import Base SpecGrid SpecStep SpecLag SpecIB SpecVbf SpecBodies SpecReduce SpecCoupled SpecLoop SpecDiag SpecAdaptive SpecDriver SpecDrag SpecFixed Comm Blocking Spmd Lagrangian Vbf Coupled SpecTracks Loop Diagnostics Adaptive Driver Drag.
From Verif Require LagProofs DragProofs.
Open Scope Z_scope.

(** Nodes and the ranks in whose blocks they lie are mapped nodes. *)
Lemma mapped_to dims loc dx shift nodes a : (0 < dx)%Q -> grid_ok dims loc ->
  Forall2 (fun pos r => 0 <= r < zprod dims /\ in_block dx shift dims loc r pos) nodes a -> Forall (in_domain dx shift dims loc) nodes ->
  map_nodes false dims loc dx shift (Z.of_nat (length dims)) nodes = Mapped a.
Proof.
  intros Hd HG H D. destruct (LagProofs.map_in_domain false dims loc dx shift Hd nodes HG D) as (a' & -> & F2). f_equal. clear D. revert a H.
  induction F2 as [|x r xs rs (R1 & R2 & R3) _ IH]; intros a H; inversion H as [|? y ? ys [Y1 Y2] Y3]; subst; [reflexivity|]. rewrite (R3 y Y1 Y2). f_equal. now apply IH.
Qed.
Lemma inside_in_domain dims loc dx shift width nodes : grid_ok dims loc -> stays_inside dx shift (global_size dims loc) width nodes -> Forall (in_domain dx shift dims loc) nodes.
Proof.
  intros HG [I1 _]. refine (Forall_impl _ _ I1). intros x X. unfold in_domain. replace (map (fun _ : Z => 0) dims) with (map (fun _ : Z => 0) (global_size dims loc)); [exact X|].
  destruct HG as [E _ _]. clear - E. unfold global_size. revert loc E. induction dims as [|d ds IH]; intros [|l ls] E; cbn in *; try discriminate; auto. f_equal. apply IH. congruence.
Qed.

Section F.
Context {T F F' B L V W : Type}.
Variables (before : W -> W -> bool) (plus : W -> W -> W) (zero : W) (due : W -> W -> bool) (limits : list W) (final : W).
Variables (le : T -> T -> Prop) (mag : list T -> T) (lim : T -> W) (pre : W -> W).
Variables (dims loc : list Z) (Fs fs vels : list nat) (nb : nat) (actors : nat -> actor T) (rules : nat -> body_rules T B L) (look : list (list T) -> V).
Variables (add sub mul : T -> T -> T) (z : T) (scale : T -> T) (sum : list T -> T) (dx shift : Q).
Variable flow_step : (Z -> list Z -> T) -> (nat -> list Z -> T) -> F -> nat -> list Z -> T.
Variables (b : nat) (value : W -> T) (step : nat -> W -> W -> F) (ord : nat -> list Z -> list Z) (lifts : (list V -> F -> F') -> Prop) (flow_ok : F' -> Prop).
Notation nc := (Z.of_nat (length fs)).
Notation script := (fixed_calls b value step).
Notation advance := (driven nc (global_size dims loc) Fs (fun b => a_body (actors b)) rules look three script add sub mul z scale sum dx shift vels flow_step).
Notation one := (serial_iteration before plus zero due limits final le mag lim pre (global_size dims loc) vels (fun x => cs_u (fst x)) advance).
Notation prun := (placed_run add sub mul z scale sum dx shift dims loc vels Fs fs actors rules three script look ord lifts flow_step one).
Notation calls := (driver_calls add sub mul z scale sum dx shift dims loc vels Fs fs actors rules three script look ord flow_step).
Variables (s0 : sconfig W (cstate T * (nat -> B))) (a0 : nat -> list Z).
Notation x0 := (snd (s_state s0)).
Notation pose0 := (placed dx shift dims loc ord b (pose_of rules b (x0 b))).
Hypothesis Hpos : (0 < dx)%Q.
Hypothesis HG : grid_ok dims loc.
Hypothesis Hb : (b < nb)%nat.
Hypothesis Hauto : a_auto (actors b) = true.
Hypothesis Hcount : Z.of_nat (length (b_nodes (rules b) (x0 b))) = v_count (a_body (actors b)).
Hypothesis Hin : stays_inside dx shift (global_size dims loc) (v_width (a_body (actors b))) (b_nodes (rules b) (x0 b)).
Hypothesis Hmap : map_nodes false dims loc dx shift (Z.of_nat (length dims)) (b_nodes (rules b) (x0 b)) = Mapped (a0 b).
Hypothesis Hord : forall a, NoDup (ord b a) /\ forall s, In s (ord b a) <-> In s a /\ s <> a_master (actors b).
Hypothesis Hlocal : a_local (actors b) = true -> a0 b = repeat (a_master (actors b)) (Z.to_nat (v_count (a_body (actors b)))).

Lemma calls_are (lift : list V -> F -> F') s d : exists v w, calls lift s d = [EAdvance b (value d); EFull b (placed dx shift dims loc ord b (pose_of rules b (snd (s_state s) b))); EFlow (lift [v; w] (step (s_count s) (s_time s) d))].
Proof using. eexists. eexists. unfold driver_calls, three. cbn. reflexivity. Qed.
Lemma pose_address : p_address pose0 = a0 b /\ p_nodes pose0 = b_nodes (rules b) (x0 b) /\ p_order pose0 = ord b (a0 b).
Proof using Hmap. unfold placed. cbn [p_nodes pose_of]. rewrite Hmap. cbn. auto. Qed.
Lemma pose_legal : pose_ok dims loc dx shift (a_master (actors b)) (a_body (actors b)) pose0.
Proof using Hpos HG Hcount Hin Hmap Hord.
  destruct pose_address as (E1 & E2 & E3). destruct Hin as [I1 I2].
  pose proof (inside_in_domain dims loc dx shift _ _ HG Hin) as D.
  destruct (LagProofs.map_in_domain false dims loc dx shift Hpos (b_nodes (rules b) (x0 b)) HG D) as (a' & E' & F2). rewrite Hmap in E'. injection E' as <-.
  split; rewrite ?E2; auto.
  - now rewrite E1.
  - rewrite E1, E3. split; [|split].
    + clear - F2. induction F2; constructor; tauto.
    + apply Hord.
    + rewrite <- Hcount. f_equal. symmetry. clear - F2. induction F2; cbn; congruence.
Qed.
Lemma stays hs s a : prun s0 a0 hs s a -> snd (s_state s) = x0 /\ a b = a0 b.
Proof using Hmap.
  induction 1 as [|hs s a h s' lift R [IH1 IH2] I Hl]; [now split|]. inversion I as [U _ _ E1 E2]. split.
  - cbn [s_state]. rewrite (proj2 (DragProofs.fixed_iteration nc (global_size dims loc) Fs (fun b => a_body (actors b)) rules look add sub mul z scale sum dx shift vels flow_step b value step _ _ _ _)). exact IH1.
  - match goal with |- places_after _ (driver_calls _ _ _ _ _ _ _ _ _ _ _ _ _ _ _ _ _ _ _ _ _ _ ?d) _ = _ => destruct (calls_are lift s d) as (v & w & ->) end. unfold places_after. cbn [fold_left]. unfold set_at. rewrite Nat.eqb_refl, IH1. exact (proj1 pose_address).
Qed.
(** The calls are legal, whatever the flow does. *)
Lemma fixed_legal hs s a (lift : list V -> F -> F') d : prun s0 a0 hs s a -> (forall v w k t d, flow_ok (lift [v; w] (step k t d))) ->
  Forall (event_ok dims loc nb actors dx shift flow_ok) (calls lift s d) /\ ghosts_ok actors false (calls lift s d) /\ moves_ok (zprod dims) a (calls lift s d).
Proof using Hpos HG Hb Hauto Hcount Hin Hmap Hord Hlocal.
  intros R Hf. destruct (stays hs s a R) as [E1 E2]. destruct (calls_are lift s d) as (v & w & ->). rewrite E1. destruct pose_address as (P1 & _). split; [|split].
  - repeat (apply Forall_cons || apply Forall_nil); cbn [event_ok]; auto. split; [exact Hb|]. split; [exact pose_legal|]. rewrite P1. exact Hlocal.
  - cbn. rewrite Hauto. auto.
  - cbn [moves_ok moves_change_counts]. rewrite P1. split; [|exact I]. split; [|exact I]. intros _. now rewrite E2.
Qed.
End F.
