(** The adaptive loop around the Navier-Stokes time steps. *)
From Verif Require Import Base SpecGrid SpecGhost SpecStencil SpecStep SpecPenalise SpecFilter SpecDouble SpecNS SpecReduce SpecDiag SpecLoop SpecAdaptive
  Comm Spmd PyNum Doubling KernelList Stencil NavierStokes Diagnostics DiagProofs Adaptive AdaptiveProofs Loop.
From Verif Require Import FieldProofs IoEulProofs GhostGeo HaloKernels HaloThms NSSteps LoopProofs.
From Verif Require KernelProofs NS2D NS3D NSThms LoopProofs PropsNS.
Open Scope Z_scope.
Lemma nodup_sep {A} (l l' : list A) x : NoDup (l ++ l') -> In x l -> In x l' -> False.
Proof.
  induction l as [|a l IH]; intros N H H'; [destruct H|]. cbn in N. apply NoDup_cons_iff in N as [N1 N2]. destruct H as [<-|H]; [|eauto]. apply N1. apply in_or_app. now right.
Qed.

Section G.
Context {T : Type}.
Variables (z : T) (dims loc : list Z) (g : Z) (Fs : list nat).
Hypothesis Hok : grid_ok dims loc.
Hypothesis Hg : 1 <= g.
Notation rep := (@represents_ext T false dims loc g Fs).
Lemma rep_sub vel (m : mem T) u : incl vel Fs -> rep m u -> represents dims loc g vel m u.
Proof.
  intros Hi H r f x Hr Hf Hx. rewrite (H r f (map (fun i => i + g) x)); auto; [now rewrite sub_pos|apply inner_inb; [lia|]|left]; now apply add_inner.
Qed.
Lemma rep_store mag vel buf (m : mem T) u : ~ In buf Fs -> rep m u -> rep (store_magnitude loc g mag vel buf m) u.
Proof.
  intros Hb H r f I Hr Hf HI Hin. unfold field. rewrite store_frame by (intros ->; auto). now apply H.
Qed.
Lemma whole_same (m : mem T) u : rep m u -> whole (global_size dims loc) Fs (assembled z dims loc g m) = whole (global_size dims loc) Fs u.
Proof.
  intros H. unfold whole. apply map_ext_in. intros f Hf. apply map_ext_in. intros P HP.
  assert (HP' : inb (global_size dims loc) P).
  { unfold positions in HP. apply in_map_iff in HP as (k & <- & Hk). apply zrange_In in Hk. apply unravel_inb; [now apply positive_gs|lia]. }
  destruct (tile_at dims loc P Hok HP') as (r & y & Hr & Hy & ->). unfold assembled. rewrite (owner_at dims loc r y Hok Hr Hy).
  pose proof (H r f (map (fun i => i + g) y) Hr Hf) as E. unfold field in E. rewrite sub_pos in E. apply E; [apply inner_inb; [lia|]|left]; now apply add_inner.
Qed.

(** The loop around any program that moves the flow as [advance] says. *)
Section L.
Context {W : Type}.
Variables (before : W -> W -> bool) (plus : W -> W -> W) (zero : W) (due : W -> W -> bool) (limits : list W) (final : W).
Variables (le : T -> T -> Prop) (mnT mx : T -> T -> T) (leW : W -> W -> Prop) (mn mxW : W -> W -> W).
Variables (mag : list T -> T) (lim : T -> W) (pre : W -> W) (vel : list nat) (buf : nat).
Hypothesis OrdT : ordered le mnT mx.
Hypothesis OrdW : ordered leW mn mxW.
Hypothesis Anti : forall k l, le (mag k) (mag l) -> leW (lim (mag l)) (lim (mag k)).
Hypothesis Hvel : incl vel Fs.
Hypothesis Hbuf : ~ In buf Fs.
Variables (body : nat -> W -> W -> mem T -> unit -> mem T -> unit -> Prop) (advance : nat -> W -> W -> (nat -> list Z -> T) -> nat -> list Z -> T).
Hypothesis Hbody : forall k t d m u e, rep m u -> (exists m1 e1, body k t d m e m1 e1) /\ (forall m1 e1, body k t d m e m1 e1 -> rep m1 (advance k t d u)).
Notation N := (global_size dims loc).
Notation iteration := (iteration dims loc g before plus zero due limits final mag mx lim mn pre vel buf (kept dims loc g Fs) body).
Notation iterations := (iterations dims loc g before plus zero due limits final mag mx lim mn pre vel buf (kept dims loc g Fs) body).
Notation apart := (apart dims loc g before due limits final mag mx lim mn pre vel buf (kept dims loc g Fs)).
Notation serial_iterations := (serial_iterations before plus zero due limits final le mag lim pre N vel (fun u => u) advance).
Definition repc (m : mem T) (e : unit) (s : sconfig W (nat -> list Z -> T)) : Prop := rep m (s_state s).
Definition repe (m : mem T) (e : unit) (u : nat -> list Z -> T) : Prop := rep m u.
Notation cshows := (cshows dims repc).
Notation eshows := (eshows repe).

Lemma Hshow m (e : unit) s : repc m e s -> (exists m1, kept dims loc g Fs m m1) /\ (forall m1, kept dims loc g Fs m m1 -> repc m1 e s).
Proof. intros H. split; [exists m; intros r f I _ _ _ _; reflexivity|]. intros m1 K. eapply NS2D.kept_ext; eauto. Qed.
Lemma Hbodyc m e s h s' : repc m e s -> serial_iteration before plus zero due limits final le mag lim pre N vel (fun u => u) advance s h s' ->
  (exists m1 e1, body (s_count s) (s_time s) (h_dt h) m e m1 e1) /\ (forall m1 e1, body (s_count s) (s_time s) (h_dt h) m e m1 e1 -> repc m1 e1 s').
Proof. intros H It. destruct It as [U G HU d]. subst d. destruct (Hbody (s_count s) (s_time s) (pre (lim U)) m (s_state s) e H) as [A B]. split; [exact A|]. intros m1 e1 X. exact (B m1 e1 X). Qed.
Lemma lockstep (c0 : config T W unit) (s0 : sconfig W _) tr c : cshows c0 s0 -> iterations c0 tr c ->
  exists hs s, serial_iterations s0 hs s /\ Forall2 eshows tr hs /\ cshows c s /\ ~ apart c /\ (over dims before final c \/ exists e c', iteration c e c').
Proof.
  exact (all_lockstep dims loc g before plus zero due limits final le mnT mx leW mn mxW mag lim pre vel buf (kept dims loc g Fs) body (fun u => u) advance repc repe
    Hok Hg OrdT OrdW Anti (fun m e s => rep_sub vel m (s_state s) Hvel) Hshow (fun m e s => rep_store mag vel buf m (s_state s) Hbuf) Hbodyc (fun m e s H => H) c0 s0 tr c).
Qed.
Lemma finishes (c0 : config T W unit) (s0 : sconfig W _) : cshows c0 s0 ->
  ((exists tr c, iterations c0 tr c /\ over dims before final c) <-> (exists hs s, serial_iterations s0 hs s /\ serial_over before final s)) /\
  (forall hs s, serial_iterations s0 hs s -> serial_over before final s -> forall tr c, iterations c0 tr c ->
     (length tr <= length hs)%nat /\ (over dims before final c <-> length tr = length hs)).
Proof.
  exact (all_finish dims loc g before plus zero due limits final le mnT mx leW mn mxW mag lim pre vel buf (kept dims loc g Fs) body (fun u => u) advance repc repe
    Hok Hg OrdT OrdW Anti (fun m e s => rep_sub vel m (s_state s) Hvel) Hshow (fun m e s => rep_store mag vel buf m (s_state s) Hbuf) Hbodyc (fun m e s H => H) c0 s0).
Qed.
End L.
End G.

(** Two runs that show the same serial run. *)
Section I.
Context {T W : Type}.
Variables (dims loc dims' loc' : list Z) (g : Z) (Fs : list nat).
Variables (before : W -> W -> bool) (plus : W -> W -> W) (zero : W) (due : W -> W -> bool) (limits : list W) (final : W).
Variables (le : T -> T -> Prop) (mnT mx : T -> T -> T) (leW : W -> W -> Prop) (mn mxW : W -> W -> W).
Variables (mag : list T -> T) (lim : T -> W) (pre : W -> W) (vel : list nat) (buf buf' : nat).
Hypothesis OrdT : ordered le mnT mx.
Hypothesis OrdW : ordered leW mn mxW.
Hypothesis Anti : forall k l, le (mag k) (mag l) -> leW (lim (mag l)) (lim (mag k)).
Hypothesis Hvel : incl vel Fs.
Hypothesis Hbuf : ~ In buf Fs.
Hypothesis Hbuf' : ~ In buf' Fs.
Hypothesis Hok : grid_ok dims loc.
Hypothesis Hok' : grid_ok dims' loc'.
Hypothesis Hg : 1 <= g.
Hypothesis EN : global_size dims loc = global_size dims' loc'.
Variables (body body' : nat -> W -> W -> mem T -> unit -> mem T -> unit -> Prop) (advance : nat -> W -> W -> (nat -> list Z -> T) -> nat -> list Z -> T).
Notation rep := (@represents_ext T false dims loc g Fs).
Notation rep' := (@represents_ext T false dims' loc' g Fs).
Hypothesis Hbody : forall k t d m u e, rep m u -> (exists m1 e1, body k t d m e m1 e1) /\ (forall m1 e1, body k t d m e m1 e1 -> rep m1 (advance k t d u)).
Hypothesis Hbody' : forall k t d m u e, rep' m u -> (exists m1 e1, body' k t d m e m1 e1) /\ (forall m1 e1, body' k t d m e m1 e1 -> rep' m1 (advance k t d u)).

Lemma independent c0 c0' s0 tr c tr' c' : cshows dims (repc dims loc g Fs) c0 s0 -> cshows dims' (repc dims' loc' g Fs) c0' s0 ->
  iterations dims loc g before plus zero due limits final mag mx lim mn pre vel buf (kept dims loc g Fs) body c0 tr c ->
  iterations dims' loc' g before plus zero due limits final mag mx lim mn pre vel buf' (kept dims' loc' g Fs) body' c0' tr' c' ->
  (length tr = length tr' \/ (over dims before final c /\ over dims' before final c')) ->
  Forall2 (fun e e' => e_due e = e_due e' /\ e_dt e = e_dt e' /\ agree dims loc dims' loc' g Fs (e_mem e) (e_mem e')) tr tr' /\
  (forall r r', rank dims r -> rank dims' r' -> c_time c r = c_time c' r' /\ c_timers c r = c_timers c' r') /\
  agree dims loc dims' loc' g Fs (c_mem c) (c_mem c').
Proof.
  intros H H' It It' Hl.
  destruct (lockstep dims loc g Fs Hok Hg before plus zero due limits final le mnT mx leW mn mxW mag lim pre vel buf OrdT OrdW Anti Hvel Hbuf body advance Hbody c0 s0 tr c H It) as (hs & s & S1 & F1 & C1 & _).
  destruct (lockstep dims' loc' g Fs Hok' Hg before plus zero due limits final le mnT mx leW mn mxW mag lim pre vel buf' OrdT OrdW Anti Hvel Hbuf' body' advance Hbody' c0' s0 tr' c' H' It') as (hs' & s' & S2 & F2 & C2 & _).
  rewrite <- EN in S2.
  exact (same_serial dims loc dims' loc' before plus zero due limits final le mnT mx mag lim pre vel (fun u => u) advance OrdT Hok Hok' _ (repe dims loc g Fs) _ (repe dims' loc' g Fs)
    (fun m e s H => H) (fun m e s H => H) (fun m (_ : unit) m' (_ : unit) => agree dims loc dims' loc' g Fs m m') (fun m e m' e' x A A' => StepHistory.ext_agree false dims loc dims' loc' g Fs m m' x Hg Hok Hok' A A') s0 hs s hs' s' tr tr' c c' S1 S2 F1 F2 C1 C2 Hl).
Qed.
End I.
(** Checking a maximum. *)
Lemma is_max_check N (F : list Z -> Z) U : existsb (fun p => F p =? U) (box (map (fun _ => 0) N) N) && forallb (fun p => F p <=? U) (box (map (fun _ => 0) N) N) = true -> is_max Z.le (inb N) F U.
Proof.
  intros H. apply andb_true_iff in H as [H1 H2]. apply existsb_exists in H1 as (p & Hp & E). rewrite forallb_forall in H2. split.
  - exists p. split; [now apply inb_box_In|]. apply Z.eqb_eq in E. auto.
  - intros q Hq. apply Z.leb_le, H2. now apply inb_box_In.
Qed.
