(** What an interaction leaves in the master's global mismatch and position arrays (used by C57). *)
From Verif Require Import Base SpecGrid SpecLag SpecIB SpecVbf SpecBodies SpecBlocking Comm Blocking BlockFacts Lagrangian LagProofs LagComm RunsTo Vbf VbfProofs.
Open Scope Z_scope.

Section B.
Context {T : Type}.
Variables (add sub mul : T -> T -> T) (z stiff damp : T).
Variables (n nc master : Z) (A : arrays) (N : Z).
Hypothesis HA : NoDup (all_arrays A).
Hypothesis Hnc : 0 <= nc.
Hypothesis Hmaster : 0 <= master < n.
Notation mem_ := (Z -> @lmem T).
Notation inv := (consistent n nc master A N).
Notation valid := (mapping_ok n master N).
Notation interact_with' := (interact_with add sub mul z stiff damp n nc master A).

Lemma init_locals_frame (m : mem_) r a : ~ In (fst a) (locals A) -> local_on n (fun _ => init_local_buffers z A) m r a = m r a.
Proof.
  intros Ha. apply (local_on_frame n). intros _ m0. unfold init_local_buffers. destruct (existsb (Nat.eqb (fst a)) (locals A)) eqn:Ee; [|reflexivity].
  apply existsb_exists in Ee as (x & Hx & Ex). apply Nat.eqb_eq in Ex. rewrite Ex in Ha. contradiction.
Qed.

Lemma interact_book s addr' ord' (m m' : mem_) P V pos body itp : inv s m P V -> valid addr' ord' ->
  (forall r (mm : @lmem T) a, fst a <> lflow A -> itp r mm a = mm a) ->
  runs_to n (interact_with' s addr' ord' pos body itp) m m' ->
  forall c j, 0 <= c < nc -> 0 <= j < N ->
    m' master (gpm A, c * N + j) = P c j /\ m' master (gvm A, c * N + j) = V c j /\ m' master (gpos A, c * N + j) = pos c j.
Proof.
  intros Hi Hv' Hit R0. pose proof (inv_body n nc master A N HA s m P V pos body Hi) as (Hv & Hn & HP & HV).
  pose proof Hv as (Hv1 & Hv2 & Hv3). pose proof Hv' as (Hv1' & Hv2' & Hv3').
  pose proof (arr_neq A HA) as H. decompose [and] H. clear H.
  set (mb := local_on n (body_step nc master A N pos body) m) in *.
  destruct (lag_gather_runs n (address s) nc master (order s) (gpm A) (lpm A) Hmaster Hv1 Hv2 Hnc ltac:(auto) mb) as (m1 & R1 & G1); auto.
  destruct (lag_gather_runs n (address s) nc master (order s) (gvm A) (lvm A) Hmaster Hv1 Hv2 Hnc ltac:(auto) m1) as (m2 & R2 & G2); auto.
  assert (X : exists m3, runs_to n (fun r => if update_flag n s addr' then [BLocal (init_local_buffers z A)] ++ lag_scatter addr' nc master ord' (gpm A) (lpm A) r ++ lag_scatter addr' nc master ord' (gvm A) (lvm A) r else []) m2 m3 /\
    forall r a, In (fst a) [gpm A; gvm A; gpos A] -> m3 r a = m2 r a).
  { destruct (update_flag n s addr').
    - set (mi := local_on n (fun _ => init_local_buffers z A) m2).
      destruct (lag_scatter_runs n addr' nc master ord' (gpm A) (lpm A) Hmaster Hv1' Hv2' Hnc ltac:(auto) mi) as (m4 & R4 & S4); auto.
      destruct (lag_scatter_runs n addr' nc master ord' (gvm A) (lvm A) Hmaster Hv1' Hv2' Hnc ltac:(auto) m4) as (m5 & R5 & S5); auto.
      exists m5. split.
      + refine (runs_to_app _ (fun _ => [BLocal (init_local_buffers z A)]) _ _ mi _ _ _); [apply (runs_to_local n (fun _ => init_local_buffers z A))|]. exact (runs_to_app _ _ _ _ _ _ R4 R5).
      + intros r a Ha. rewrite (scatter_frame n nc master _ _ _ _ _ _ _ S5), (scatter_frame n nc master _ _ _ _ _ _ _ S4).
        * apply init_locals_frame. unfold locals. cbn [In] in *. destruct Ha as [<-|[<-|[<-|[]]]]; intros X; decompose [or] X; congruence.
        * cbn [In] in Ha. destruct Ha as [<-|[<-|[<-|[]]]]; congruence.
        * cbn [In] in Ha. destruct Ha as [<-|[<-|[<-|[]]]]; congruence.
    - exists m2. split; [apply runs_to_nil|auto]. }
  destruct X as (m3 & R3 & F3).
  destruct (lag_scatter_runs n addr' nc master ord' (gpos A) (lpos A) Hmaster Hv1' Hv2' Hnc ltac:(auto) m3) as (m4 & R4 & S4); auto.
  destruct (lag_scatter_runs n addr' nc master ord' (gvel A) (lvel A) Hmaster Hv1' Hv2' Hnc ltac:(auto) m4) as (m5 & R5 & S5); auto.
  set (lf := fun r => local_forcing add sub mul stiff damp nc A (num (remapped n s addr' ord') r) (itp r)).
  set (m6 := local_on n lf m5).
  destruct (lag_gather_runs n addr' nc master ord' (gfo A) (lfo A) Hmaster Hv1' Hv2' Hnc ltac:(auto) m6) as (m7 & R7 & G7); auto.
  assert (R : runs_to n (interact_with' s addr' ord' pos body itp) m m7).
  { refine (runs_to_ext _ _ _ _ _ _ _); [intros r _; symmetry; apply (interact_split add sub mul z stiff damp n nc master A N); destruct Hi as (Hx & _); exact Hx|].
    refine (runs_to_app _ (fun r => [BLocal (body_step nc master A N pos body r)]) _ _ _ _ (runs_to_local n _ m) _). fold mb.
    refine (runs_to_app _ (update_buffers z n nc master A s addr' ord') _ _ m3 _ _ _).
    - exact (runs_to_app _ _ _ _ _ _ R1 (runs_to_app _ _ _ _ _ _ R2 R3)).
    - exact (runs_to_app _ _ _ _ _ _ R4 (runs_to_app _ _ _ _ _ _ R5 (runs_to_app n (fun r => [BLocal (lf r)]) _ _ m6 _ (runs_to_local n lf m5) R7))). }
  rewrite (runs_to_det _ _ _ _ _ R0 R).
  assert (Fr : forall r a, In (fst a) [gpm A; gvm A; gpos A] -> m7 r a = m2 r a).
  { intros r a Ha. rewrite <- (F3 r a Ha). assert (Q : forall x, In x [gfo A; lfo A; lvm A; lflow A; lpos A; lvel A] -> fst a <> x).
    { intros x Hx E. subst x. cbn [In] in Ha, Hx. destruct Ha as [E|[E|[E|[]]]]; rewrite <- E in Hx; decompose [or] Hx; congruence. }
    rewrite (gather_frame n nc master _ _ _ _ _ _ _ G7) by (apply Q; cbn [In]; tauto). unfold m6. rewrite (local_on_frame n).
    - rewrite (scatter_frame n nc master _ _ _ _ _ _ _ S5) by (apply Q; cbn [In]; tauto). apply (scatter_frame n nc master _ _ _ _ _ _ _ S4). apply Q; cbn [In]; tauto.
    - intros r0 m0. unfold lf, local_forcing. rewrite fill_miss by (apply Q; cbn [In]; tauto). rewrite fill_miss by (apply Q; cbn [In]; tauto). apply Hit. apply Q; cbn [In]; tauto. }
  intros c j Hc Hj. rewrite !Fr by (cbn [fst In]; tauto). split; [|split].
  - rewrite (gather_frame n nc master _ _ _ _ _ _ _ G2) by (cbn; auto). now apply (gathered_value n nc master N (address s) (order s) (gpm A) (lpm A) mb m1 P c j).
  - apply (gathered_value n nc master N (address s) (order s) (gvm A) (lvm A) m1 m2 V c j); auto.
    apply (holds_frame n nc _ _ mb); auto. intros. apply (gather_frame n nc master _ _ _ _ _ _ _ G1). cbn. auto.
  - rewrite (gather_frame n nc master _ _ _ _ _ _ _ G2) by (cbn; auto). rewrite (gather_frame n nc master _ _ _ _ _ _ _ G1) by (cbn; auto). unfold mb. rewrite (local_on_in n) by auto.
    now apply (body_step_values nc master A N HA).
Qed.
End B.
