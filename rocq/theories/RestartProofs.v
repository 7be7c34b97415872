(** Proofs for C56. *)
From Coq Require Import String Permutation.
From Verif Require Import Base SpecGrid SpecGhost SpecStencil SpecStep SpecPenalise SpecFilter SpecDouble SpecNS Comm Spmd PyNum Doubling KernelList Stencil NavierStokes IoEul Restart SpecRestart RestartSerial.
From Verif Require KernelProofs StepHistory NSThms NSBase HaloThms IoEulProofs GhostGeo HaloKernels.
Open Scope Z_scope.
Open Scope list_scope.

(** *** Reloading *)
Section R.
Context {T P : Type}.
Variables (fill : T) (close : P -> P -> bool).
Lemma reload dims loc g fs (m : mem T) (params : P) F dims' loc' g' fs' (params' : P) m0 m' :
  grid_ok dims loc -> grid_ok dims' loc' -> global_size dims loc = global_size dims' loc' -> 0 <= g' ->
  creates_fresh fs -> NoDup (flat_map arrays_of fs') -> (forall f', In f' fs' -> exists f, In f fs /\ same_field f f') ->
  saved_as dims loc g fs params m F -> loaded_as fill close dims' loc' g' fs' params' F m0 m' ->
  forall f f' c a a' u, In f fs -> In f' fs' -> same_field f f' -> nth_error (arrays_of f) c = Some a -> nth_error (arrays_of f') c = Some a' ->
     represents dims loc g [a] m u -> represents dims' loc' g' [a'] m' (fun _ => u a).
Proof.
  intros H1 H2 H3 H4 H5 H6 H7 (ws & Hp & ->) HL f f' c a a' u Hf Hf' Hs Ha Ha' Hu.
  destruct (IoEulProofs.restart fill close dims loc g fs m params ws dims' loc' g' fs' params' m0 H1 H2 H3 H4 H5 H6 H7 Hp) as (m1 & (R & _ & _) & L).
  pose proof (R f f' c a a' u Hf Hf' Hs Ha Ha' Hu) as X. intros r b x Hr Hb Hx. rewrite <- (X r b x Hr Hb Hx). unfold field.
  specialize (L r Hr). rewrite (HL r Hr) in L. destruct (close params' params); [|discriminate]. injection L as L. exact (f_equal (fun k => k _) L).
Qed.
Lemma reload_ok dims loc g fs (m : mem T) (params : P) F dims' loc' g' fs' (params' : P) m0 :
  grid_ok dims loc -> grid_ok dims' loc' -> global_size dims loc = global_size dims' loc' -> 0 <= g' ->
  creates_fresh fs -> NoDup (flat_map arrays_of fs') -> (forall f', In f' fs' -> exists f, In f fs /\ same_field f f') ->
  saved_as dims loc g fs params m F -> close params' params = true -> exists m', loaded_as fill close dims' loc' g' fs' params' F m0 m'.
Proof.
  intros H1 H2 H3 H4 H5 H6 H7 (ws & Hp & ->) Hc.
  destruct (IoEulProofs.restart fill close dims loc g fs m params ws dims' loc' g' fs' params' m0 H1 H2 H3 H4 H5 H6 H7 Hp) as (m1 & _ & L).
  exists m1. intros r Hr. rewrite (L r Hr), Hc. reflexivity.
Qed.
End R.

Lemma list_neq_len {A} (l l' : list A) : length l <> length l' -> l <> l'.
Proof. congruence. Qed.
Lemma fields2 loc g w vx vy : length loc = 2%nat -> add_eulerian_all loc g [] (flow_fields_2d loc g w vx vy) = Some [EScalar "vorticity" w; EVector "velocity" [vx; vy]].
Proof.
  intros Hl. unfold flow_fields_2d. cbn [add_eulerian_all]. unfold add_eulerian. rewrite Hl. change (Z.of_nat 2) with 2.
  destruct (list_eq_dec Z.eq_dec (ghosted g loc) (ghosted g loc)); [|congruence].
  destruct (list_eq_dec Z.eq_dec (2 :: ghosted g loc) (ghosted g loc)) as [e0|_]; [exfalso; apply (f_equal (@length Z)) in e0; cbn in e0; lia|].
  destruct (list_eq_dec Z.eq_dec (2 :: ghosted g loc) (2 :: ghosted g loc)); [|congruence]. reflexivity.
Qed.
Lemma fields3 loc g w0 w1 w2 vx vy vz : length loc = 3%nat ->
  add_eulerian_all loc g [] (flow_fields_3d loc g w0 w1 w2 vx vy vz) = Some [EVector "vorticity" [w0; w1; w2]; EVector "velocity" [vx; vy; vz]].
Proof.
  intros Hl. unfold flow_fields_3d. cbn [add_eulerian_all]. unfold add_eulerian. rewrite Hl. change (Z.of_nat 3) with 3.
  destruct (list_eq_dec Z.eq_dec (3 :: ghosted g loc) (ghosted g loc)) as [e0|_]; [exfalso; apply (f_equal (@length Z)) in e0; cbn in e0; lia|].
  destruct (list_eq_dec Z.eq_dec (3 :: ghosted g loc) (3 :: ghosted g loc)); [|congruence]. reflexivity.
Qed.
Lemma fresh2 w vx vy : creates_fresh [EScalar "vorticity" w; EVector "velocity" [vx; vy]].
Proof. unfold creates_fresh. cbn. repeat constructor; simpl; intuition discriminate. Qed.
Lemma fresh3 w0 w1 w2 vx vy vz : creates_fresh [EVector "vorticity" [w0; w1; w2]; EVector "velocity" [vx; vy; vz]].
Proof. unfold creates_fresh. cbn. repeat constructor; simpl; intuition discriminate. Qed.

(** *** Agreement from serial arrays that agree in the domain *)
Lemma agree_of {T} dims loc dims' loc' g Fs Gs (m m' : mem T) u u' : 1 <= g -> grid_ok dims loc -> grid_ok dims' loc' -> global_size dims loc = global_size dims' loc' ->
  represents_ext false dims loc g Fs m u -> represents_ext false dims' loc' g Fs m' u' -> incl Gs Fs ->
  (forall f P, In f Gs -> inb (global_size dims loc) P -> u f P = u' f P) -> agree dims loc dims' loc' g Gs m m'.
Proof.
  intros Hg Hok Hok' HN H H' HI HU r x r' x' f Hr Hx Hr' Hx' Hf E.
  assert (G : forall d l rr y, grid_ok d l -> inb l y -> ghost_pos d l g rr (map (fun i => i + g) y) = vadd (block_start d l rr) y).
  { intros d l rr y _ _. unfold ghost_pos. rewrite map_map. rewrite (map_ext _ (fun x => x)) by (intros; lia). now rewrite map_id. }
  rewrite H, H'; auto; try (left; now apply HaloKernels.add_inner); try (apply GhostGeo.inner_inb; [lia|now apply HaloKernels.add_inner]).
  rewrite !G; auto. rewrite <- E. apply HU; auto. now apply IoEulProofs.at_inb.
Qed.
(** Any memory shows some global arrays. *)
Lemma some_ext {T} dims loc g Fs (m : mem T) : grid_ok dims loc -> 1 <= g -> Forall (fun n => g <= n) loc -> exists u, represents_ext false dims loc g Fs m u.
Proof. intros H1 H2 H3. destruct (NSBase.ext_refine dims loc g H1 H2 H3 Fs m _ (HaloThms.represents_global dims loc g Fs m H1)) as (u & E & _). eauto. Qed.
Lemma ext_inside {T} dims loc g Fs (m : mem T) u : 1 <= g -> grid_ok dims loc -> represents_ext false dims loc g Fs m u -> represents dims loc g Fs m u.
Proof.
  intros Hg Hok H r f x Hr Hf Hx. rewrite H; auto; [|apply GhostGeo.inner_inb; [lia|now apply HaloKernels.add_inner]|left; now apply HaloKernels.add_inner].
  f_equal. unfold ghost_pos. rewrite map_map. rewrite (map_ext _ (fun x => x)) by (intros; lia). now rewrite map_id.
Qed.
Lemma inside_eq {T} dims loc g Fs (m : mem T) u u' : grid_ok dims loc -> represents dims loc g Fs m u -> represents dims loc g Fs m u' ->
  forall f P, In f Fs -> inb (global_size dims loc) P -> u f P = u' f P.
Proof.
  intros Hok H H' f P Hf HP. destruct (IoEulProofs.tile_at dims loc P Hok HP) as (r & x & Hr & Hx & ->). rewrite <- (H r f x), <- (H' r f x); auto.
Qed.

Section Two.
Context {T C : Type}.
Variables (add : T -> T -> T) (z : T) (damp : C -> C -> T -> T) (coord : nat -> Z -> C) (width : Z)
          (conv : (list Z -> T) -> list Z -> T) (Kcx Kcy : @kfun T).
Variables (w psi vx vy fx fy buf D S : nat).
Notation setting py px ny nx g dd xg := (ns2_setting py px ny nx g width dd xg coord w psi vx vy fx fy buf D S Kcx Kcy).
Notation serial N := (serial_ns_2d add z damp coord width conv Kcx Kcy N w psi vx vy fx fy).
Notation run py px ny nx g full dd xg := (history [py; px] (time_step_2d add z damp conv py px ny nx g full dd width xg w psi vx vy fx fy buf D S Kcx Kcy)
  (fun s => between z [py; px] [ny; nx] g [w; psi; vx; vy] [fx; fy] (forcing_of (n2_frc s)))).

Lemma arrays6 py px ny nx g dd xg : setting py px ny nx g dd xg -> NoDup [w; psi; vx; vy; fx; fy].
Proof. intros H. pose proof (s2_arrays _ _ _ _ _ _ _ _ _ _ _ _ _ _ _ _ _ _ _ _ H) as X. change (NoDup ([w; psi; vx; vy; fx; fy] ++ [buf; D; S])) in X. now apply IoLagProofs.NoDup_app_split in X. Qed.
Lemma set_ok py px ny nx g dd xg : setting py px ny nx g dd xg -> grid_ok [py; px] [ny; nx] /\ 1 <= g /\ Forall (fun n => g <= n) [ny; nx].
Proof.
  intros H. pose proof (s2_grid _ _ _ _ _ _ _ _ _ _ _ _ _ _ _ _ _ _ _ _ H) as G. split; [eapply KernelProofs.g2_ok; eauto|]. unfold grid2 in G.
  assert (1 <= g /\ g <= ny /\ g <= nx) as (A & B & C') by lia. split; [exact A|]. repeat constructor; assumption.
Qed.

Lemma forget_hist py px ny nx g dd xg N : setting py px ny nx g dd xg -> length N = 2%nat -> 4 <= width -> Forall (fun n => 2 * width <= n) N ->
  forall hist u u', Forall (ns2_shapes w vx vy fx fy) hist -> (forall f P, In f [w; vx; vy] -> inb N P -> u f P = u' f P) ->
  (forall f P, In f [w; vx; vy] -> inb N P -> fold_left (serial N) hist u f P = fold_left (serial N) hist u' f P) /\
  (hist <> [] -> forall f P, In f [w; psi; vx; vy] -> inb N P -> fold_left (serial N) hist u f P = fold_left (serial N) hist u' f P).
Proof.
  intros HS HN H4 HW. pose proof (arrays6 _ _ _ _ _ _ _ HS) as Hnd. destruct HS as [_ _ _ _ _ _ _ [HKx _] [HKy _]].
  assert (I : forall f, In f [w; vx; vy] -> In f [w; psi; vx; vy]) by (intros f Hf; destruct Hf as [<-|Hf]; [now left|right; right; exact Hf]).
  assert (X : forall hist u u', Forall (ns2_shapes w vx vy fx fy) hist -> hist <> [] -> (forall f P, In f [w; vx; vy] -> inb N P -> u f P = u' f P) ->
    forall f P, In f [w; psi; vx; vy] -> inb N P -> fold_left (serial N) hist u f P = fold_left (serial N) hist u' f P).
  { induction hist as [|s hist IH]; intros u u' Hs Hne HU; [congruence|]. inversion Hs; subst. cbn [fold_left].
    pose proof (step2_forgets add z damp coord width conv Kcx Kcy N w psi vx vy fx fy Hnd HN HKx HKy s u u' H4 HW H1 HU) as E.
    destruct hist as [|s2 hist]; [exact E|]. apply IH; [assumption|discriminate|]. intros f Q Hf HQ. apply E; auto. }
  intros hist u u' Hs HU. split; [|intros Hne; now apply X]. destruct hist; [exact HU|]. intros f P Hf HP. apply X; auto. discriminate.
Qed.
Lemma no_psi_hist py px ny nx g dd xg N : setting py px ny nx g dd xg -> length N = 2%nat ->
  forall hist u u', Forall (ns2_shapes w vx vy fx fy) hist -> (forall f P, In f [w; vx; vy] -> length P = 2%nat -> u f P = u' f P) ->
  (forall f P, In f [w; vx; vy] -> length P = 2%nat -> fold_left (serial N) hist u f P = fold_left (serial N) hist u' f P) /\
  (hist <> [] -> forall P, inb N P -> fold_left (serial N) hist u psi P = fold_left (serial N) hist u' psi P).
Proof.
  intros HS HN. pose proof (arrays6 _ _ _ _ _ _ _ HS) as Hnd. destruct HS as [_ _ _ _ _ _ _ [HKx _] [HKy _]].
  induction hist as [|s hist IH]; intros u u' Hs HU; [split; [exact HU|congruence]|]. inversion Hs; subst. cbn [fold_left].
  destruct (step2_no_psi add z damp coord width conv Kcx Kcy N w psi vx vy fx fy Hnd HN HKx HKy s u u' H1 HU) as [E1 E2].
  destruct (IH _ _ H2 E1) as [A B]. split; [exact A|]. intros _. destruct hist; [exact E2|]. apply B. discriminate.
Qed.

Context {P : Type}.
Variables (fill : T) (close : P -> P -> bool).

Theorem restart2 py px ny nx full dd xg py' px' ny' nx' full' dd' xg' g fs fs' (params params' : P) F hist (m m0 m' e e' : mem T) :
  setting py px ny nx g dd xg -> setting py' px' ny' nx' g dd' xg' -> global_size [py; px] [ny; nx] = global_size [py'; px'] [ny'; nx'] ->
  4 <= width -> Forall (fun n => 2 * width <= n) (global_size [py; px] [ny; nx]) ->
  add_eulerian_all [ny; nx] g [] (flow_fields_2d [ny; nx] g w vx vy) = Some fs -> add_eulerian_all [ny'; nx'] g [] (flow_fields_2d [ny'; nx'] g w vx vy) = Some fs' ->
  saved_as [py; px] [ny; nx] g fs params m F -> loaded_as fill close [py'; px'] [ny'; nx'] g fs' params' F m0 m' ->
  Forall (ns2_step_ok z (global_size [py; px] [ny; nx]) w vx vy fx fy) hist ->
  run py px ny nx g full dd xg hist m e -> run py' px' ny' nx' g full' dd' xg' hist m' e' ->
  agree [py; px] [ny; nx] [py'; px'] [ny'; nx'] g [w; vx; vy] e e' /\ (hist <> [] -> agree [py; px] [ny; nx] [py'; px'] [ny'; nx'] g [w; psi; vx; vy] e e').
Proof.
  intros HS HS' EN H4 HW Ef Ef' HSv HL Hh H H'. destruct (set_ok _ _ _ _ _ _ _ HS) as (Hok & Hg & Hgl). destruct (set_ok _ _ _ _ _ _ _ HS') as (Hok' & _ & Hgl').
  rewrite fields2 in Ef by reflexivity. rewrite fields2 in Ef' by reflexivity. injection Ef as <-. injection Ef' as <-.
  destruct (some_ext [py; px] [ny; nx] g [w; psi; vx; vy] m Hok Hg Hgl) as (u & Hu). destruct (some_ext [py'; px'] [ny'; nx'] g [w; psi; vx; vy] m' Hok' Hg Hgl') as (u' & Hu').
  assert (HU : forall f Q, In f [w; vx; vy] -> inb (global_size [py; px] [ny; nx]) Q -> u f Q = u' f Q).
  { assert (K : forall fld c a, In fld [EScalar "vorticity" w; EVector "velocity" [vx; vy]] -> nth_error (arrays_of fld) c = Some a -> In a [w; psi; vx; vy] ->
      forall Q, inb (global_size [py; px] [ny; nx]) Q -> u a Q = u' a Q).
    { intros fld c a Hfld Ha Hin Q HQ. assert (Hsm : same_field fld fld) by (destruct fld; cbn; auto).
      assert (R1 : represents [py; px] [ny; nx] g [a] m u) by (intros r b x Hr [<-|[]] Hx; exact (ext_inside _ _ _ _ _ _ Hg Hok Hu r a x Hr Hin Hx)).
      assert (R1' : represents [py'; px'] [ny'; nx'] g [a] m' u') by (intros r b x Hr [<-|[]] Hx; exact (ext_inside _ _ _ _ _ _ Hg Hok' Hu' r a x Hr Hin Hx)).
      pose proof (reload fill close [py; px] [ny; nx] g _ m params F [py'; px'] [ny'; nx'] g [EScalar "vorticity" w; EVector "velocity" [vx; vy]] params' m0 m' Hok Hok' EN ltac:(lia) (fresh2 w vx vy)) as R2.
      assert (ND : NoDup (flat_map arrays_of [EScalar "vorticity" w; EVector "velocity" [vx; vy]])).
      { cbn. pose proof (arrays6 _ _ _ _ _ _ _ HS) as Hnd. clear -Hnd. inversion Hnd; subst. inversion H2; subst. inversion H4; subst. inversion H6; subst. repeat constructor; simpl in *; tauto. }
      specialize (R2 ND ltac:(intros f' Hf'; exists f'; split; [exact Hf'|destruct f'; cbn; auto]) HSv HL fld fld c a a u Hfld Hfld Hsm Ha Ha R1).
      rewrite EN in HQ. exact (inside_eq [py'; px'] [ny'; nx'] g [a] m' (fun _ => u a) u' Hok' R2 R1' a Q (or_introl eq_refl) HQ). }
    intros f Q [<-|[<-|[<-|[]]]] HQ.
    - apply (K (EScalar "vorticity" w) 0%nat w); auto; cbn; auto.
    - apply (K (EVector "velocity" [vx; vy]) 0%nat vx); auto; cbn; auto.
    - apply (K (EVector "velocity" [vx; vy]) 1%nat vy); auto; cbn; auto 6. }
  pose proof Hh as Hh'. rewrite EN in Hh'.
  pose proof (NSThms.hist2 add z damp coord width conv Kcx Kcy _ _ _ _ _ _ _ _ _ _ _ _ _ _ _ _ _ HS hist m e u Hh Hu H) as R.
  pose proof (NSThms.hist2 add z damp coord width conv Kcx Kcy _ _ _ _ _ _ _ _ _ _ _ _ _ _ _ _ _ HS' hist m' e' u' Hh' Hu' H') as R'. rewrite <- EN in R'.
  assert (Hsh : Forall (ns2_shapes w vx vy fx fy) hist) by (eapply Forall_impl; [|exact Hh]; intros s Hs; eapply NSThms.shapes2; exact Hs).
  destruct (forget_hist _ _ _ _ _ _ _ (global_size [py; px] [ny; nx]) HS eq_refl H4 HW hist u u' Hsh HU) as [A B].
  split; [|intros Hne]; eapply agree_of; eauto; intros f Hf; cbn in *; tauto.
Qed.

(** The same, if the cells outside the domain are restored as well: any width. *)
Theorem restart2_ghosts py px ny nx full dd xg py' px' ny' nx' full' dd' xg' g hist (m m' e e' : mem T) u :
  setting py px ny nx g dd xg -> setting py' px' ny' nx' g dd' xg' -> global_size [py; px] [ny; nx] = global_size [py'; px'] [ny'; nx'] ->
  represents_ext false [py; px] [ny; nx] g [w; vx; vy] m u -> represents_ext false [py'; px'] [ny'; nx'] g [w; vx; vy] m' u ->
  Forall (ns2_step_ok z (global_size [py; px] [ny; nx]) w vx vy fx fy) hist ->
  run py px ny nx g full dd xg hist m e -> run py' px' ny' nx' g full' dd' xg' hist m' e' ->
  agree [py; px] [ny; nx] [py'; px'] [ny'; nx'] g [w; vx; vy] e e' /\ (hist <> [] -> agree [py; px] [ny; nx] [py'; px'] [ny'; nx'] g [w; psi; vx; vy] e e').
Proof.
  intros HS HS' EN Hu Hu' Hh H H'. destruct (set_ok _ _ _ _ _ _ _ HS) as (Hok & Hg & Hgl). destruct (set_ok _ _ _ _ _ _ _ HS') as (Hok' & _ & Hgl').
  destruct (some_ext [py; px] [ny; nx] g [psi] m Hok Hg Hgl) as (q & Hq). destruct (some_ext [py'; px'] [ny'; nx'] g [psi] m' Hok' Hg Hgl') as (q' & Hq').
  pose proof (arrays6 _ _ _ _ _ _ _ HS) as Hnd.
  assert (N1 : w <> psi) by (clear -Hnd; inversion Hnd; subst; simpl in *; intros ->; tauto).
  assert (N2 : vx <> psi /\ vy <> psi) by (clear -Hnd; inversion Hnd; subst; inversion H2; subst; simpl in *; split; intros ->; tauto).
  set (c := fun (v v' : nat -> list Z -> T) f Q => if Nat.eqb f psi then v f Q else v' f Q).
  assert (M : forall d l mm v, represents_ext false d l g [psi] mm v -> represents_ext false d l g [w; vx; vy] mm u -> represents_ext false d l g [w; psi; vx; vy] mm (c v u)).
  { intros d l mm v A B r f I Hr Hf HI Hc. unfold c. destruct (Nat.eqb_spec f psi) as [->|Hn]; [apply A; cbn; auto|]. apply B; auto. clear -Hf Hn. cbn in *. intuition. }
  pose proof Hh as Hh'. rewrite EN in Hh'.
  pose proof (NSThms.hist2 add z damp coord width conv Kcx Kcy _ _ _ _ _ _ _ _ _ _ _ _ _ _ _ _ _ HS hist m e _ Hh (M _ _ _ _ Hq Hu) H) as R.
  pose proof (NSThms.hist2 add z damp coord width conv Kcx Kcy _ _ _ _ _ _ _ _ _ _ _ _ _ _ _ _ _ HS' hist m' e' _ Hh' (M _ _ _ _ Hq' Hu') H') as R'. rewrite <- EN in R'.
  assert (Hsh : Forall (ns2_shapes w vx vy fx fy) hist) by (eapply Forall_impl; [|exact Hh]; intros s Hs; eapply NSThms.shapes2; exact Hs).
  destruct (no_psi_hist _ _ _ _ _ _ _ (global_size [py; px] [ny; nx]) HS eq_refl hist (c q u) (c q' u) Hsh) as [A B].
  { intros f Q Hf _. unfold c. destruct (Nat.eqb_spec f psi) as [->|]; auto. exfalso. destruct N2. clear -Hf N1 H0 H1. cbn in Hf. intuition. }
  assert (L : forall Q, inb (global_size [py; px] [ny; nx]) Q -> length Q = 2%nat) by (intros Q HQ; apply inb_length in HQ; exact HQ).
  split; [|intros Hne].
  - eapply (agree_of _ _ _ _ g [w; psi; vx; vy]); [exact Hg|exact Hok|exact Hok'|exact EN|exact R|exact R'|intros f Hf; cbn in *; tauto|]. intros f Q Hf HQ. apply A; auto.
  - eapply (agree_of _ _ _ _ g [w; psi; vx; vy]); [exact Hg|exact Hok|exact Hok'|exact EN|exact R|exact R'|apply incl_refl|]. intros f Q [<-|[<-|Hf]] HQ; [apply A; cbn; auto|now apply B|apply A; auto]. cbn in *; tauto.
Qed.
End Two.

Section Three.
Context {T C : Type}.
Variables (add : T -> T -> T) (z : T) (damp : C -> C -> T -> T) (coord : nat -> Z -> C) (width : Z)
          (conv : (list Z -> T) -> list Z -> T) (Kcx Kcy Kcz : @kfun T)
          (lap : T -> T -> T -> T) (sub : T -> T -> T) (filt : option (filter_type * nat * Z)).
Variables (w0 w1 w2 p0 p1 p2 vx vy vz fx fy fz b0 b1 b2 buf D S : nat).
Notation flow := [w0; w1; w2; p0; p1; p2; vx; vy; vz].
Notation kept := [w0; w1; w2; vx; vy; vz].
Notation setting pz py px n0 n1 n2 g xg := (ns3_setting pz py px n0 n1 n2 g width filt xg coord w0 w1 w2 p0 p1 p2 vx vy vz fx fy fz b0 b1 b2 buf D S Kcx Kcy Kcz).
Notation serial N := (serial_ns_3d add z damp coord width conv Kcx Kcy Kcz lap sub filt N w0 w1 w2 p0 p1 p2 vx vy vz b0 b1 b2 fx fy fz).
Notation step pz py px n0 n1 n2 g full xg := (fun sr => time_step_3d add z damp conv lap sub filt pz py px n0 n1 n2 g full width xg
  w0 w1 w2 p0 p1 p2 vx vy vz fx fy fz b0 b1 b2 buf D S Kcx Kcy Kcz (snd sr) (fst sr)).
Notation run pz py px n0 n1 n2 g full xg := (history [pz; py; px] (step pz py px n0 n1 n2 g full xg)
  (fun sr => between z [pz; py; px] [n0; n1; n2] g flow [fx; fy; fz] (forcing_of (n3_frc (fst sr))))).
Notation shapes := (ns3_shapes [w0; w1; w2] [vx; vy; vz] [b0; b1; b2] [fx; fy; fz]).
Notation step_ok N := (ns3_step_ok z N [w0; w1; w2] [vx; vy; vz] [b0; b1; b2] [fx; fy; fz]).

Lemma arrays15 pz py px n0 n1 n2 g xg : setting pz py px n0 n1 n2 g xg -> NoDup ([w0; w1; w2] ++ [p0; p1; p2] ++ [vx; vy; vz] ++ [fx; fy; fz] ++ [b0; b1; b2]).
Proof.
  intros [_ _ _ _ _ X _ _]. change (NoDup ([w0; w1; w2; p0; p1; p2; vx; vy; vz; fx; fy; fz; b0; b1; b2] ++ [buf; D; S])) in X. now apply IoLagProofs.NoDup_app_split in X.
Qed.
Lemma vel3 pz py px n0 n1 n2 g xg : setting pz py px n0 n1 n2 g xg -> forall K, In K [Kcx; Kcy; Kcz] -> star_local 3 [p0; p1; p2] 1 K.
Proof. intros [_ _ _ _ _ _ X _] K HK. now apply X. Qed.
Lemma set_ok3 pz py px n0 n1 n2 g xg : setting pz py px n0 n1 n2 g xg -> grid_ok [pz; py; px] [n0; n1; n2] /\ 1 <= g /\ Forall (fun n => g <= n) [n0; n1; n2].
Proof.
  intros [G _ _ _ _ _ _ _]. split; [eapply KernelProofs.g3_ok; eauto|]. unfold grid3 in G.
  assert (1 <= g /\ g <= n0 /\ g <= n1 /\ g <= n2) as (A & B & C' & E) by lia. split; [exact A|]. repeat constructor; assumption.
Qed.
Lemma kept_flow : incl kept flow. Proof. intros f Hf. cbn in *. tauto. Qed.
Lemma forget_hist3 pz py px n0 n1 n2 g xg N : setting pz py px n0 n1 n2 g xg -> length N = 3%nat -> 3 <= width -> Forall (fun n => 2 * width <= n) N ->
  match filt with Some (_, _, bw) => 3 <= bw | None => True end ->
  forall hist u u', Forall shapes hist -> (forall f P, In f kept -> inb N P -> u f P = u' f P) ->
  (forall f P, In f kept -> inb N P -> fold_left (serial N) hist u f P = fold_left (serial N) hist u' f P) /\
  (hist <> [] -> forall f P, In f flow -> inb N P -> fold_left (serial N) hist u f P = fold_left (serial N) hist u' f P).
Proof.
  intros HS HN H3 HW Hb. pose proof (arrays15 _ _ _ _ _ _ _ _ HS) as Hnd. pose proof (vel3 _ _ _ _ _ _ _ _ HS) as HK.
  assert (HF : match filt with Some (_, order, bw) => (1 <= order)%nat /\ 3 <= bw | None => True end).
  { destruct HS as [_ _ _ _ _ _ _ X]. destruct filt as [[[ft o] bw]|]; [|exact I]. split; [apply X|exact Hb]. }
  assert (X : forall hist u u', Forall shapes hist -> hist <> [] -> (forall f P, In f kept -> inb N P -> u f P = u' f P) ->
    forall f P, In f flow -> inb N P -> fold_left (serial N) hist u f P = fold_left (serial N) hist u' f P).
  { induction hist as [|s hist IH]; intros u u' Hs Hne HU; [congruence|]. inversion Hs; subst. cbn [fold_left].
    pose proof (step3_forgets add z damp coord width conv Kcx Kcy Kcz lap sub filt N w0 w1 w2 p0 p1 p2 vx vy vz b0 b1 b2 fx fy fz Hnd HN HK s u u' H3 HW HF H1 HU) as E.
    destruct hist as [|s2 hist]; [exact E|]. apply IH; [assumption|discriminate|]. intros f Q Hf HQ. apply E; auto. now apply kept_flow. }
  intros hist u u' Hs HU. split; [|intros Hne; now apply X]. destruct hist; [exact HU|]. intros f P Hf HP. apply X; auto; [discriminate|now apply kept_flow].
Qed.
Lemma no_psi_hist3 pz py px n0 n1 n2 g xg N : setting pz py px n0 n1 n2 g xg -> length N = 3%nat ->
  forall hist u u', Forall shapes hist -> (forall f P, In f kept -> length P = 3%nat -> u f P = u' f P) ->
  (forall f P, In f kept -> length P = 3%nat -> fold_left (serial N) hist u f P = fold_left (serial N) hist u' f P) /\
  (hist <> [] -> forall f P, In f [p0; p1; p2] -> inb N P -> fold_left (serial N) hist u f P = fold_left (serial N) hist u' f P).
Proof.
  intros HS HN. pose proof (arrays15 _ _ _ _ _ _ _ _ HS) as Hnd. pose proof (vel3 _ _ _ _ _ _ _ _ HS) as HK.
  assert (HF : match filt with Some (_, order, bw) => (1 <= order)%nat /\ 1 <= bw | None => True end).
  { destruct HS as [_ _ _ _ _ _ _ X]. destruct filt as [[[ft o] bw]|]; [|exact I]. split; apply X. }
  induction hist as [|s hist IH]; intros u u' Hs HU; [split; [exact HU|congruence]|]. inversion Hs; subst. cbn [fold_left].
  destruct (step3_no_psi add z damp coord width conv Kcx Kcy Kcz lap sub filt N w0 w1 w2 p0 p1 p2 vx vy vz b0 b1 b2 fx fy fz Hnd HN HK s u u' HF H1 HU) as [E1 E2].
  destruct (IH _ _ H2 E1) as [A B]. split; [exact A|]. intros _. destruct hist; [exact E2|]. apply B. discriminate.
Qed.

Lemma hist_map N (h : list (ns3_step * (Z -> nat -> list Z -> T))) : Forall (step_ok N) (map fst h) -> Forall (fun sr => step_ok N (fst sr)) h.
Proof. intros X. apply Forall_forall. intros x Hx. rewrite Forall_forall in X. apply X. now apply in_map. Qed.

Context {P : Type}.
Variables (fill : T) (close : P -> P -> bool).
Theorem restart3 pz py px n0 n1 n2 full xg pz' py' px' n0' n1' n2' full' xg' g fs fs' (params params' : P) F hist hist' (m m0 m' e e' : mem T) :
  setting pz py px n0 n1 n2 g xg -> setting pz' py' px' n0' n1' n2' g xg' -> global_size [pz; py; px] [n0; n1; n2] = global_size [pz'; py'; px'] [n0'; n1'; n2'] ->
  3 <= width -> Forall (fun n => 2 * width <= n) (global_size [pz; py; px] [n0; n1; n2]) -> match filt with Some (_, _, bw) => 3 <= bw | None => True end ->
  add_eulerian_all [n0; n1; n2] g [] (flow_fields_3d [n0; n1; n2] g w0 w1 w2 vx vy vz) = Some fs -> add_eulerian_all [n0'; n1'; n2'] g [] (flow_fields_3d [n0'; n1'; n2'] g w0 w1 w2 vx vy vz) = Some fs' ->
  saved_as [pz; py; px] [n0; n1; n2] g fs params m F -> loaded_as fill close [pz'; py'; px'] [n0'; n1'; n2'] g fs' params' F m0 m' ->
  map fst hist' = map fst hist -> Forall (step_ok (global_size [pz; py; px] [n0; n1; n2])) (map fst hist) ->
  run pz py px n0 n1 n2 g full xg hist m e -> run pz' py' px' n0' n1' n2' g full' xg' hist' m' e' ->
  agree [pz; py; px] [n0; n1; n2] [pz'; py'; px'] [n0'; n1'; n2'] g kept e e' /\ (hist <> [] -> agree [pz; py; px] [n0; n1; n2] [pz'; py'; px'] [n0'; n1'; n2'] g flow e e').
Proof.
  intros HS HS' EN H3 HW Hb Ef Ef' HSv HL EH Hh H H'. destruct (set_ok3 _ _ _ _ _ _ _ _ HS) as (Hok & Hg & Hgl). destruct (set_ok3 _ _ _ _ _ _ _ _ HS') as (Hok' & _ & Hgl').
  rewrite fields3 in Ef by reflexivity. rewrite fields3 in Ef' by reflexivity. injection Ef as <-. injection Ef' as <-.
  destruct (some_ext [pz; py; px] [n0; n1; n2] g flow m Hok Hg Hgl) as (u & Hu). destruct (some_ext [pz'; py'; px'] [n0'; n1'; n2'] g flow m' Hok' Hg Hgl') as (u' & Hu').
  assert (HU : forall f Q, In f kept -> inb (global_size [pz; py; px] [n0; n1; n2]) Q -> u f Q = u' f Q).
  { assert (K : forall fld c a, In fld [EVector "vorticity" [w0; w1; w2]; EVector "velocity" [vx; vy; vz]] -> nth_error (arrays_of fld) c = Some a -> In a flow ->
      forall Q, inb (global_size [pz; py; px] [n0; n1; n2]) Q -> u a Q = u' a Q).
    { intros fld c a Hfld Ha Hin Q HQ. assert (Hsm : same_field fld fld) by (destruct fld; cbn; auto).
      assert (R1 : represents [pz; py; px] [n0; n1; n2] g [a] m u) by (intros r b x Hr [<-|[]] Hx; exact (ext_inside _ _ _ _ _ _ Hg Hok Hu r a x Hr Hin Hx)).
      assert (R1' : represents [pz'; py'; px'] [n0'; n1'; n2'] g [a] m' u') by (intros r b x Hr [<-|[]] Hx; exact (ext_inside _ _ _ _ _ _ Hg Hok' Hu' r a x Hr Hin Hx)).
      pose proof (reload fill close [pz; py; px] [n0; n1; n2] g _ m params F [pz'; py'; px'] [n0'; n1'; n2'] g [EVector "vorticity" [w0; w1; w2]; EVector "velocity" [vx; vy; vz]] params' m0 m' Hok Hok' EN ltac:(lia) (fresh3 w0 w1 w2 vx vy vz)) as R2.
      assert (ND : NoDup (flat_map arrays_of [EVector "vorticity" [w0; w1; w2]; EVector "velocity" [vx; vy; vz]])).
      { pose proof (arrays15 _ _ _ _ _ _ _ _ HS) as Hnd. clear -Hnd. apply IoLagProofs.NoDup_app_split in Hnd as (A & B & X). apply IoLagProofs.NoDup_app_split in B as (_ & B & _).
        apply IoLagProofs.NoDup_app_split in B as (B & _ & _). change (NoDup ([w0; w1; w2] ++ [vx; vy; vz])). apply IoEulProofs.NoDup_app_intro'; auto.
        intros x Hx Hx'. apply (X x Hx). apply in_or_app. right. apply in_or_app. now left. }
      specialize (R2 ND ltac:(intros f' Hf'; exists f'; split; [exact Hf'|destruct f'; cbn; auto]) HSv HL fld fld c a a u Hfld Hfld Hsm Ha Ha R1).
      rewrite EN in HQ. exact (inside_eq [pz'; py'; px'] [n0'; n1'; n2'] g [a] m' (fun _ => u a) u' Hok' R2 R1' a Q (or_introl eq_refl) HQ). }
    intros f Q Hf HQ. assert (Hin : In f flow) by (now apply kept_flow). revert Hin.
    destruct Hf as [<-|[<-|[<-|[<-|[<-|[<-|[]]]]]]]; intros Hin.
    - exact (K (EVector "vorticity" [w0; w1; w2]) 0%nat w0 (or_introl eq_refl) eq_refl Hin Q HQ).
    - exact (K (EVector "vorticity" [w0; w1; w2]) 1%nat w1 (or_introl eq_refl) eq_refl Hin Q HQ).
    - exact (K (EVector "vorticity" [w0; w1; w2]) 2%nat w2 (or_introl eq_refl) eq_refl Hin Q HQ).
    - exact (K (EVector "velocity" [vx; vy; vz]) 0%nat vx (or_intror (or_introl eq_refl)) eq_refl Hin Q HQ).
    - exact (K (EVector "velocity" [vx; vy; vz]) 1%nat vy (or_intror (or_introl eq_refl)) eq_refl Hin Q HQ).
    - exact (K (EVector "velocity" [vx; vy; vz]) 2%nat vz (or_intror (or_introl eq_refl)) eq_refl Hin Q HQ). }
  pose proof Hh as Hh'. rewrite <- EH in Hh'. apply hist_map in Hh'. rewrite EN in Hh'.
  pose proof (NSThms.hist3 add z damp coord width conv Kcx Kcy Kcz lap sub filt _ _ _ _ _ _ _ _ _ _ _ _ _ _ _ _ _ _ _ _ _ _ _ _ _ _ _ HS hist m e u (hist_map _ _ Hh) Hu H) as R.
  pose proof (NSThms.hist3 add z damp coord width conv Kcx Kcy Kcz lap sub filt _ _ _ _ _ _ _ _ _ _ _ _ _ _ _ _ _ _ _ _ _ _ _ _ _ _ _ HS' hist' m' e' u' Hh' Hu' H') as R'.
  rewrite EH in R'. rewrite <- EN in R'.
  assert (Hsh : Forall shapes (map fst hist)) by (eapply Forall_impl; [|exact Hh]; intros s Hs; eapply NSThms.shapes3; exact Hs).
  destruct (forget_hist3 _ _ _ _ _ _ _ _ (global_size [pz; py; px] [n0; n1; n2]) HS eq_refl H3 HW Hb (map fst hist) u u' Hsh HU) as [A B].
  split; [|intros Hne].
  - eapply (agree_of _ _ _ _ g flow); [exact Hg|exact Hok|exact Hok'|exact EN|exact R|exact R'|exact kept_flow|exact A].
  - eapply (agree_of _ _ _ _ g flow); [exact Hg|exact Hok|exact Hok'|exact EN|exact R|exact R'|apply incl_refl|]. apply B. destruct hist; [congruence|discriminate].
Qed.

Theorem restart3_ghosts pz py px n0 n1 n2 full xg pz' py' px' n0' n1' n2' full' xg' g hist hist' (m m' e e' : mem T) u :
  setting pz py px n0 n1 n2 g xg -> setting pz' py' px' n0' n1' n2' g xg' -> global_size [pz; py; px] [n0; n1; n2] = global_size [pz'; py'; px'] [n0'; n1'; n2'] ->
  represents_ext false [pz; py; px] [n0; n1; n2] g kept m u -> represents_ext false [pz'; py'; px'] [n0'; n1'; n2'] g kept m' u ->
  map fst hist' = map fst hist -> Forall (step_ok (global_size [pz; py; px] [n0; n1; n2])) (map fst hist) ->
  run pz py px n0 n1 n2 g full xg hist m e -> run pz' py' px' n0' n1' n2' g full' xg' hist' m' e' ->
  agree [pz; py; px] [n0; n1; n2] [pz'; py'; px'] [n0'; n1'; n2'] g kept e e' /\ (hist <> [] -> agree [pz; py; px] [n0; n1; n2] [pz'; py'; px'] [n0'; n1'; n2'] g flow e e').
Proof.
  intros HS HS' EN Hu Hu' EH Hh H H'. destruct (set_ok3 _ _ _ _ _ _ _ _ HS) as (Hok & Hg & Hgl). destruct (set_ok3 _ _ _ _ _ _ _ _ HS') as (Hok' & _ & Hgl').
  destruct (some_ext [pz; py; px] [n0; n1; n2] g [p0; p1; p2] m Hok Hg Hgl) as (q & Hq). destruct (some_ext [pz'; py'; px'] [n0'; n1'; n2'] g [p0; p1; p2] m' Hok' Hg Hgl') as (q' & Hq').
  pose proof (arrays15 _ _ _ _ _ _ _ _ HS) as Hnd.
  assert (Nk : forall f, In f kept -> ~ In f [p0; p1; p2]).
  { clear -Hnd. apply IoLagProofs.NoDup_app_split in Hnd as (A & B & X). apply IoLagProofs.NoDup_app_split in B as (_ & _ & Y). intros f Hf Hp.
    change (In f ([w0; w1; w2] ++ [vx; vy; vz])) in Hf. apply in_app_or in Hf as [Hf|Hf]; [apply (X f Hf); apply in_or_app; now left|apply (Y f Hp); apply in_or_app; now left]. }
  set (c := fun (v v' : nat -> list Z -> T) f Q => if in_dec Nat.eq_dec f [p0; p1; p2] then v f Q else v' f Q).
  assert (M : forall d l mm v, represents_ext false d l g [p0; p1; p2] mm v -> represents_ext false d l g kept mm u -> represents_ext false d l g flow mm (c v u)).
  { intros d l mm v A B r f I Hr Hf HI Hc. unfold c. destruct (in_dec Nat.eq_dec f [p0; p1; p2]) as [Hp|Hn]; [now apply A|]. apply B; auto. clear -Hf Hn. cbn in *. tauto. }
  pose proof Hh as Hh'. rewrite <- EH in Hh'. apply hist_map in Hh'. rewrite EN in Hh'.
  pose proof (NSThms.hist3 add z damp coord width conv Kcx Kcy Kcz lap sub filt _ _ _ _ _ _ _ _ _ _ _ _ _ _ _ _ _ _ _ _ _ _ _ _ _ _ _ HS hist m e _ (hist_map _ _ Hh) (M _ _ _ _ Hq Hu) H) as R.
  pose proof (NSThms.hist3 add z damp coord width conv Kcx Kcy Kcz lap sub filt _ _ _ _ _ _ _ _ _ _ _ _ _ _ _ _ _ _ _ _ _ _ _ _ _ _ _ HS' hist' m' e' _ Hh' (M _ _ _ _ Hq' Hu') H') as R'.
  rewrite EH in R'. rewrite <- EN in R'.
  assert (Hsh : Forall shapes (map fst hist)) by (eapply Forall_impl; [|exact Hh]; intros s Hs; eapply NSThms.shapes3; exact Hs).
  destruct (no_psi_hist3 _ _ _ _ _ _ _ _ (global_size [pz; py; px] [n0; n1; n2]) HS eq_refl (map fst hist) (c q u) (c q' u) Hsh) as [A B].
  { intros f Q Hf _. unfold c. destruct (in_dec Nat.eq_dec f [p0; p1; p2]) as [Hp|]; auto. exfalso. exact (Nk f Hf Hp). }
  assert (L : forall Q, inb (global_size [pz; py; px] [n0; n1; n2]) Q -> length Q = 3%nat) by (intros Q HQ; apply inb_length in HQ; exact HQ).
  split; [|intros Hne].
  - eapply (agree_of _ _ _ _ g flow); [exact Hg|exact Hok|exact Hok'|exact EN|exact R|exact R'|exact kept_flow|]. intros f Q Hf HQ. apply A; auto.
  - eapply (agree_of _ _ _ _ g flow); [exact Hg|exact Hok|exact Hok'|exact EN|exact R|exact R'|apply incl_refl|].
    assert (Hne' : map fst hist <> []) by (destruct hist; [congruence|discriminate]). intros f Q Hf HQ.
    destruct (in_dec Nat.eq_dec f [p0; p1; p2]) as [Hp|Hn]; [now apply B|]. apply A; auto. clear -Hf Hn. cbn in *. tauto.
Qed.
End Three.
