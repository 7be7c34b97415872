(** The passive simulators' steps, and histories of them. *)
From Verif Require Import Base SpecGrid SpecGhost SpecStencil SpecStep SpecPassive Comm Spmd Stencil KernelList TimeStep StepHistory.

Section P.
Context {T : Type}.
Variables (add : T -> T -> T) (z : T) (per : bool) (N : list Z).
Notation serial l := (fold_left (fun u s => serial_tstep add z per N s u) l).

Lemma scalar_serial fld (steps : list (@kfun T * @kfun T)) : forall u,
  serial (flat_map (fun Ks => passive_scalar_calls fld (fst Ks) (snd Ks)) steps) u =
  fold_left (fun u Ks => transported add z per N fld (fst Ks) (snd Ks) u) steps u.
Proof. induction steps as [|[Ka Kd] l IH]; intros u; [reflexivity|]. cbn [flat_map fst snd]. rewrite fold_left_app, IH. reflexivity. Qed.

(** Agreement on the arrays of interest. *)
Definition same_on (Fs : list nat) (u v : nat -> list Z -> T) : Prop := forall f P, In f Fs -> u f P = v f P.
Lemma euler_on n Fs ins ks reset fld K u v : star_local n ins ks K -> length N = n -> incl ins Fs -> In fld Fs -> same_on Fs u v ->
  same_on Fs (euler_step per N add z reset fld K u) (euler_step per N add z reset fld K v).
Proof.
  intros HK HN Hi Hf H f P Hin. unfold euler_step. destruct (Nat.eqb_spec f fld) as [->|]; [|now apply H].
  rewrite (H fld P Hf). destruct (inbb N P && negb (reset && edgeb per N P)); [|reflexivity]. f_equal. apply HK. intros f' d Hf' _. apply H, Hi, Hf'.
Qed.
Lemma vector_step n vel f0 f1 f2 Ka Kd u : length N = n -> NoDup [f0; f1; f2] -> (forall f, In f [f0; f1; f2] -> ~ In f vel) ->
  (forall f, In f [f0; f1; f2] -> star_local n (f :: vel) 2 (Ka f) /\ star_local n [f] 1 (Kd f)) ->
  forall f P, serial (@passive_vector_calls T f0 f1 f2 Ka Kd) u f P = transported_vector add z per N [f0; f1; f2] Ka Kd u f P.
Proof.
  intros HN Hd Hv HK f P. inversion Hd as [|? ? H01 Hd']; subst. inversion Hd' as [|? ? H12 _]; subst.
  assert (N01 : f0 <> f1 /\ f0 <> f2 /\ f1 <> f2) by (cbn in H01, H12; intuition congruence). destruct N01 as (N01 & N02 & N12).
  assert (A : forall h, In h [f0; f1; f2] -> forall (a b : nat -> list Z -> T), (forall Q, a h Q = b h Q) -> (forall v Q, In v vel -> a v Q = b v Q) ->
     forall reset Q, euler_step per N add z reset h (Ka h) a h Q = euler_step per N add z reset h (Ka h) b h Q).
  { intros h Hh a b E1 E2 reset Q. unfold euler_step. rewrite Nat.eqb_refl, E1. destruct (_ && _); [|reflexivity]. f_equal. apply (proj1 (HK h Hh)). intros f' d [<-|Hf'] _; [apply E1|now apply E2]. }
  assert (D : forall h, In h [f0; f1; f2] -> forall (a b : nat -> list Z -> T), (forall Q, a h Q = b h Q) ->
     forall reset Q, euler_step per N add z reset h (Kd h) a h Q = euler_step per N add z reset h (Kd h) b h Q).
  { intros h Hh a b E1 reset Q. unfold euler_step. rewrite Nat.eqb_refl, E1. destruct (_ && _); [|reflexivity]. f_equal. apply (proj2 (HK h Hh)). intros f' d [<-|[]] _. apply E1. }
  assert (O : forall h reset K (a : nat -> list Z -> T) f' Q, f' <> h -> euler_step per N add z reset h K a f' Q = a f' Q).
  { intros h reset K a f' Q Hne. unfold euler_step. destruct (Nat.eqb_spec f' h); congruence. }
  assert (V0 : forall v, In v vel -> v <> f0 /\ v <> f1 /\ v <> f2) by (intros v Hin; repeat split; intros ->; eapply Hv; eauto; cbn; auto).
  unfold transported_vector, passive_vector_calls, transported. cbn [fold_left serial_tstep].
  destruct (in_dec Nat.eq_dec f [f0; f1; f2]) as [Hf|Hf].
  - destruct Hf as [<-|[<-|[<-|[]]]].
    + do 2 rewrite O by congruence. apply (D f0); [cbn; auto|]. intros Q. do 2 rewrite O by congruence. reflexivity.
    + rewrite O by congruence. apply (D f1); [cbn; auto|]. intros Q. do 2 rewrite O by congruence. apply (A f1); [cbn; auto| |].
      * intros Q'. now rewrite O by congruence.
      * intros v Q' Hin. destruct (V0 v Hin) as (?&?&?). now rewrite O by congruence.
    + apply (D f2); [cbn; auto|]. intros Q. do 2 rewrite O by congruence. apply (A f2); [cbn; auto| |].
      * intros Q'. now do 2 rewrite O by congruence.
      * intros v Q' Hin. destruct (V0 v Hin) as (?&?&?). now do 2 rewrite O by congruence.
  - assert (f <> f0 /\ f <> f1 /\ f <> f2) as (?&?&?) by (cbn in Hf; intuition congruence). now do 6 rewrite O by congruence.
Qed.

Lemma vector_serial n vel Fs f0 f1 f2 (steps : list ((nat -> @kfun T) * (nat -> @kfun T))) : length N = n -> NoDup [f0; f1; f2] -> (forall f, In f [f0; f1; f2] -> ~ In f vel) ->
  incl [f0; f1; f2] Fs -> incl vel Fs ->
  Forall (fun Ks => forall f, In f [f0; f1; f2] -> star_local n (f :: vel) 2 (fst Ks f) /\ star_local n [f] 1 (snd Ks f) /\ overwrites (snd Ks f)) steps ->
  forall u v, same_on Fs u v ->
  same_on Fs (serial (flat_map (fun Ks => passive_vector_calls f0 f1 f2 (fst Ks) (snd Ks)) steps) u)
             (fold_left (fun u Ks => transported_vector add z per N [f0; f1; f2] (fst Ks) (snd Ks) u) steps v).
Proof.
  intros HN Hd Hv Hi Hiv. induction steps as [|[Ka Kd] l IH]; intros HK u v H; [exact H|]. inversion HK as [|? ? HK1 HK2]; subst. cbn [flat_map fst snd] in *. rewrite fold_left_app. apply IH; [exact HK2|].
  assert (HK1' : forall f, In f [f0; f1; f2] -> star_local (length N) (f :: vel) 2 (Ka f) /\ star_local (length N) [f] 1 (Kd f)) by (intros h Hh; split; apply HK1; exact Hh).
  intros f P Hf. rewrite (vector_step (length N) vel f0 f1 f2 Ka Kd u eq_refl Hd Hv HK1').
  unfold transported_vector. destruct (in_dec Nat.eq_dec f [f0; f1; f2]) as [Hin|]; [|now apply H]. destruct (HK1' f Hin) as [A B]. unfold transported.
  apply (euler_on (length N) Fs [f] 1); auto; [intros h [<-|[]]; exact Hf|]. apply (euler_on (length N) Fs (f :: vel) 2); auto. intros h [<-|Hh]; [exact Hf|now apply Hiv].
Qed.
End P.

Lemma ext_same {T} per dims loc g Fs (m : mem T) u v : (forall f P, In f Fs -> u f P = v f P) -> represents_ext per dims loc g Fs m u -> represents_ext per dims loc g Fs m v.
Proof. intros E H r f I Hr Hf HI HH. rewrite (H r f I Hr Hf HI HH). now apply E. Qed.

Theorem passive_scalar_2d {T} (add : T -> T -> T) (z : T) per py px ny nx g full buf vx vy Fs fld steps (m : mem T) u :
  grid2 py px ny nx g -> ~ In buf Fs -> incl [vx; vy] Fs -> In fld Fs -> g = 2 -> 4 <= ny /\ 4 <= nx ->
  Forall (fun Ks : @kfun T * @kfun T => star_local 2 [fld; vx; vy] 2 (fst Ks) /\ star_local 2 [fld] 1 (snd Ks) /\ overwrites (snd Ks)) steps ->
  represents_ext per [py; px] [ny; nx] g Fs m u ->
  exists m', spmd_ends (zprod [py; px]) (flat_map (tstep_2d add z per py px ny nx g full buf vx vy) (flat_map (fun Ks => passive_scalar_calls fld (fst Ks) (snd Ks)) steps)) m m' /\
    represents_ext per [py; px] [ny; nx] g Fs m'
      (fold_left (fun u Ks => transported add z per (global_size [py; px] [ny; nx]) fld (fst Ks) (snd Ks) u) steps u).
Proof.
  intros G Hb Hv Hf Hg [H1 H2] HK HR. rewrite <- scalar_serial. eapply history_2d; eauto. apply scalar_calls_ok; auto.
Qed.
Theorem passive_scalar_3d {T} (add : T -> T -> T) (z : T) per pz py px n0 n1 n2 g full buf vx vy vz Fs fld steps (m : mem T) u :
  grid3 pz py px n0 n1 n2 g -> ~ In buf Fs -> incl [vx; vy; vz] Fs -> In fld Fs -> g = 2 -> 4 <= n0 /\ 4 <= n1 /\ 4 <= n2 ->
  Forall (fun Ks : @kfun T * @kfun T => star_local 3 [fld; vx; vy; vz] 2 (fst Ks) /\ star_local 3 [fld] 1 (snd Ks) /\ overwrites (snd Ks)) steps ->
  represents_ext per [pz; py; px] [n0; n1; n2] g Fs m u ->
  exists m', spmd_ends (zprod [pz; py; px]) (flat_map (tstep_3d add z per pz py px n0 n1 n2 g full buf vx vy vz) (flat_map (fun Ks => passive_scalar_calls fld (fst Ks) (snd Ks)) steps)) m m' /\
    represents_ext per [pz; py; px] [n0; n1; n2] g Fs m'
      (fold_left (fun u Ks => transported add z per (global_size [pz; py; px] [n0; n1; n2]) fld (fst Ks) (snd Ks) u) steps u).
Proof.
  intros G Hb Hv Hf Hg (H0 & H1 & H2) HK HR. rewrite <- scalar_serial. eapply history_3d; eauto. apply scalar_calls_ok; auto.
Qed.
Theorem passive_vector_3d {T} (add : T -> T -> T) (z : T) per pz py px n0 n1 n2 g full buf vx vy vz Fs f0 f1 f2 steps (m : mem T) u :
  grid3 pz py px n0 n1 n2 g -> ~ In buf Fs -> incl [vx; vy; vz] Fs -> incl [f0; f1; f2] Fs -> NoDup [f0; f1; f2] -> (forall f, In f [f0; f1; f2] -> ~ In f [vx; vy; vz]) ->
  g = 2 -> 4 <= n0 /\ 4 <= n1 /\ 4 <= n2 ->
  Forall (fun Ks : (nat -> @kfun T) * (nat -> @kfun T) => forall f, In f [f0; f1; f2] ->
    star_local 3 [f; vx; vy; vz] 2 (fst Ks f) /\ star_local 3 [f] 1 (snd Ks f) /\ overwrites (snd Ks f)) steps ->
  represents_ext per [pz; py; px] [n0; n1; n2] g Fs m u ->
  exists m', spmd_ends (zprod [pz; py; px]) (flat_map (tstep_3d add z per pz py px n0 n1 n2 g full buf vx vy vz) (flat_map (fun Ks => passive_vector_calls f0 f1 f2 (fst Ks) (snd Ks)) steps)) m m' /\
    represents_ext per [pz; py; px] [n0; n1; n2] g Fs m'
      (fold_left (fun u Ks => transported_vector add z per (global_size [pz; py; px] [n0; n1; n2]) [f0; f1; f2] (fst Ks) (snd Ks) u) steps u).
Proof.
  intros G Hb Hv Hi Hd Hn Hg (H0 & H1 & H2) HK HR.
  destruct (history_3d add z per pz py px n0 n1 n2 g full buf vx vy vz Fs (flat_map (fun Ks => passive_vector_calls f0 f1 f2 (fst Ks) (snd Ks)) steps) m u) as (m' & A & B); auto.
  - apply vector_calls_ok; auto.
  - exists m'. split; [exact A|]. eapply ext_same; [|exact B]. eapply (vector_serial add z per _ 3 [vx; vy; vz]); eauto. intros f P _. reflexivity.
Qed.
