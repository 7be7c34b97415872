(** Property C50: Brinkmann penalisation and characteristic functions. *)
From Verif Require Import Base SpecGrid SpecGhost Comm Spmd Stencil Pointwise.
From Verif Require HaloThms PointwiseProofs.

Section P.
Context {T : Type}.
(** The arrays are all ranks' ghosted arrays of shape [sizes] (2D or 3D). *)
Variables (n : Z) (sizes : list Z).
Hypothesis shape : sizes <> [] /\ Forall (fun x => 0 <= x) sizes.

(** C50.  A call ends (in one memory whatever the schedule) with the serial formula applied in every cell of every rank,
    ghosts included, and nothing else changed.  Working in place (penalised field = field) is allowed; otherwise the
    penalised arrays must not be among the inputs. *)
Theorem C50_brinkmann (f : T -> T -> T -> T) chi cs (m : mem T) :
  NoDup (map (fun c => fst (fst c)) cs) -> ~ In chi (map (fun c => fst (fst c)) cs) ->
  (forall out fld pen, In (out, fld, pen) cs -> ~ In pen (map (fun c => fst (fst c)) cs) /\ (fld = out \/ ~ In fld (map (fun c => fst (fst c)) cs))) ->
  exists m', spmd_ends n (brinkmann f sizes chi cs) m m' /\ (forall m'', spmd_ends n (brinkmann f sizes chi cs) m m'' -> m'' = m') /\
    (forall out fld pen r I, In (out, fld, pen) cs -> 0 <= r < n -> inb sizes I ->
       field m' sizes r out I = f (field m sizes r fld I) (field m sizes r chi I) (field m sizes r pen I)) /\
    (forall r x a, ~ In x (map (fun c => fst (fst c)) cs) -> m' (r, (x, a)) = m (r, (x, a))).
Proof.
  intros Hnd Hchi Hin. destruct shape as [Hne Hs]. assert (R : spmd_ends n (brinkmann f sizes chi cs) m (den n (brinkmann f sizes chi cs) m)) by (apply spmd_safe; repeat constructor).
  exists (den n (brinkmann f sizes chi cs) m). split; [exact R|]. split; [intros m'' R'; exact (HaloThms.spmd_ends_det _ _ _ _ _ R' R)|]. split.
  - intros. now apply (PointwiseProofs.brinkmann_post sizes n Hs).
  - intros. now apply (PointwiseProofs.brinkmann_frame sizes n Hs).
Qed.
Theorem C50_char_func (h : T -> T) chi phi (m : mem T) : chi <> phi ->
  exists m', spmd_ends n (char_func h sizes chi phi) m m' /\ (forall m'', spmd_ends n (char_func h sizes chi phi) m m'' -> m'' = m') /\
    (forall r I, 0 <= r < n -> inb sizes I -> field m' sizes r chi I = h (field m sizes r phi I)) /\
    (forall r x a, x <> chi -> m' (r, (x, a)) = m (r, (x, a))).
Proof.
  intros Hd. destruct shape as [Hne Hs]. assert (R : spmd_ends n (char_func h sizes chi phi) m (den n (char_func h sizes chi phi) m)) by (apply spmd_safe; repeat constructor).
  exists (den n (char_func h sizes chi phi) m). split; [exact R|]. split; [intros m'' R'; exact (HaloThms.spmd_ends_det _ _ _ _ _ R' R)|]. split.
  - intros. now apply (PointwiseProofs.char_post sizes n Hs).
  - intros. now apply (PointwiseProofs.char_frame sizes n).
Qed.

(** C50.  So no exchange is needed after the call: wherever (inner cell or ghost) the inputs hold the values u of global
    fields, the output holds the serial result. *)
Theorem C50_ghosts_stay_valid (f : T -> T -> T -> T) chi cs (m m' : mem T) (u : nat -> list Z -> T) (valid : Z -> list Z -> Prop) (pos : Z -> list Z -> list Z) :
  NoDup (map (fun c => fst (fst c)) cs) -> ~ In chi (map (fun c => fst (fst c)) cs) ->
  (forall out fld pen, In (out, fld, pen) cs -> ~ In pen (map (fun c => fst (fst c)) cs) /\ (fld = out \/ ~ In fld (map (fun c => fst (fst c)) cs))) ->
  (forall r I x, 0 <= r < n -> inb sizes I -> valid r I -> x = chi \/ (exists out fld pen, In (out, fld, pen) cs /\ (x = fld \/ x = pen)) -> field m sizes r x I = u x (pos r I)) ->
  spmd_ends n (brinkmann f sizes chi cs) m m' ->
  forall out fld pen r I, In (out, fld, pen) cs -> 0 <= r < n -> inb sizes I -> valid r I -> field m' sizes r out I = f (u fld (pos r I)) (u chi (pos r I)) (u pen (pos r I)).
Proof.
  intros Hnd Hchi Hin Hv R out fld pen r I Hc Hr HI HV. destruct (C50_brinkmann f chi cs m Hnd Hchi Hin) as (m1 & _ & U & P & _). rewrite (U m' R). rewrite (P out fld pen r I Hc Hr HI).
  rewrite !Hv; auto; right; exists out, fld, pen; auto.
Qed.
End P.

(** In-place penalisation of a 2D vector field (arrays 0 and 1 with penalty fields 2 and 3, characteristic function 4). *)
Example C50_nonvacuous : let cs := [(0, 0, 2); (1, 1, 3)]%nat in
  NoDup (map (fun c => fst (fst c)) cs) /\ ~ In 4%nat (map (fun c => fst (fst c)) cs) /\
  (forall out fld pen, In (out, fld, pen) cs -> ~ In pen (map (fun c => fst (fst c)) cs) /\ (fld = out \/ ~ In fld (map (fun c => fst (fst c)) cs))).
Proof.
  cbn. split; [repeat constructor; cbn; intuition discriminate|]. split; [intuition discriminate|].
  intros o fl p [E|[E|[]]]; inversion E; subst; (split; [intuition discriminate|now left]).
Qed.

Print Assumptions C50_brinkmann.
Print Assumptions C50_char_func.
Print Assumptions C50_ghosts_stay_valid.
