From Coq Require Import FunctionalExtensionality.
From Verif Require Import Base SpecGrid SpecGhost SpecStencil SpecStep SpecNS Comm Spmd Stencil StencilProofs HaloKernels NSSteps NSBase Pointwise.
Arguments run_lops : simpl never.
Arguments addr_eq : simpl never.
Section P.
Context {T : Type}.
Variables (sizes : list Z) (n : Z).
Hypothesis Hs : Forall (fun x => 0 <= x) sizes.
Lemma vadd_here I : length I = length sizes -> vadd I (here sizes) = I.
Proof. clear Hs. unfold here. revert I. induction sizes as [|x l IH]; intros [|i I] H; cbn in *; try discriminate; auto. f_equal; [lia|]. apply IH. lia. Qed.
Lemma here_star : star (length sizes) 0 (here sizes) \/ sizes = [].
Proof. destruct sizes as [|x l] eqn:E; [now right|left]. unfold star. exists 0%nat, 0. cbn. split; [lia|]. split; [lia|]. f_equal. unfold here. clear. induction l; cbn; congruence. Qed.
(** In place: the field read in the cell being written is the old value. *)
Definition inplace_kern (f : T -> T -> T -> T) (chi : nat) (cs : list (nat * nat * nat)) : @kern T :=
  map (fun c => match c with (out, fld, pen) => (out, fun rd o => f (if (fld =? out)%nat then o else rd fld (here sizes)) (rd chi (here sizes)) (rd pen (here sizes))) end) cs.
Lemma inplace_lops f chi cs : kernel_lops sizes 0 (brinkmann_kern f sizes chi cs) (map (fun _ => SAll) sizes) = kernel_lops sizes 0 (inplace_kern f chi cs) (map (fun _ => SAll) sizes).
Proof.
  unfold kernel_lops. rewrite !flat_map_concat_map. f_equal. apply map_ext_in. intros I HI.
  assert (EI : vadd I (here sizes) = I).
  { apply vadd_here. apply kernel_cells_In in HI; [|now rewrite map_length]. apply view_in_inb in HI; [|lia|exact Hs]. now apply inb_length in HI. }
  unfold brinkmann_kern, inplace_kern. rewrite !map_map. apply map_ext. intros [[out fld] pen]. cbn [fst snd]. f_equal. apply functional_extensionality. intros m. rewrite !EI.
  destruct (Nat.eqb_spec fld out) as [-> |]; reflexivity.
Qed.
Definition outs (cs : list (nat * nat * nat)) : list nat := map (fun c => fst (fst c)) cs.
Lemma keys_eq f chi cs : map fst (inplace_kern f chi cs) = outs cs.
Proof. unfold inplace_kern, outs. rewrite map_map. apply map_ext. now intros [[? ?] ?]. Qed.
Lemma den_brinkmann f chi cs (m : mem T) : den n (brinkmann f sizes chi cs) m = den n [PLoc (fun _ => kernel_lops sizes 0 (inplace_kern f chi cs) (map (fun _ => SAll) sizes))] m.
Proof. unfold brinkmann. now rewrite inplace_lops. Qed.
Lemma brinkmann_post f chi cs (m : mem T) out fld pen r I : sizes <> [] -> NoDup (outs cs) -> ~ In chi (outs cs) ->
  (forall o fl p, In (o, fl, p) cs -> ~ In p (outs cs) /\ (fl = o \/ ~ In fl (outs cs))) ->
  In (out, fld, pen) cs -> 0 <= r < n -> inb sizes I ->
  field (den n (brinkmann f sizes chi cs) m) sizes r out I = f (field m sizes r fld I) (field m sizes r chi I) (field m sizes r pen I).
Proof.
  intros Hne Hnd Hchi Hin Hc Hr HI. rewrite den_brinkmann.
  set (ins := filter (fun x => negb (existsb (Nat.eqb x) (outs cs))) (chi :: flat_map (fun c => [snd (fst c); snd c]) cs)).
  assert (Hst : star (length sizes) 0 (here sizes)) by (destruct here_star; [auto|contradiction]).
  assert (Hm : forall x, ~ In x (outs cs) -> x = chi \/ (exists c, In c cs /\ In x [snd (fst c); snd c]) -> In x ins).
  { intros x Hx Hor. unfold ins. apply filter_In. split.
    - destruct Hor as [-> |(c & Hcs & Hx')]; [now left|right]. apply in_flat_map. eauto.
    - apply negb_true_iff. apply not_true_is_false. intros E. apply existsb_exists in E as (y & Hy & Ey). apply Nat.eqb_eq in Ey. now subst. }
  rewrite (elem_post sizes n Hs (inplace_kern f chi cs) ins m r I out
    (fun rd o => f (if (fld =? out)%nat then o else rd fld (here sizes)) (rd chi (here sizes)) (rd pen (here sizes)))); auto.
  - rewrite vadd_here by (now apply inb_length in HI). destruct (Nat.eqb_spec fld out) as [-> |]; reflexivity.
  - now rewrite keys_eq.
  - intros x Hx. rewrite keys_eq. unfold ins in Hx. apply filter_In in Hx as [_ Hx]. apply negb_true_iff in Hx. intros Hx'. assert (existsb (Nat.eqb x) (outs cs) = true); [|congruence].
    apply existsb_exists. exists x. split; auto. apply Nat.eqb_refl.
  - intros o K HK. unfold inplace_kern in HK. apply in_map_iff in HK as ([[o' fl] p] & E & HK). inversion E; subst. clear E. destruct (Hin _ _ _ HK) as [Hp Hfl].
    intros rd rd' v E. rewrite (E chi), (E p); auto.
    + destruct (Nat.eqb_spec fl o) as [|Hneq]; auto. rewrite (E fl); auto. apply Hm; [destruct Hfl; [congruence|auto]|right; exists (o, fl, p); cbn; auto].
    + apply Hm; auto. right. exists (o, fl, p). cbn; auto.
  - unfold inplace_kern. apply in_map_iff. exists (out, fld, pen). auto.
Qed.
Lemma brinkmann_frame f chi cs (m : mem T) r x a : ~ In x (outs cs) -> den n (brinkmann f sizes chi cs) m (r, (x, a)) = m (r, (x, a)).
Proof. intros Hx. rewrite den_brinkmann. apply elem_frame. now rewrite keys_eq. Qed.
Lemma char_post h chi phi (m : mem T) r I : sizes <> [] -> chi <> phi -> 0 <= r < n -> inb sizes I -> field (den n (char_func h sizes chi phi) m) sizes r chi I = h (field m sizes r phi I).
Proof.
  intros Hne Hd Hr HI. unfold char_func. rewrite (elem_post sizes n Hs _ [phi] m r I chi (fun rd _ => h (rd phi (here sizes)))); auto.
  - rewrite vadd_here by (now apply inb_length in HI). reflexivity.
  - repeat constructor. intros [].
  - intros x [<- |[]] [E|[]]. cbn in E. congruence.
  - intros o K [E|[]]. inversion E; subst. intros rd rd' v E'. rewrite (E' phi); cbn; auto. destruct here_star; [auto|contradiction].
  - now left.
Qed.
Lemma char_frame h chi phi (m : mem T) r x a : x <> chi -> den n (char_func h sizes chi phi) m (r, (x, a)) = m (r, (x, a)).
Proof. intros Hx. apply elem_frame. cbn. intuition. Qed.
End P.
