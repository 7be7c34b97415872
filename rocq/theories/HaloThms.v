(** Results for the concrete kernels. *)
From Verif Require Import Base SpecGrid SpecGhost SpecStencil Cart CartFacts Comm Spmd GhostGeo Ghost2D Ghost3D GhostProofs Stencil StencilProofs HaloProofs HaloKernels.
Arguments run_lops : simpl never.
Arguments addr_eq : simpl never.
Arguments place_dec : simpl never.

Section Thms.
Context {T : Type}.

(** [once ks loc k]: every cell is updated exactly once, or updating again does not matter. *)
Definition once (ks : Z) (loc : list Z) (k : @kern T) : Prop :=
  Forall (fun n => 2 * ks <= n) loc \/ Forall (fun oK => overwrites (snd oK)) k.

Lemma ifF {A} (P : A -> Prop) (o : option Z) v : P v -> Forall P (if isnone o then [v] else []).
Proof. destruct (isnone o); auto. Qed.

Lemma halo2_correct per py px ny nx g full ks F (k : @kern T) (zero : option T) (d : T) :
  1 <= py /\ 1 <= px -> 0 <= ks <= g -> 1 <= g -> g <= ny /\ g <= nx ->
  NoDup (map fst k) -> (forall f, In f F -> ~ In f (map fst k)) ->
  Forall (fun oK => star_local 2 F ks (snd oK)) k -> once ks [ny; nx] k ->
  Forall (phase_ok (zprod [py; px])) (halo2 per py px ny nx g full ks F k (option_map (fun z => (z, 1)) zero)) /\
  forall m : mem T, acts_as_serial per [py; px] [ny; nx] g ks F k zero m
    (den (zprod [py; px]) (halo2 per py px ny nx g full ks F k (option_map (fun z => (z, 1)) zero)) m).
Proof.
  intros Hp Hks Hg Hn Hnd Hdis Hst Honce.
  rewrite Forall_forall in Hst.
  assert (Hpass : forall x o K, inb [ny; nx] x -> In (o, K) k ->
    passes [ny; nx] g ks (strips2 g ks (shape0 ny g) (shape1 nx g)) (map (fun i => i + g) x) = 1%nat \/
    (overwrites K /\ (1 <= passes [ny; nx] g ks (strips2 g ks (shape0 ny g) (shape1 nx g)) (map (fun i => i + g)%Z x))%nat)).
  { intros x o K Hx Hin. destruct (passes2 ny nx g ks (map (fun i => i + g) x)) as [P1 P2]; auto; [now apply add_inner|].
    destruct Honce as [Ho|Ho].
    - left. inversion Ho as [|? ? A1 A2]; subst. inversion A2; subst. auto.
    - right. rewrite Forall_forall in Ho. split; auto. apply (Ho (o, K)); auto. }
  assert (Hsl : forall o K, In (o, K) k -> star_local (length [ny; nx]) F ks K) by (intros o K Hin; apply (Hst (o, K)); auto).
  pose proof (fun zv z zero => halo_correct per [py; px] [ny; nx] g ks F _ k (strips2 g ks (shape0 ny g) (shape1 nx g)) zv z zero
      (ok2 py px ny nx g Hp Hg Hn) Hks Hg (exch2_facts per py px ny nx g full F Hp Hg Hn) Hnd Hdis Hsl ltac:(repeat constructor)) as H.
  destruct zero as [z|].
  - destruct (H (zeroed2 per py px g) z (Some z)) as (H1 & H2); auto.
    + intros r. unfold zeroed2, zero_views2. rewrite !Forall_app. repeat split; apply ifF; reflexivity.
    + split; auto. intros r x Hr Hx. now apply boundary2.
  - destruct (H (fun _ => []) d None) as (H1 & H2); auto.
Qed.

Lemma halo3_correct per pz py px n0 n1 n2 g full ks F (k : @kern T) (zero : option T) (d : T) :
  1 <= pz /\ 1 <= py /\ 1 <= px -> 0 <= ks <= g -> 1 <= g -> g <= n0 /\ g <= n1 /\ g <= n2 ->
  NoDup (map fst k) -> (forall f, In f F -> ~ In f (map fst k)) ->
  Forall (fun oK => star_local 3 F ks (snd oK)) k -> once ks [n0; n1; n2] k ->
  Forall (phase_ok (zprod [pz; py; px])) (halo3 per pz py px n0 n1 n2 g full ks F k (option_map (fun z => (z, 1)) zero)) /\
  forall m : mem T, acts_as_serial per [pz; py; px] [n0; n1; n2] g ks F k zero m
    (den (zprod [pz; py; px]) (halo3 per pz py px n0 n1 n2 g full ks F k (option_map (fun z => (z, 1)) zero)) m).
Proof.
  intros Hp Hks Hg Hn Hnd Hdis Hst Honce.
  rewrite Forall_forall in Hst.
  assert (Hpass : forall x o K, inb [n0; n1; n2] x -> In (o, K) k ->
    passes [n0; n1; n2] g ks (strips3 g ks (s0 n0 g) (s1 n1 g) (s2 n2 g)) (map (fun i => i + g) x) = 1%nat \/
    (overwrites K /\ (1 <= passes [n0; n1; n2] g ks (strips3 g ks (s0 n0 g) (s1 n1 g) (s2 n2 g)) (map (fun i => i + g)%Z x))%nat)).
  { intros x o K Hx Hin. destruct (passes3 n0 n1 n2 g ks (map (fun i => i + g) x)) as [P1 P2]; auto; [now apply add_inner|].
    destruct Honce as [Ho|Ho].
    - left. inversion Ho as [|? ? A1 A2]; subst. inversion A2 as [|? ? A3 A4]; subst. inversion A4; subst. auto.
    - right. rewrite Forall_forall in Ho. split; auto. apply (Ho (o, K)); auto. }
  assert (Hsl : forall o K, In (o, K) k -> star_local (length [n0; n1; n2]) F ks K) by (intros o K Hin; apply (Hst (o, K)); auto).
  pose proof (fun zv z zero => halo_correct per [pz; py; px] [n0; n1; n2] g ks F _ k (strips3 g ks (s0 n0 g) (s1 n1 g) (s2 n2 g)) zv z zero
      (ok3 pz py px n0 n1 n2 g Hp Hg Hn) Hks Hg (exch3_facts per pz py px n0 n1 n2 g full F Hp Hg Hn) Hnd Hdis Hsl ltac:(repeat constructor)) as H.
  destruct zero as [z|].
  - destruct (H (zeroed3 per pz py px g) z (Some z)) as (H1 & H2); auto.
    + intros r. unfold zeroed3, zero_views3. rewrite !Forall_app. repeat split; apply ifF; reflexivity.
    + split; auto. intros r x Hr Hx. now apply boundary3.
  - destruct (H (fun _ => []) d None) as (H1 & H2); auto.
Qed.
End Thms.

(** ** Consequences of the specification alone *)
Section Conseq.
Context {T : Type}.

(** The global field a distributed memory stands for. *)
Definition global_of (dims loc : list Z) (g : Z) (m : mem T) : nat -> list Z -> T :=
  fun f q => field m (ghosted g loc) (ravel dims (vdiv q loc)) f (map (fun i => i + g) (vmod q loc)).

Lemma represents_global dims loc g F (m : mem T) : grid_ok dims loc -> represents dims loc g F m (global_of dims loc g m).
Proof.
  intros [Hl Hd Hn] r f x Hr Hf Hx. unfold global_of, block_start.
  destruct (vdivmod_unique loc (unravel dims r) x) as [-> ->]; auto.
  - rewrite unravel_length. lia.
  - now rewrite ravel_unravel.
Qed.
Lemma represents_same dims loc g F (m1 m2 : mem T) u : same_inner dims loc g F m1 m2 -> represents dims loc g F m1 u -> represents dims loc g F m2 u.
Proof. intros H Hr r f x Hrr Hf Hx. rewrite <- H; auto. Qed.

Lemma wrapv_true N P : exists q, wrapv true N P = Some q.
Proof. revert P. induction N as [|n N IH]; intros [|p P]; simpl; eauto. destruct (IH P) as [q ->]. eauto. Qed.

Lemma away_star per ks N P d : inb N P -> 0 <= ks -> away per ks N P -> star (length N) ks d -> exists q, wrapv per N (vadd P d) = Some q.
Proof.
  intros HP Hk [-> | Ha] (k & c & Hkn & Hc & ->); [apply wrapv_true|].
  exists (vadd P (axis_vec (length N) k c)). apply wrapv_in. revert k Hkn.
  induction HP as [|n N p P Hp HP IH]; intros k Hkn; simpl in *; [lia|]. inversion Ha; subst. simpl in *.
  destruct k as [|k]; simpl.
  - rewrite vadd_zero by (now apply inb_length). constructor; [lia|auto].
  - constructor; [lia|]. apply IH; auto. lia.
Qed.

Lemma reads_exist per N u F ks P : inb N P -> 0 <= ks -> away per ks N P -> exists rd : nat -> list Z -> T, reads_global per N u F ks P rd.
Proof.
  intros HP Hk Ha.
  exists (fun f d => match wrapv per N (vadd P d) with Some q => u f q | None => u f P end).
  intros f d Hf Hd. destruct (away_star per ks N P d HP Hk Ha Hd) as [q Hq]. exists q. now rewrite Hq.
Qed.

Lemma boundary_or_away per N P : inb N P -> on_boundary per N P \/ away per 1 N P.
Proof.
  intros HP. unfold on_boundary, away. destruct per; [auto|].
  assert (H : Exists (fun ab => fst ab = 0 \/ fst ab = snd ab - 1) (combine P N) \/ Forall (fun ab => 1 <= fst ab < snd ab - 1) (combine P N)).
  { induction HP as [|n N p P Hp HP IH]; simpl; [auto|].
    destruct IH as [IH|IH]; [left; now right|].
    destruct (Z.eq_dec p 0); [left; left; simpl; auto|]. destruct (Z.eq_dec p (n - 1)); [left; left; simpl; auto|].
    right. constructor; auto. simpl. lia. }
  tauto.
Qed.
Lemma boundary_not_away per N P : on_boundary per N P -> ~ away per 1 N P.
Proof.
  intros [-> H] [E|Ha]; [discriminate|]. rewrite Forall_forall in Ha. apply Exists_exists in H as (x & Hx & Hb).
  specialize (Ha x Hx). lia.
Qed.

Variables (per : bool) (dims loc : list Z) (g ks : Z) (F : list nat) (k : list (nat * ((nat -> list Z -> T) -> T -> T))).
Hypothesis Hok : grid_ok dims loc.
Hypothesis Hks : 0 <= ks.

Lemma pos_inb r x : 0 <= r < zprod dims -> inb loc x -> inb (global_size dims loc) (vadd (block_start dims loc r) x).
Proof. intros Hr Hx. now apply block_inside. Qed.

(** Kernels that reset the physical boundary: inner outputs are a function of inner inputs. *)
Lemma stale_free z (m1 m2 m1' m2' : mem T) : ks = 1 -> Forall (fun oK => overwrites (snd oK)) k ->
  acts_as_serial per dims loc g ks F k (Some z) m1 m1' -> acts_as_serial per dims loc g ks F k (Some z) m2 m2' ->
  same_inner dims loc g F m1 m2 -> same_inner dims loc g (map fst k) m1' m2'.
Proof.
  intros E Hov A1 A2 Hs r f x Hr Hf Hx. apply in_map_iff in Hf as ([o K] & <- & Hin). simpl.
  pose proof (pos_inb r x Hr Hx) as HP.
  destruct (boundary_or_away per _ _ HP) as [Hb|Ha].
  - rewrite (as_zero _ _ _ _ _ _ _ _ _ _ A1 z r x o K), (as_zero _ _ _ _ _ _ _ _ _ _ A2 z r x o K); auto.
  - assert (Hnb : ~ on_boundary per (global_size dims loc) (vadd (block_start dims loc r) x)) by (intros Hb; eapply boundary_not_away; eauto).
    assert (R1 : represents dims loc g F m1 (global_of dims loc g m1)) by (now apply represents_global).
    destruct (reads_exist per _ (global_of dims loc g m1) F ks _ HP Hks ltac:(now rewrite E)) as [rd Hrd].
    rewrite (as_value _ _ _ _ _ _ _ _ _ _ A1 (global_of dims loc g m1) r x o K rd); auto.
    rewrite (as_value _ _ _ _ _ _ _ _ _ _ A2 (global_of dims loc g m1) r x o K rd); auto; [|eapply represents_same; eauto].
    rewrite Forall_forall in Hov. apply (Hov (o, K) Hin).
Qed.

(** Kernels without boundary reset: the same at distance ks from the physical boundary. *)
Lemma stale_free_away (m1 m2 m1' m2' : mem T) r o x :
  acts_as_serial per dims loc g ks F k None m1 m1' -> acts_as_serial per dims loc g ks F k None m2 m2' ->
  same_inner dims loc g (F ++ map fst k) m1 m2 -> 0 <= r < zprod dims -> In o (map fst k) -> inb loc x ->
  away per ks (global_size dims loc) (vadd (block_start dims loc r) x) ->
  field m1' (ghosted g loc) r o (map (fun i => i + g) x) = field m2' (ghosted g loc) r o (map (fun i => i + g) x).
Proof.
  intros A1 A2 Hs Hr Ho Hx Ha. pose proof Ho as Ho'. apply in_map_iff in Ho as ([o' K] & <- & Hin). simpl in *.
  pose proof (pos_inb r x Hr Hx) as HP.
  assert (R1 : represents dims loc g F m1 (global_of dims loc g m1)) by (now apply represents_global).
  assert (R2 : represents dims loc g F m2 (global_of dims loc g m1)).
  { eapply represents_same; [|exact R1]. intros r' f' x' H1 H2 H3. apply Hs; auto. apply in_app_iff. auto. }
  destruct (reads_exist per _ (global_of dims loc g m1) F ks _ HP Hks Ha) as [rd Hrd].
  rewrite (as_value _ _ _ _ _ _ _ _ _ _ A1 (global_of dims loc g m1) r x o' K rd); auto.
  rewrite (as_value _ _ _ _ _ _ _ _ _ _ A2 (global_of dims loc g m1) r x o' K rd); auto.
  f_equal. apply Hs; auto. apply in_app_iff. auto.
Qed.
End Conseq.

(** ** Sequential composition *)
Section Seq.
Context {T : Type}.

Lemma den_app n (a b : list (@phase T)) (m : mem T) : den n (a ++ b) m = den n b (den n a m).
Proof. unfold den. apply fold_left_app. Qed.

Lemma acts_seq per dims loc g ks F1 F2 k1 k2 zero (m m1 m2 : mem T) :
  (forall f, In f F2 -> ~ In f (map fst k1)) ->
  (forall f, In f (map fst k1) -> ~ In f (map fst k2)) ->
  acts_as_serial per dims loc g ks F1 k1 zero m m1 -> acts_as_serial per dims loc g ks F2 k2 zero m1 m2 ->
  acts_as_serial per dims loc g ks (F1 ++ F2) (k1 ++ k2) zero m m2.
Proof.
  intros D1 D2 A1 A2.
  assert (Hin1 : forall o K, In (o, K) k1 -> In o (map fst k1)) by (intros o K H; apply in_map_iff; exists (o, K); auto).
  assert (Hin2 : forall o K, In (o, K) k2 -> In o (map fst k2)) by (intros o K H; apply in_map_iff; exists (o, K); auto).
  split.
  - intros u r x o K rd Hrep Hr Hx Hin P Hz Hrd. apply in_app_iff in Hin as [Hin|Hin].
    + rewrite (as_inner _ _ _ _ _ _ _ _ _ _ A2) by (auto; apply D2; eauto).
      apply (as_value _ _ _ _ _ _ _ _ _ _ A1 u); auto.
      * intros r' f' x' H1 H2 H3. apply Hrep; auto. apply in_app_iff; auto.
      * intros f d Hf. apply Hrd. apply in_app_iff; auto.
    + rewrite (as_value _ _ _ _ _ _ _ _ _ _ A2 u r x o K rd); auto.
      * f_equal. apply (as_inner _ _ _ _ _ _ _ _ _ _ A1); auto. intros H. apply (D2 o); eauto.
      * intros r' f' x' H1 H2 H3. rewrite (as_inner _ _ _ _ _ _ _ _ _ _ A1); auto. apply Hrep; auto. apply in_app_iff; auto.
      * intros f d Hf. apply Hrd. apply in_app_iff; auto.
  - intros z r x o K E Hr Hx Hin Hb. apply in_app_iff in Hin as [Hin|Hin].
    + rewrite (as_inner _ _ _ _ _ _ _ _ _ _ A2) by (auto; apply D2; eauto). eapply (as_zero _ _ _ _ _ _ _ _ _ _ A1); eauto.
    + eapply (as_zero _ _ _ _ _ _ _ _ _ _ A2); eauto.
  - intros r f x Hr Hx Hf. rewrite map_app, in_app_iff in Hf.
    rewrite (as_inner _ _ _ _ _ _ _ _ _ _ A2) by tauto. apply (as_inner _ _ _ _ _ _ _ _ _ _ A1); tauto.
  - intros r f a Hr Hf HF. rewrite map_app, in_app_iff in Hf. rewrite in_app_iff in HF.
    rewrite (as_frame _ _ _ _ _ _ _ _ _ _ A2) by tauto. apply (as_frame _ _ _ _ _ _ _ _ _ _ A1); tauto.
Qed.

Lemma ssteps_done (c c' : @cfg T) : sdone c -> ssteps c c' -> c = c'.
Proof.
  intros [H1 H2] H. inversion H as [|? c1 ? Hs]; subst; auto. exfalso. inversion Hs; subst; try (rewrite H1 in *; discriminate).
  rewrite H2 in *. destruct A; discriminate.
Qed.
(** The final memory is unique. *)
Lemma spmd_ends_det n ps (m m1 m2 : mem T) : spmd_ends n ps m m1 -> spmd_ends n ps m m2 -> m1 = m2.
Proof.
  intros (_ & H1 & _) (_ & H2 & _). destruct (H1 (sstart n ps m)) as (f & A1 & A2 & <-); [constructor|].
  destruct (H2 f A1) as (f' & B1 & B2 & <-). apply ssteps_done in B1; auto. now subst.
Qed.
End Seq.
