From Verif Require Import Base SpecGrid SpecGhost SpecStencil Cart CartFacts Comm Spmd GhostGeo Ghost2D Ghost3D GhostProofs Stencil StencilProofs HaloProofs HaloKernels HaloThms CurlProofs KernelList.
Arguments run_lops : simpl never.
Arguments addr_eq : simpl never.
Arguments place_dec : simpl never.

Section P.
Context {T : Type}.

(** Program ps can be run asynchronously and acts as the serial kernel. *)
Definition good_prog per dims loc g ks F k zero (ps : list (@phase T)) : Prop :=
  Forall (phase_ok (zprod dims)) ps /\
  forall m : mem T, acts_as_serial per dims loc g ks F k zero m (den (zprod dims) ps m).

Lemma good_ends per dims loc g ks F k zero ps (m : mem T) : good_prog per dims loc g ks F k zero ps ->
  exists m', spmd_ends (zprod dims) ps m m' /\ acts_as_serial per dims loc g ks F k zero m m'.
Proof. intros [H1 H2]. exists (den (zprod dims) ps m). split; [now apply spmd_safe|apply H2]. Qed.

Lemma good_unique per dims loc g ks F k zero ps (m m' : mem T) : good_prog per dims loc g ks F k zero ps ->
  spmd_ends (zprod dims) ps m m' -> m' = den (zprod dims) ps m.
Proof. intros [H1 H2] E. eapply spmd_ends_det; [exact E|now apply spmd_safe]. Qed.

Lemma g2_ok py px ny nx g : grid2 py px ny nx g -> grid_ok [py; px] [ny; nx].
Proof. intros (A & B & C & D & E). apply (ok2 py px ny nx g); auto. Qed.
Lemma g3_ok pz py px n0 n1 n2 g : grid3 pz py px n0 n1 n2 g -> grid_ok [pz; py; px] [n0; n1; n2].
Proof. intros (A & B & C & D & E & H & J). apply (ok3 pz py px n0 n1 n2 g); auto. Qed.

Lemma halo2_good per py px ny nx g full ks F (k : @kern T) zero (d : T) : grid2 py px ny nx g -> 0 <= ks <= g ->
  NoDup (map fst k) -> (forall f, In f F -> ~ In f (map fst k)) ->
  Forall (fun oK => star_local 2 F ks (snd oK)) k -> once ks [ny; nx] k ->
  good_prog per [py; px] [ny; nx] g ks F k zero (halo2 per py px ny nx g full ks F k (option_map (fun z => (z, 1)) zero)).
Proof. intros (A & B & C & D & E) Hks H1 H2 H3 H4. apply halo2_correct; auto. Qed.
Lemma halo3_good per pz py px n0 n1 n2 g full ks F (k : @kern T) zero (d : T) : grid3 pz py px n0 n1 n2 g -> 0 <= ks <= g ->
  NoDup (map fst k) -> (forall f, In f F -> ~ In f (map fst k)) ->
  Forall (fun oK => star_local 3 F ks (snd oK)) k -> once ks [n0; n1; n2] k ->
  good_prog per [pz; py; px] [n0; n1; n2] g ks F k zero (halo3 per pz py px n0 n1 n2 g full ks F k (option_map (fun z => (z, 1)) zero)).
Proof. intros (A & B & C & D & E & G & H) Hks H1 H2 H3 H4. apply halo3_correct; auto. Qed.

Lemma good_seq per dims loc g ks F1 F2 k1 k2 zero ps1 ps2 :
  (forall f, In f F2 -> ~ In f (map fst k1)) -> (forall f, In f (map fst k1) -> ~ In f (map fst k2)) ->
  good_prog per dims loc g ks F1 k1 zero ps1 -> good_prog per dims loc g ks F2 k2 zero ps2 ->
  good_prog per dims loc g ks (F1 ++ F2) (k1 ++ k2) zero (ps1 ++ ps2).
Proof.
  intros D1 D2 [O1 A1] [O2 A2]. split; [now apply Forall_app|].
  intros m. rewrite den_app. eapply acts_seq; eauto.
Qed.

Lemma good_nil per dims loc g ks zero : good_prog per dims loc g ks [] [] zero [].
Proof. split; [constructor|]. intros m. split; simpl; try tauto; auto. Qed.

Lemma in1 {A} (a x : A) : In x [a] -> x = a.
Proof. simpl. intros [H|[]]; auto. Qed.

Ltac ins := simpl in *; intuition (subst; eauto; congruence).

Lemma reset_kernel_good (z : T) per dims loc g F k ps : reset_kernel z per dims loc g F k ps ->
  grid_ok dims loc /\ Forall (fun oK => overwrites (snd oK)) k /\ good_prog per dims loc g 1 F k (Some z) ps.
Proof.
  intros H. destruct H.
  - split; [eapply g2_ok; eauto|]. split; [repeat constructor; auto|]. pose proof H as (A & B & C & D & E).
    apply (halo2_good per py px ny nx g full 1 [fld] [(flux, K)] (Some z) z); auto; try lia.
    + repeat constructor; auto.
    + simpl. intros f [<-|[]] [E'|[]]. congruence.
    + right. repeat constructor; auto.
  - split; [eapply g2_ok; eauto|]. split; [repeat constructor; auto|]. pose proof H as (A & B & C & D & E).
    apply (halo2_good per py px ny nx g full 1 [fld] [(cx, Kx); (cy, Ky)] (Some z) z); auto; try lia.
    + simpl. inversion H0; subst. inversion H8; subst. constructor; [simpl in *; tauto|]. repeat constructor. tauto.
    + simpl. inversion H0; subst. inversion H8; subst. simpl in *. intros f [<-|[]] [E'|[E'|[]]]; subst; tauto.
    + right. repeat constructor; auto.
  - split; [eapply g3_ok; eauto|]. split; [repeat constructor; auto|]. pose proof H as (A & B & C & D & E).
    apply (halo3_good per pz py px n0 n1 n2 g full 1 [fld] [(flux, K)] (Some z) z); auto; try lia.
    + repeat constructor; auto.
    + simpl. intros f [<-|[]] [E'|[]]. congruence.
    + right. repeat constructor; auto.
  - split; [eapply g3_ok; eauto|]. split; [apply Forall_map; apply Forall_forall; intros; simpl; auto|].
    unfold vector_diffusion_flux_3d. pose proof H as (A & B & C & D & E).
    induction flux_fld as [|[fx fd] L IH]; [apply good_nil|].
    cbn [map fst snd flat_map]. inversion H0; subst.
    change (fd :: map snd L) with ([fd] ++ map snd L). change ((fx, K fd) :: map (fun p => (fst p, K (snd p))) L) with ([(fx, K fd)] ++ map (fun p => (fst p, K (snd p))) L).
    apply good_seq.
    + simpl. intros f Hf [E0|[]]. apply in_map_iff in Hf as (b & E1 & Hb). apply (H1 (fx, fd) b); simpl; auto. congruence.
    + simpl. intros f [<-|[]]. rewrite map_map. simpl. auto.
    + apply (halo3_good per pz py px n0 n1 n2 g full 1 [fd] [(fx, K fd)] (Some z) z); auto; try lia.
      * repeat constructor; auto.
      * simpl. intros f [E0|[]] [E'|[]]. apply (H1 (fx, fd) (fx, fd)); simpl; auto. congruence.
      * repeat constructor. simpl. auto.
      * right. repeat constructor. simpl. auto.
    + apply IH; auto. intros a b Ha Hb. apply H1; simpl; auto.
  - split; [eapply g3_ok; eauto|]. split; [repeat constructor; auto|]. pose proof H as (A & B & C & D & E).
    apply (halo3_good per pz py px n0 n1 n2 g full 1 [vx; vy; vz] [(dvg, K)] (Some z) z); auto; try lia.
    + repeat constructor; auto.
    + simpl in *. intros f Hf [E'|[]]. subst. tauto.
    + right. repeat constructor; auto.
Qed.

Lemma curl_kernel_good (z : T) per dims loc g F k ps : curl_kernel z per dims loc g F k ps ->
  grid_ok dims loc /\ Forall (fun oK => overwrites (snd oK)) k /\ good_prog per dims loc g 1 F k (Some z) ps.
Proof.
  intros H. destruct H as [pz py px n0 n1 n2 g full cx cy cz vx vy vz Kx Ky Kz race H Hnd Hd HK].
  split; [eapply g3_ok; eauto|]. split; [repeat constructor; apply HK; simpl; auto|]. pose proof H as (A & B & C & D & E & G & J).
  assert (Hloc : forall o K, In (o, K) [(cx, Kx); (cy, Ky); (cz, Kz)] -> star_local 3 [vx; vy; vz] 1 K).
  { intros o K Hin. apply HK. simpl in *. intuition congruence. }
  assert (Hov : forall o K, In (o, K) [(cx, Kx); (cy, Ky); (cz, Kz)] -> overwrites K).
  { intros o K Hin. apply HK. simpl in *. intuition congruence. }
  assert (Hd' : forall f, In f [vx; vy; vz] -> ~ In f (map fst [(cx, Kx); (cy, Ky); (cz, Kz)])).
  { intros f Hf Hin. apply (Hd f); auto. }
  split.
  - now apply curl_ok.
  - intros m. now apply curl_serial.
Qed.

Lemma adding_kernel_good (d : T) per dims loc g ks F k ps : adding_kernel per dims loc g ks F k ps ->
  grid_ok dims loc /\ 0 <= ks /\ (Forall (fun n => 2 * ks <= n) loc -> good_prog per dims loc g ks F k None ps).
Proof.
  intros H. destruct H.
  - split; [eapply g2_ok; eauto|]. split; [lia|]. intros Hl. pose proof H as (A & B & C & D & E).
    apply (halo2_good per py px ny nx g full 2 [fld; vx; vy] [(flux, K)] None d); auto; try lia.
    + repeat constructor; auto.
    + simpl in *. intros f Hf [E'|[]]. subst. tauto.
    + left. auto.
  - split; [eapply g2_ok; eauto|]. split; [lia|]. intros Hl. pose proof H as (A & B & C & D & E).
    apply (halo2_good per py px ny nx g full 1 [fx; fy] [(w, K)] None d); auto; try lia.
    + repeat constructor; auto.
    + simpl in *. intros f Hf [E'|[]]. subst. tauto.
    + left. auto.
  - split; [eapply g3_ok; eauto|]. split; [lia|]. intros Hl. pose proof H as (A & B & C & D & E & G & J).
    apply (halo3_good per pz py px n0 n1 n2 g full 2 [fld; vx; vy; vz] [(flux, K)] None d); auto; try lia.
    + repeat constructor; auto.
    + simpl in *. intros f Hf [E'|[]]. subst. tauto.
    + left. auto.
  - split; [eapply g3_ok; eauto|]. split; [lia|]. intros Hl. pose proof H as (A & B & C & D & E & G & J).
    apply (halo3_good per pz py px n0 n1 n2 g full 1 [fx; fy; fz] [(wx, Kx); (wy, Ky); (wz, Kz)] None d); auto; try lia.
    + intros f Hf Hin. apply (H1 f); auto.
    + repeat constructor; apply H2; simpl; auto.
    + left. auto.
  - split; [eapply g3_ok; eauto|]. split; [lia|]. intros Hl. pose proof H as (A & B & C & D & E & G & J).
    apply (halo3_good per pz py px n0 n1 n2 g full 1 [vx; vy; vz; ux; uy; uz] [(wx, Kx); (wy, Ky); (wz, Kz)] None d); auto; try lia.
    + intros f Hf Hin. apply (H1 f); auto.
    + repeat constructor; apply H2; simpl; auto.
    + left. auto.
Qed.

(** *** Statements used by the property file *)
Lemma reset_kernel_serial (z : T) per dims loc g F k ps (m : mem T) : reset_kernel z per dims loc g F k ps ->
  exists m', spmd_ends (zprod dims) ps m m' /\ acts_as_serial per dims loc g 1 F k (Some z) m m'.
Proof. intros H. apply good_ends. now apply reset_kernel_good. Qed.
Lemma curl_kernel_serial (z : T) per dims loc g F k ps (m : mem T) : curl_kernel z per dims loc g F k ps ->
  exists m', spmd_ends (zprod dims) ps m m' /\ acts_as_serial per dims loc g 1 F k (Some z) m m'.
Proof. intros H. apply good_ends. now apply curl_kernel_good. Qed.
Lemma adding_kernel_serial per dims loc g ks F k ps (m : mem T) : adding_kernel per dims loc g ks F k ps ->
  Forall (fun n => 2 * ks <= n) loc ->
  exists m', spmd_ends (zprod dims) ps m m' /\ acts_as_serial per dims loc g ks F k None m m'.
Proof. intros H Hl. apply good_ends. apply (adding_kernel_good (m (0, (0%nat, 0))) per dims loc g ks F k ps H); auto. Qed.

Definition either_kernel (z : T) per dims loc g F k ps := reset_kernel z per dims loc g F k ps \/ curl_kernel z per dims loc g F k ps.
Lemma either_good (z : T) per dims loc g F k ps : either_kernel z per dims loc g F k ps ->
  grid_ok dims loc /\ Forall (fun oK => overwrites (snd oK)) k /\ good_prog per dims loc g 1 F k (Some z) ps.
Proof. intros [H|H]; [now apply reset_kernel_good|now apply curl_kernel_good]. Qed.

Lemma zero_exactly (z : T) per dims loc g F k ps (m m' : mem T) r o K x : either_kernel z per dims loc g F k ps ->
  spmd_ends (zprod dims) ps m m' -> 0 <= r < zprod dims -> In (o, K) k -> inb loc x ->
  (forall rd old, K rd old <> z) ->
  (field m' (ghosted g loc) r o (map (fun i => i + g) x) = z <-> on_boundary per (global_size dims loc) (vadd (block_start dims loc r) x)).
Proof.
  intros H E Hr Hin Hx HK. apply either_good in H as (Hok & _ & Hgp).
  rewrite (good_unique _ _ _ _ _ _ _ _ _ _ _ Hgp E). destruct Hgp as [_ A]. specialize (A m). split.
  - intros Hz. pose proof (pos_inb dims loc Hok r x Hr Hx) as HP. destruct (boundary_or_away per _ _ HP) as [Hb|Ha]; auto. exfalso.
    destruct (reads_exist per _ (global_of dims loc g m) F 1 _ HP ltac:(lia) Ha) as [rd Hrd].
    rewrite (as_value _ _ _ _ _ _ _ _ _ _ A (global_of dims loc g m) r x o K rd) in Hz; auto.
    + eapply HK; eauto.
    + now apply represents_global.
    + right. intros Hb. eapply boundary_not_away; eauto.
  - intros Hb. eapply (as_zero _ _ _ _ _ _ _ _ _ _ A); eauto.
Qed.

Lemma stale_free_prog (z : T) per dims loc g F k ps (m1 m2 m1' m2' : mem T) : either_kernel z per dims loc g F k ps ->
  spmd_ends (zprod dims) ps m1 m1' -> spmd_ends (zprod dims) ps m2 m2' ->
  same_inner dims loc g F m1 m2 -> same_inner dims loc g (map fst k) m1' m2'.
Proof.
  intros H E1 E2 Hs. apply either_good in H as (Hok & Hov & Hgp).
  rewrite (good_unique _ _ _ _ _ _ _ _ _ _ _ Hgp E1), (good_unique _ _ _ _ _ _ _ _ _ _ _ Hgp E2). destruct Hgp as [_ A].
  eapply (stale_free per dims loc g 1 F k Hok ltac:(lia) z m1 m2); eauto.
Qed.

Lemma stale_free_away_prog per dims loc g ks F k ps (m1 m2 m1' m2' : mem T) r o x : adding_kernel per dims loc g ks F k ps ->
  Forall (fun n => 2 * ks <= n) loc ->
  spmd_ends (zprod dims) ps m1 m1' -> spmd_ends (zprod dims) ps m2 m2' ->
  same_inner dims loc g (F ++ map fst k) m1 m2 -> 0 <= r < zprod dims -> In o (map fst k) -> inb loc x ->
  away per ks (global_size dims loc) (vadd (block_start dims loc r) x) ->
  field m1' (ghosted g loc) r o (map (fun i => i + g) x) = field m2' (ghosted g loc) r o (map (fun i => i + g) x).
Proof.
  intros H Hl E1 E2 Hs Hr Ho Hx Ha. apply (adding_kernel_good (m1 (0, (0%nat, 0)))) in H as (Hok & Hks & Hgp). specialize (Hgp Hl).
  rewrite (good_unique _ _ _ _ _ _ _ _ _ _ _ Hgp E1), (good_unique _ _ _ _ _ _ _ _ _ _ _ Hgp E2). destruct Hgp as [_ A].
  eapply (stale_free_away per dims loc g ks F k Hok Hks m1 m2); eauto.
Qed.
End P.
