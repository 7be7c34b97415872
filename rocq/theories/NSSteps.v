(** Further building blocks of a Navier-Stokes step, any number of axes: advection, reset kernels, elementwise kernels. *)
From Verif Require Import Base SpecGrid SpecGhost SpecStencil SpecStep SpecPenalise SpecNS Cart CartFacts Comm Spmd GhostGeo Ghost2D Ghost3D GhostProofs FieldProofs Stencil StencilProofs HaloProofs HaloKernels HaloThms CurlProofs KernelList KernelProofs TimeStep StepProofs StepHistory PenaliseProofs NavierStokes NSBase NSHalo.
Arguments run_lops : simpl never.
Arguments addr_eq : simpl never.
Arguments place_dec : simpl never.

Lemma sub_pos dims loc g r x : ghost_pos dims loc g r (map (fun i => i + g) x) = vadd (block_start dims loc r) x.
Proof. unfold ghost_pos. rewrite map_map. rewrite (map_ext _ (fun x => x)) by (intros; lia). now rewrite map_id. Qed.
Lemma inner_in dims loc g r I : grid_ok dims loc -> 0 <= r < zprod dims -> inner g loc I -> inbb (global_size dims loc) (ghost_pos dims loc g r I) = true.
Proof. intros Hok Hr HI. destruct (sub_ok g loc I HI) as (x & Hx & ->). rewrite sub_pos. apply inbb_spec. now apply block_inside. Qed.
Lemma owner_out dims loc P : owner false dims loc P = None -> inbb (global_size dims loc) P = false.
Proof.
  intros Ho. destruct (inbb _ _) eqn:E; auto. exfalso. apply inbb_spec in E. unfold owner in Ho. rewrite (wrapv_in false _ _ E) in Ho. discriminate.
Qed.

(** *** Elementwise kernels over whole arrays *)
Section Elem.
Context {T : Type}.
Variables (sizes : list Z) (n : Z).
Hypothesis Hs : Forall (fun x => 0 <= x) sizes.
Notation all := (map (fun _ : Z => SAll) sizes).

Lemma elem_post (k : @kern T) ins (m : mem T) r I o K : NoDup (map fst k) -> (forall f, In f ins -> ~ In f (map fst k)) ->
  (forall o K, In (o, K) k -> star_local (length sizes) ins 0 K) ->
  0 <= r < n -> inb sizes I -> In (o, K) k ->
  field (den n [PLoc (fun _ => kernel_lops sizes 0 k all)] m) sizes r o I = K (fun f d => field m sizes r f (vadd I d)) (field m sizes r o I).
Proof.
  intros Hnd Hdis Hloc Hr HI Hin. unfold den, field at 1. cbn [fold_left den1]. unfold den_loc. cbn [fst snd].
  replace ((0 <=? r) && (r <? n)) with true by (symmetry; apply andb_true_iff; rewrite Z.leb_le, Z.ltb_lt; lia).
  rewrite kernel_lops_cells. rewrite (run_cells sizes k) with (ins := ins) (K := K); auto.
  - rewrite count_view by (now rewrite map_length). rewrite all_in by auto. reflexivity.
  - intros o' K' H' rd rd' old H. apply (Hloc o' K' H'). auto.
  - intros J HJ. apply kernel_cells_In in HJ; [|now rewrite map_length]. eapply view_in_inb; [|exact Hs|exact HJ]. lia.
Qed.
Lemma elem_frame (k : @kern T) (m : mem T) r f a v : ~ In f (map fst k) ->
  den n [PLoc (fun _ => kernel_lops sizes 0 k v)] m (r, (f, a)) = m (r, (f, a)).
Proof.
  intros Hf. unfold den. cbn [fold_left den1]. unfold den_loc. cbn [fst snd].
  destruct ((0 <=? r) && (r <? n)); auto. rewrite kernel_lops_cells. now apply run_cells_frame.
Qed.
Lemma sets_post (z : T) (fs : list nat) (m : mem T) r I o : 0 <= r < n -> inb sizes I -> In o fs ->
  field (den n [PLoc (fun _ => set_lops sizes fs z all)] m) sizes r o I = z.
Proof.
  intros Hr HI Ho. unfold den, field at 1. cbn [fold_left den1]. unfold den_loc. cbn [fst snd].
  replace ((0 <=? r) && (r <? n)) with true by (symmetry; apply andb_true_iff; rewrite Z.leb_le, Z.ltb_lt; lia).
  change (set_lops sizes fs z all) with (flat_map (set_cell sizes fs z) (view_cells sizes all)).
  assert (Hc : forall J, In J (view_cells sizes all) <-> view_in 0 sizes all J = true).
  { intros J. rewrite view_cells_kernel. apply kernel_cells_In. now rewrite map_length. }
  rewrite run_sets; auto.
  - destruct (in_dec ldec I _) as [|Hn]; auto. exfalso. apply Hn. apply Hc. now apply all_in.
  - intros J HJ. apply Hc in HJ. eapply view_in_inb; [|exact Hs|exact HJ]. lia.
Qed.
Lemma sets_frame (z : T) (fs : list nat) (m : mem T) r f a v : ~ In f fs ->
  den n [PLoc (fun _ => set_lops sizes fs z v)] m (r, (f, a)) = m (r, (f, a)).
Proof.
  intros Hf. unfold den. cbn [fold_left den1]. unfold den_loc. cbn [fst snd].
  destruct ((0 <=? r) && (r <? n)); auto.
  change (set_lops sizes fs z v) with (flat_map (set_cell sizes fs z) (view_cells sizes v)). now apply run_sets_frame.
Qed.
End Elem.

Lemma star0 n d : star n 0 d -> d = repeat 0 n.
Proof.
  intros (k & c & Hk & Hc & ->). assert (c = 0) by lia. subst. clear Hc. revert k Hk. induction n as [|n IH]; intros [|k] Hk; simpl; auto; try lia. f_equal. apply IH. lia.
Qed.
Lemma vadd_rep0 (I : list Z) : vadd I (repeat 0 (length I)) = I.
Proof. induction I; simpl; auto. f_equal; auto. lia. Qed.

Section Glob.
Context {T : Type}.
Variables (dims loc : list Z) (g : Z).
Notation sizes := (ghosted g loc).
Notation n := (zprod dims).
Notation N := (global_size dims loc).
Hypothesis Hok : grid_ok dims loc.
Hypothesis Hg : 1 <= g.
Notation all := (map (fun _ : Z => SAll) sizes).

Lemma sz_pos : Forall (fun x => 0 <= x) sizes. Proof. now apply (sizes_pos dims). Qed.
Lemma sz_len : length sizes = length loc. Proof. unfold ghosted. now rewrite map_length. Qed.
Lemma cell_len I : inb sizes I -> length I = length loc.
Proof. intros H. apply inb_length in H. now rewrite sz_len in H. Qed.

Lemma elem_good (k : @kern T) ins Fs : NoDup (map fst k) -> (forall f, In f ins -> ~ In f (map fst k)) ->
  (forall o K, In (o, K) k -> star_local (length loc) ins 0 K) -> incl ins Fs -> 
  good_step false dims loc g Fs [PLoc (fun _ => kernel_lops sizes 0 k all)] (update_everywhere k).
Proof.
  intros Hnd Hdis Hloc Hi. split; [repeat constructor|]. intros m u H r f I Hr Hf HI HQ. unfold update_everywhere.
  destruct (in_dec Nat.eq_dec f (map fst k)) as [Hk|Hk].
  - apply key_In in Hk as [K Hin]. rewrite (apply_at k _ _ _ u f K _ Hnd Hin).
    rewrite (elem_post sizes n sz_pos k ins m r I f K); auto; [|rewrite sz_len; auto].
    rewrite (H r f I) by auto. apply (Hloc f K Hin). intros f' d Hf' Hd. apply star0 in Hd. subst d.
    pose proof (cell_len I HI) as HlI. replace (vadd I (repeat 0 (length loc))) with I by (rewrite <- HlI, vadd_rep0; reflexivity).
    rewrite (H r f' I) by auto. f_equal.
    pose proof (gp_length dims loc g r I ltac:(destruct Hok; auto) HlI) as HlP. rewrite <- (vadd_rep0 (ghost_pos dims loc g r I)) at 1. f_equal. f_equal. rewrite HlP.
    unfold global_size. destruct Hok as [A _ _]. rewrite vmul_length; lia.
  - rewrite (apply_off k _ _ _ u f) by auto. unfold field. rewrite elem_frame by auto. now apply H.
Qed.

Lemma free_good add (vs : list (nat * T)) Fs : NoDup (map fst vs) ->
  good_step false dims loc g Fs [PLoc (fun _ => add_fixed_val add sizes vs)] (free_stream add vs).
Proof.
  intros Hnd. unfold add_fixed_val, free_stream. apply (elem_good _ []).
  - rewrite map_map. cbn [fst]. exact Hnd.
  - intros f [].
  - intros o K Hin. apply in_map_iff in Hin as (va & E & _). inversion E; subst. intros rd rd' old _. reflexivity.
  - intros f [].
Qed.

Lemma fill_good (z : T) fs Fs : good_step false dims loc g Fs [PLoc (fun _ => set_lops sizes fs z all)] (fill fs z).
Proof.
  split; [repeat constructor|]. intros m u H r f I Hr Hf HI HQ. unfold fill.
  destruct (in_dec Nat.eq_dec f fs) as [Hk|Hk]; [now apply sets_post; [apply sz_pos| | |]|].
  unfold field. rewrite sets_frame by auto. now apply H.
Qed.
End Glob.

(** *** Kernels that overwrite their outputs and reset the boundary *)
Section Reset.
Context {T : Type}.
Variables (dims loc : list Z) (g ks : Z) (ins : list nat) (C : list (place * place)) (k : @kern T).
Variables (strips : list (list pslice)) (zv : Z -> list (list pslice)) (z : T).
Notation sizes := (ghosted g loc).
Notation n := (zprod dims).
Notation N := (global_size dims loc).
Hypothesis Hok : grid_ok dims loc.
Hypothesis Hks : 0 <= ks <= g.
Hypothesis Hg : 1 <= g.
Hypothesis HC : exch_facts false dims loc g ins C.
Hypothesis Hnd : NoDup (map fst k).
Hypothesis Hdis : forall f, In f ins -> ~ In f (map fst k).
Hypothesis Hloc : forall o K, In (o, K) k -> star_local (length loc) ins ks K.
Hypothesis Hov : forall o K, In (o, K) k -> overwrites K.
Hypothesis Hstrips : Forall (fun v => length v = length sizes) strips.
Hypothesis Hzv : forall r, Forall (fun v => length v = length sizes) (zv r).
Hypothesis Hzin : forall r x, 0 <= r < n -> inb loc x -> zeroed loc g zv r (map (fun i => i + g) x) = edgeb false N (vadd (block_start dims loc r) x).
Hypothesis Hzout : forall r I, 0 <= r < n -> inb sizes I -> owner false dims loc (ghost_pos dims loc g r I) = None -> zeroed loc g zv r I = true.
Hypothesis Hp : forall x, inb loc x -> (1 <= passes loc g ks strips (map (fun i => i + g)%Z x))%nat.
Notation prog := (halo loc g ks C k strips zv z).

Lemma reset_good Fs : incl ins Fs -> good_step false dims loc g Fs prog (overwrite_interior z N k).
Proof.
  intros Hi. split; [now apply (halo_ok false dims loc g ks ins C k strips zv z)|]. intros m u H r f I Hr Hf HI HQ. unfold overwrite_interior.
  destruct (in_dec Nat.eq_dec f (map fst k)) as [Hk|Hk].
  - apply key_In in Hk as [K Hin]. rewrite (apply_at k _ _ _ u f K _ Hnd Hin).
    change (den n prog m) with (halo_post dims loc g ks C k strips zv z m).
    rewrite (halo_value false dims loc g ks ins C k strips zv z) with (K := K); auto.
    destruct HQ as [HQ|[Hga Ho]].
    + pose proof (sub_ok g loc I HQ) as (x & Hx & EI). rewrite (inner_in dims loc g r I Hok Hr HQ). rewrite EI at 1. rewrite Hzin by auto.
      rewrite <- sub_pos with (g := g), <- EI. destruct (edgeb false N _); cbn [negb andb]; auto.
      rewrite iter_over; [|eauto|subst I; auto]. rewrite (Hov f K Hin _ _ z). apply (Hloc f K Hin). intros f' d Hf' Hd.
      rewrite (read_ext false dims loc g ks ins C z (fun a _ => a) Hok Hks Hg HC m u r I); auto. intros r' f'' I' A B D E. apply H; auto.
    + rewrite Hzout by auto. rewrite owner_out by auto. reflexivity.
  - rewrite (apply_off k _ _ _ u f) by auto.
    rewrite (plain_keep dims loc g ks ins C k strips zv z Hg HC m r f I) by auto. now apply H.
Qed.
End Reset.

(** *** Advection: for ghost sizes above the kernel radius only the values in the domain are determined *)
Section Adv.
Context {T : Type}.
Variables (dims loc : list Z) (g ks : Z) (ins : list nat) (C : list (place * place)) (fld flux : nat) (K : @kfun T).
Variables (strips : list (list pslice)) (z : T) (add : T -> T -> T).
Notation sizes := (ghosted g loc).
Notation n := (zprod dims).
Notation N := (global_size dims loc).
Hypothesis Hok : grid_ok dims loc.
Hypothesis Hks : 0 <= ks <= g.
Hypothesis Hg : 1 <= g.
Hypothesis HC : exch_facts false dims loc g ins C.
Hypothesis Hfl : ~ In flux ins.
Hypothesis Hfd : In fld ins.
Hypothesis Hloc : star_local (length loc) ins ks K.
Hypothesis Hstrips : Forall (fun v => length v = length sizes) strips.
Hypothesis Hp : forall x, inb loc x -> passes loc g ks strips (map (fun i => i + g) x) = 1%nat.
Notation all := (map (fun _ : Z => SAll) sizes).
Notation prog := (halo loc g ks C [(flux, K)] strips (fun _ => []) z).
Notation whole := ([PLoc (fun _ => set_lops sizes [flux] z all)] ++ prog ++ [PLoc (fun _ => sum_lops add sizes fld flux)]).

Let Hd1 : forall f, In f ins -> ~ In f (map fst [(flux, K)]).
Proof. simpl; intros f Hf [<-|[]]; contradiction. Qed.
Let Hl1 : forall o K', In (o, K') [(flux, K)] -> star_local (length loc) ins ks K'.
Proof. intros o K' [E|[]]; inversion E; subst; auto. Qed.
Let Hz1 : forall r : Z, Forall (fun v : list pslice => length v = length sizes) ((fun _ : Z => []) r).
Proof. constructor. Qed.
Let Hn1 : NoDup (map fst [(flux, K)]).
Proof. repeat constructor; auto. Qed.

Lemma adv_ok : Forall (phase_ok n) whole.
Proof. rewrite !Forall_app. split; [repeat constructor|split; [|repeat constructor]]. now apply (halo_ok false dims loc g ks ins C [(flux, K)] strips (fun _ => []) z). Qed.

Lemma adv_keep (m : mem T) r f I : 0 <= r < n -> inb sizes I -> Qext false dims loc g r I -> f <> fld -> f <> flux ->
  field (den n whole m) sizes r f I = field m sizes r f I.
Proof.
  intros Hr HI HQ H1 H2. rewrite !den_app. unfold field at 1. rewrite sum_frame by auto.
  etransitivity; [apply (plain_keep dims loc g ks ins C [(flux, K)] strips (fun _ => []) z Hg HC); auto; simpl; intuition|].
  unfold field. rewrite set_frame by auto. reflexivity.
Qed.
Lemma adv_inner (m : mem T) u r I : represents_ext false dims loc g ins m u -> 0 <= r < n -> inner g loc I ->
  field (den n whole m) sizes r fld I = euler_step false N add z false fld K u fld (ghost_pos dims loc g r I).
Proof.
  intros He Hr HI. rewrite !den_app.
  assert (Hne : fld <> flux) by (intros ->; contradiction).
  assert (HIb : inb sizes I) by (apply inner_inb; [lia|auto]).
  pose proof (sizes_pos dims loc g Hok Hg) as Hsz.
  rewrite sum_post by auto. unfold euler_step. rewrite Nat.eqb_refl. cbn [andb negb].
  rewrite (inner_in dims loc g r I Hok Hr HI). cbn [andb].
  set (m1 := den n [PLoc (fun _ => set_lops sizes [flux] z all)] m).
  assert (He1 : represents_ext false dims loc g ins m1 u).
  { intros r1 f1 I1 A B D E. assert (Hn : f1 <> flux) by (intros ->; contradiction). unfold field, m1. rewrite set_frame by auto. now apply He. }
  f_equal.
  - rewrite (plain_keep dims loc g ks ins C [(flux, K)] strips (fun _ => []) z Hg HC) by (auto; try (now left); simpl; intuition). apply He1; auto.
  - destruct (sub_ok g loc I HI) as (x & Hx & EI).
    rewrite (plain_inner dims loc g ks ins C [(flux, K)] strips (fun _ => []) z Hok Hks Hg HC Hn1 Hd1 Hl1 Hstrips Hz1 m1 u r I flux K He1 Hr HI); [|now left|auto|rewrite EI; auto].
    unfold m1. rewrite set_post by auto. reflexivity.
Qed.
End Adv.

(** *** Inside the domain a radius-one update away from the boundary only sees the domain *)
Lemma inside_star N P d : inb N P -> edgeb false N P = false -> star (length N) 1 d -> inb N (vadd P d).
Proof.
  intros HP He (b & c & Hb & Hc & ->). pose proof (inb_length _ _ HP) as Hl.
  apply inb_by_nth; [rewrite vadd_length; rewrite ?axis_len; lia|]. intros a Ha.
  pose proof (inb_nth _ _ a HP ltac:(lia)) as Hi. cbn beta in Hi. rewrite nth_vadd by (rewrite ?axis_len; lia). rewrite axis_nth by lia.
  destruct (Nat.eqb_spec a b) as [->|]; [|lia].
  assert (nth b P 0 <> 0 /\ nth b P 0 <> nth b N 0 - 1) by (split; intros E; pose proof (edge_at N P b ltac:(lia) ltac:(lia) ltac:(auto)); congruence). lia.
Qed.
Lemma euler_inside {T} N add (z : T) fld K u u' P : inb N P -> star_local (length N) [fld] 1 K ->
  (forall Q, inb N Q -> u fld Q = u' fld Q) ->
  euler_step false N add z true fld K u fld P = euler_step false N add z true fld K u' fld P.
Proof.
  intros HP HK HU. unfold euler_step. rewrite Nat.eqb_refl. rewrite (HU P HP). f_equal.
  rewrite (proj2 (inbb_spec N P) HP). cbn [andb]. destruct (edgeb false N P) eqn:Ee; cbn [negb]; auto.
  apply HK. intros f d [<-|[]] Hd. unfold norm. apply HU. now apply inside_star.
Qed.
