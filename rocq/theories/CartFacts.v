(** Facts about the decomposition and the neighbour tables. *)
From Verif Require Import Base SpecGrid Cart.

(** Rank reached from r by displacing its coordinates by dv. *)
Definition nbr (per : bool) (dims : list Z) (r : Z) (dv : list Z) : option Z :=
  option_map (ravel dims) (wrapv per dims (vadd (unravel dims r) dv)).

Lemma wrap_some per N p q : 1 <= N -> wrap per N p = Some q ->
  0 <= q < N /\ (if per then q = p mod N else q = p).
Proof.
  unfold wrap. intros HN. destruct per.
  - intros [= <-]. split; [apply Z.mod_pos_bound; lia | reflexivity].
  - destruct (Z.leb_spec 0 p); destruct (Z.ltb_spec p N); simpl; intros E; inversion E; subst; lia.
Qed.

Lemma wrap_in per N p : 0 <= p < N -> wrap per N p = Some p.
Proof.
  unfold wrap. intros H. destruct per.
  - now rewrite Z.mod_small.
  - destruct (Z.leb_spec 0 p); destruct (Z.ltb_spec p N); simpl; try lia; auto.
Qed.

Lemma wrap_none per N p : 1 <= N -> (wrap per N p = None <-> per = false /\ ~ (0 <= p < N)).
Proof.
  unfold wrap. intros HN. destruct per.
  - split; [discriminate | intros [? _]; discriminate].
  - destruct (Z.leb_spec 0 p); destruct (Z.ltb_spec p N); simpl; split; intros E; try discriminate; auto;
    try (split; [reflexivity|lia]); destruct E; lia.
Qed.

Lemma wrap_back per N c d q : 0 <= c < N -> wrap per N (c + d) = Some q -> wrap per N (q + - d) = Some c.
Proof.
  intros Hc H. apply wrap_some in H as [Hq E]; [|lia]. destruct per.
  - unfold wrap. f_equal. subst q. rewrite Zplus_mod_idemp_l.
    replace (c + d + - d) with c by lia. now apply Z.mod_small.
  - subst q. replace (c + d + - d) with c by lia. now apply wrap_in.
Qed.

Lemma wrapv_inb per Ns ps qs : positive Ns -> length ps = length Ns -> wrapv per Ns ps = Some qs -> inb Ns qs.
Proof.
  intros HN. revert ps qs. induction HN as [|N Ns H HN IH]; intros [|p ps] qs Hl; simpl in *; try discriminate.
  - intros [= <-]. constructor.
  - destruct (wrap per N p) as [q|] eqn:E; [|discriminate].
    destruct (wrapv per Ns ps) as [qs'|] eqn:E'; [|discriminate].
    intros [= <-]. constructor; [apply wrap_some in E; [tauto|lia] | eapply IH; [|eassumption]; lia].
Qed.

Lemma wrapv_in per Ns ps : inb Ns ps -> wrapv per Ns ps = Some ps.
Proof. induction 1 as [|N Ns p ps H Hi IH]; simpl; auto. rewrite (wrap_in per) by lia. now rewrite IH. Qed.

Lemma wrapv_back per Ns cs dv qs : inb Ns cs -> length dv = length Ns ->
  wrapv per Ns (vadd cs dv) = Some qs -> wrapv per Ns (vadd qs (vneg dv)) = Some cs.
Proof.
  intros H. revert dv qs. induction H as [|N Ns c cs Hc H IH]; intros [|d dv] qs Hl; simpl in *; try discriminate.
  - auto.
  - destruct (wrap per N (c + d)) as [q|] eqn:E; [|discriminate].
    destruct (wrapv per Ns (vadd cs dv)) as [qs'|] eqn:E'; [|discriminate].
    intros [= <-]. simpl. rewrite (wrap_back per N c d q) by auto.
    fold (vneg dv). rewrite (IH dv qs'); auto.
Qed.

Lemma vadd_unravel_len dims r dv : length dv = length dims -> length (vadd (unravel dims r) dv) = length dims.
Proof. intros. rewrite vadd_length; rewrite unravel_length; auto. Qed.

Lemma nbr_range per dims r dv s : positive dims -> length dv = length dims ->
  nbr per dims r dv = Some s -> 0 <= s < zprod dims.
Proof.
  unfold nbr. intros Hd Hl. destruct (wrapv _ _ _) eqn:E; simpl; [|discriminate].
  intros [= <-]. apply ravel_bound. eapply wrapv_inb; [eassumption| |eassumption]. now apply vadd_unravel_len.
Qed.

Lemma nbr_coords per dims r dv s : positive dims -> length dv = length dims ->
  0 <= r < zprod dims ->
  nbr per dims r dv = Some s -> wrapv per dims (vadd (unravel dims r) dv) = Some (unravel dims s).
Proof.
  unfold nbr. intros Hd Hl Hr. destruct (wrapv _ _ _) eqn:E; simpl; [|discriminate].
  intros [= <-]. rewrite unravel_ravel; auto. eapply wrapv_inb; [eassumption| |eassumption]. now apply vadd_unravel_len.
Qed.

Lemma nbr_back per dims r dv s : positive dims -> length dv = length dims ->
  0 <= r < zprod dims -> nbr per dims r dv = Some s -> nbr per dims s (vneg dv) = Some r.
Proof.
  intros Hd Hl Hr H. pose proof (nbr_coords _ _ _ _ _ Hd Hl Hr H) as E.
  apply wrapv_back in E; [|now apply unravel_inb|assumption].
  unfold nbr. rewrite E. simpl. f_equal. now apply ravel_unravel.
Qed.

Lemma nbr_inverse per dims r s dv : positive dims -> length dv = length dims ->
  0 <= r < zprod dims -> 0 <= s < zprod dims ->
  (nbr per dims r dv = Some s <-> nbr per dims s (vneg dv) = Some r).
Proof.
  intros Hd Hl Hr Hs. split; intros H.
  - now apply nbr_back.
  - apply nbr_back in H; auto; [|now rewrite vneg_length]. now rewrite vneg_involutive in H.
Qed.

(** Unit displacement vectors. *)
Fixpoint uvec (n : nat) (dim : nat) (disp : Z) : list Z :=
  match n with
  | O => []
  | S n' => match dim with O => disp :: repeat 0 n' | S k => 0 :: uvec n' k disp end
  end.

Lemma uvec_length n dim disp : length (uvec n dim disp) = n.
Proof. revert dim. induction n; intros [|]; simpl; auto. now rewrite repeat_length. Qed.

Lemma vadd_zero cs n : length cs = n -> vadd cs (repeat 0 n) = cs.
Proof. revert n. induction cs; intros [|n]; simpl; intros; try discriminate; auto. rewrite IHcs by lia. f_equal. lia. Qed.

Lemma wrap_at_spec per dims dim disp cs : inb dims cs -> (dim < length dims)%nat ->
  wrap_at per dims dim (add_at dim disp cs) = wrapv per dims (vadd cs (uvec (length dims) dim disp)).
Proof.
  intros H. revert dim. induction H as [|d ds c cs Hc H IH]; intros dim Hd; simpl in Hd; [lia|].
  destruct dim as [|dim].
  - unfold wrap_at. simpl. rewrite vadd_zero by (apply inb_length; auto).
    rewrite (wrapv_in per _ _ H). now destruct (wrap per d (c + disp)).
  - assert (Hd' : (dim < length ds)%nat) by lia. specialize (IH dim Hd').
    simpl. rewrite Z.add_0_r, (wrap_in per) by lia. rewrite <- IH.
    unfold wrap_at. simpl.
    destruct (nth_error ds dim); [|reflexivity].
    destruct (nth_error (add_at dim disp cs) dim); [|reflexivity].
    destruct (wrap per z z0); reflexivity.
Qed.

Lemma cart_shift_nbr per dims r dim disp : positive dims -> 0 <= r < zprod dims -> (dim < length dims)%nat ->
  cart_shift_dest per dims r dim disp = nbr per dims r (uvec (length dims) dim disp).
Proof.
  intros Hd Hr Hdim. unfold cart_shift_dest, nbr, cart_coords.
  rewrite wrap_at_spec; auto. now apply unravel_inb.
Qed.

Lemma any_out_spec dims cs : length cs = length dims ->
  any_out dims cs = match wrapv false dims cs with Some _ => false | None => true end.
Proof.
  revert cs. induction dims as [|d dims IH]; intros [|c cs]; simpl; intros; try discriminate; auto.
  rewrite IH by lia. unfold wrap.
  destruct (Z.leb_spec d c); destruct (Z.ltb_spec c 0); destruct (Z.leb_spec 0 c); destruct (Z.ltb_spec c d);
    simpl; try lia; auto; now destruct (wrapv false dims cs).
Qed.

Lemma diagonal_nbr per dims r dv : length dv = length dims ->
  diagonal_rank per dims r dv = nbr per dims r dv.
Proof.
  intros Hl. unfold diagonal_rank, nbr, get_cart_rank, cart_coords. destruct per; simpl; auto.
  rewrite any_out_spec by (now apply vadd_unravel_len).
  now destruct (wrapv false dims (vadd (unravel dims r) dv)).
Qed.

(** Composition of displacements acting on different axes. *)
Lemma wrapv_compose per dims cs a b : inb dims cs -> length a = length dims -> length b = length dims ->
  Forall2 (fun x y => x = 0 \/ y = 0) a b ->
  wrapv per dims (vadd cs (vadd a b)) =
  match wrapv per dims (vadd cs a) with
  | Some q => wrapv per dims (vadd q b) | None => None end.
Proof.
  intros H. revert a b. induction H as [|d ds c cs Hc H IH]; intros [|x a] [|y b] Ha Hb HF; simpl in *; try discriminate; auto.
  inversion HF as [|? ? ? ? Hxy HF']; subst.
  rewrite (IH a b) by (auto; lia).
  destruct Hxy; subst.
  - rewrite (Z.add_0_l y), (Z.add_0_r c). rewrite (wrap_in per d c) by lia.
    destruct (wrapv per ds (vadd cs a)); simpl; auto. now destruct (wrap per d (c + y)).
  - rewrite Z.add_0_r. destruct (wrap per d (c + x)) as [q|] eqn:E; simpl; auto.
    apply wrap_some in E; [|lia]. destruct E as [E _].
    destruct (wrapv per ds (vadd cs a)); simpl; auto.
    rewrite Z.add_0_r, (wrap_in per d q) by lia. reflexivity.
Qed.

Lemma nbr_compose per dims r a b : positive dims -> 0 <= r < zprod dims ->
  length a = length dims -> length b = length dims ->
  Forall2 (fun x y => x = 0 \/ y = 0) a b ->
  nbr per dims r (vadd a b) =
  match nbr per dims r a with Some s => nbr per dims s b | None => None end.
Proof.
  intros Hd Hr Ha Hb HF. unfold nbr at 1. rewrite wrapv_compose; auto; [|now apply unravel_inb].
  unfold nbr at 1. destruct (wrapv per dims (vadd (unravel dims r) a)) eqn:E; simpl; auto.
  unfold nbr. rewrite unravel_ravel; auto.
  eapply wrapv_inb; [eassumption| |eassumption]. now apply vadd_unravel_len.
Qed.

(** No neighbour exactly outside a non-periodic domain. *)
Lemma wrapv_none per dims cs : positive dims -> length cs = length dims ->
  (wrapv per dims cs = None <-> per = false /\ ~ inb dims cs).
Proof.
  intros Hd. revert cs. induction Hd as [|d ds H Hd IH]; intros [|c cs] Hl; simpl in *; try discriminate.
  - split; [discriminate|]. intros [_ N]. exfalso. apply N. constructor.
  - specialize (IH cs ltac:(lia)). pose proof (wrap_none per d c H) as Hw.
    destruct (wrap per d c) as [q|] eqn:E; destruct (wrapv per ds cs) as [qs|] eqn:E'.
    + split; [discriminate|]. intros [Hp N]. exfalso.
      destruct (Z_le_dec 0 c), (Z_lt_dec c d); try (destruct Hw as [_ Hw]; discriminate Hw; split; [auto|lia]).
      apply N. constructor; [lia|]. 
      destruct per; [discriminate|]. apply wrapv_inb in E' as Hi; [|auto|lia].
      assert (E2 : qs = cs); [|now subst].
      clear - E' Hl Hd. assert (Hl' : length cs = length ds) by lia. clear Hl.
      revert cs qs Hl' E'. induction Hd as [|d ds H Hd IH]; intros [|c cs] qs Hl'; simpl in *; try discriminate.
      * congruence.
      * unfold wrap. destruct ((0 <=? c) && (c <? d)); [|discriminate].
        destruct (wrapv false ds cs) eqn:E; [|discriminate]. intros [= <-]. f_equal. apply IH; auto; lia.
    + split; auto. intros _. destruct IH as [IH _]. destruct (IH eq_refl) as [Hp N].
      split; auto. intros Hi. inversion Hi; contradiction.
    + split; auto. intros _. destruct Hw as [Hw _]. destruct (Hw eq_refl) as [Hp N].
      split; auto. intros Hi. inversion Hi; subst; lia.
    + split; auto. intros _. destruct IH as [IH _]. destruct (IH eq_refl) as [Hp N].
      split; auto. intros Hi. inversion Hi; contradiction.
Qed.

Lemma nbr_none per dims r dv : positive dims -> 0 <= r < zprod dims -> length dv = length dims ->
  (nbr per dims r dv = None <-> per = false /\ ~ inb dims (vadd (unravel dims r) dv)).
Proof.
  intros Hd Hr Hl. rewrite <- wrapv_none; auto; [|now apply vadd_unravel_len].
  unfold nbr. destruct (wrapv _ _ _); simpl; split; congruence.
Qed.

Lemma inb_uvec dims cs dim disp : inb dims cs -> (dim < length dims)%nat ->
  (inb dims (vadd cs (uvec (length dims) dim disp)) <-> 0 <= nth dim cs 0 + disp < nth dim dims 0).
Proof.
  intros H. revert dim. induction H as [|d ds c cs Hc H IH]; intros dim Hd; simpl in Hd; [lia|].
  destruct dim as [|dim]; simpl.
  - rewrite vadd_zero by (apply inb_length; auto). split; [intros Hi; inversion Hi; auto | constructor; auto].
  - rewrite Z.add_0_r. specialize (IH dim ltac:(lia)). rewrite <- IH.
    split; [intros Hi; inversion Hi; auto | constructor; auto].
Qed.

(** ** Decomposition (C01) *)
Lemma vmod_nonzero_spec gl topo : length gl = length topo ->
  (vmod_nonzero gl topo = false <-> Forall2 (fun a t => (a mod t = 0)) gl topo).
Proof.
  revert topo. induction gl as [|a gl IH]; intros [|t topo]; simpl; intros; try discriminate.
  - split; auto.
  - specialize (IH topo ltac:(lia)). destruct (Z.eqb_spec (a mod t) 0); simpl.
    + rewrite IH. split; [constructor; auto | intros F; now inversion F].
    + split; [discriminate | intros F; inversion F; contradiction].
Qed.

Lemma vmul_vdiv gl topo : positive topo -> length gl = length topo ->
  Forall2 (fun a t => (a mod t = 0)) gl topo -> vmul topo (vdiv gl topo) = gl.
Proof.
  intros Hp. revert gl. induction Hp as [|t topo Ht Hp IH]; intros [|a gl] Hl F; simpl in *; try discriminate; auto.
  inversion F; subst. rewrite IH; auto. f_equal. symmetry. apply Z_div_exact_full_2; lia.
Qed.

Lemma vdiv_length a b : length a = length b -> length (vdiv a b) = length a.
Proof. revert b. induction a; intros [|]; simpl; intros; try discriminate; auto. Qed.
Lemma vmod_length a b : length a = length b -> length (vmod a b) = length a.
Proof. revert b. induction a; intros [|]; simpl; intros; try discriminate; auto. Qed.

Lemma vdivmod_inb dims loc p : length loc = length dims -> positive loc -> inb (vmul dims loc) p ->
  inb dims (vdiv p loc) /\ inb loc (vmod p loc).
Proof.
  intros Hl Hp. revert dims p Hl. induction Hp as [|n loc Hn Hp IH]; intros [|d dims] p Hl Hi; simpl in *; try discriminate.
  - inversion Hi; subst. split; constructor.
  - inversion Hi as [|? ? c cs Hc Hi']; subst. destruct (IH dims cs ltac:(lia) Hi') as [H1 H2]. simpl.
    split; constructor; auto.
    + split; [apply Z.div_pos; lia | apply Z.div_lt_upper_bound; nia].
    + apply Z.mod_pos_bound. lia.
Qed.

Lemma vdivmod_eq p loc : length p = length loc -> positive loc ->
  vadd (vmul (vdiv p loc) loc) (vmod p loc) = p.
Proof.
  intros Hl Hp. revert p Hl. induction Hp as [|n loc Hn Hp IH]; intros [|a p] Hl; simpl in *; try discriminate; auto.
  rewrite IH by lia. f_equal. rewrite Z.mul_comm. symmetry. apply Z.div_mod. lia.
Qed.

Lemma vdivmod_unique loc c x : length c = length loc -> inb loc x ->
  vdiv (vadd (vmul c loc) x) loc = c /\ vmod (vadd (vmul c loc) x) loc = x.
Proof.
  intros Hl H. revert c Hl. induction H as [|n loc a x Ha H IH]; intros [|b c] Hl; simpl in *; try discriminate; auto.
  destruct (IH c ltac:(lia)) as [E1 E2]. rewrite E1, E2. split; f_equal.
  - rewrite Z.div_add_l by lia. rewrite Z.div_small; lia.
  - rewrite Z.add_comm, Z.mod_add by lia. now apply Z.mod_small.
Qed.

Lemma inb_block dims loc c x : inb dims c -> inb loc x -> length loc = length dims ->
  inb (vmul dims loc) (vadd (vmul c loc) x).
Proof.
  intros H. revert loc x. induction H as [|d ds c cs Hc H IH]; intros [|n loc] x Hx Hl; simpl in *; try discriminate.
  - constructor.
  - inversion Hx; subst. simpl. constructor; [nia|]. apply IH; auto; lia.
Qed.

(** every cell of the global grid sits in exactly one block at one index *)
Lemma tiling dims loc p : grid_ok dims loc -> inb (global_size dims loc) p ->
  exists r x, (0 <= r < zprod dims /\ inb loc x /\ vadd (block_start dims loc r) x = p) /\
    forall r' x', 0 <= r' < zprod dims -> inb loc x' -> vadd (block_start dims loc r') x' = p -> r' = r /\ x' = x.
Proof.
  intros [Hl Hd Hn] Hp. unfold global_size in Hp.
  destruct (vdivmod_inb dims loc p Hl Hn Hp) as [H1 H2].
  assert (Hlp : length p = length loc).
  { apply inb_length in Hp. rewrite vmul_length in Hp; lia. }
  exists (ravel dims (vdiv p loc)), (vmod p loc). split.
  - split; [now apply ravel_bound|]. split; auto. unfold block_start. rewrite unravel_ravel by auto.
    now apply vdivmod_eq.
  - intros r' x' Hr' Hx' E. unfold block_start in E.
    assert (Hlr : length (unravel dims r') = length loc) by (rewrite unravel_length; lia).
    destruct (vdivmod_unique loc (unravel dims r') x' Hlr Hx') as [E1 E2]. rewrite E in E1, E2.
    split; [|congruence]. rewrite E1. symmetry. now apply ravel_unravel.
Qed.

Lemma block_inside dims loc r x : grid_ok dims loc -> 0 <= r < zprod dims -> inb loc x ->
  inb (global_size dims loc) (vadd (block_start dims loc r) x).
Proof. intros [Hl Hd Hn] Hr Hx. apply inb_block; auto. now apply unravel_inb. Qed.

(** ** Statements in terms of the model's entry points *)
Lemma construct_none gl topo : length gl = length topo ->
  (mpi_construct gl topo = None <-> ~ Forall2 (fun a t => a mod t = 0) gl topo).
Proof.
  intros Hl. unfold mpi_construct. pose proof (vmod_nonzero_spec gl topo Hl) as H.
  destruct (vmod_nonzero gl topo).
  - split; auto. intros _ F. apply H in F. discriminate.
  - split; [discriminate|]. intros N. exfalso. apply N. now apply H.
Qed.

Lemma construct_tiles gl topo loc : positive gl -> positive topo -> length gl = length topo ->
  mpi_construct gl topo = Some loc ->
  global_size topo loc = gl /\
  (forall p, inb gl p ->
    exists r x, (0 <= r < zprod topo /\ inb loc x /\ vadd (block_start topo loc r) x = p) /\
      forall r' x', 0 <= r' < zprod topo -> inb loc x' -> vadd (block_start topo loc r') x' = p ->
        r' = r /\ x' = x) /\
  (forall r x, 0 <= r < zprod topo -> inb loc x -> inb gl (vadd (block_start topo loc r) x)).
Proof.
  intros Hgl Ht Hl. unfold mpi_construct. pose proof (vmod_nonzero_spec gl topo Hl) as H.
  destruct (vmod_nonzero gl topo); [discriminate|]. intros [= <-].
  destruct H as [H _]. specialize (H eq_refl).
  assert (E : global_size topo (vdiv gl topo) = gl) by (apply vmul_vdiv; auto).
  assert (Hok : grid_ok topo (vdiv gl topo)).
  { split; auto; [rewrite vdiv_length; auto|].
    clear E. revert topo Ht Hl H. induction Hgl as [|a gl Ha Hgl IH]; intros [|t topo] Ht Hl H; simpl in *; try discriminate; constructor.
    - inversion H; subst. inversion Ht; subst.
      assert (a = t * (a / t)) by (apply Z_div_exact_full_2; lia). nia.
    - inversion H; subst. inversion Ht; subst. apply IH; auto. }
  split; auto. split.
  - intros p Hp. rewrite <- E in Hp. now apply tiling.
  - intros r x Hr Hx. rewrite <- E at 1. now apply block_inside.
Qed.

Lemma vneg_uvec n dim d : vneg (uvec n dim d) = uvec n dim (- d).
Proof.
  revert dim. induction n; intros [|dim]; simpl; auto.
  - f_equal. clear. induction n; simpl; auto. now f_equal.
  - unfold vneg in *. simpl. now rewrite IHn.
Qed.

Lemma axis_inverse per topo r s dim : positive topo -> (dim < length topo)%nat ->
  0 <= r < zprod topo -> 0 <= s < zprod topo ->
  (next_grid_along per topo r dim = Some s <-> previous_grid_along per topo s dim = Some r).
Proof.
  intros Hp Hd Hr Hs. unfold next_grid_along, previous_grid_along.
  rewrite !cart_shift_nbr by auto. change (-1) with (- (1)). rewrite <- vneg_uvec.
  apply nbr_inverse; auto. apply uvec_length.
Qed.

Lemma diagonal_inverse per topo r s dv : positive topo -> length dv = length topo ->
  0 <= r < zprod topo -> 0 <= s < zprod topo ->
  (diagonal_rank per topo r dv = Some s <-> diagonal_rank per topo s (vneg dv) = Some r).
Proof.
  intros. rewrite !diagonal_nbr by (rewrite ?vneg_length; auto). now apply nbr_inverse.
Qed.

Lemma inb_nth ds cs dim : inb ds cs -> (dim < length ds)%nat -> 0 <= nth dim cs 0 < nth dim ds 0.
Proof.
  intros H. revert dim. induction H; intros [|dim] Hd; simpl in *; try lia. apply IHinb. lia.
Qed.

Lemma axis_none per topo r dim : positive topo -> (dim < length topo)%nat -> 0 <= r < zprod topo ->
  (previous_grid_along per topo r dim = None <-> per = false /\ nth dim (unravel topo r) 0 = 0) /\
  (next_grid_along per topo r dim = None <->
     per = false /\ nth dim (unravel topo r) 0 = nth dim topo 0 - 1).
Proof.
  intros Hp Hd Hr. unfold next_grid_along, previous_grid_along. rewrite !cart_shift_nbr by auto.
  assert (Hi : inb topo (unravel topo r)) by (now apply unravel_inb).
  pose proof (inb_nth _ _ dim Hi Hd) as Hb.
  rewrite !nbr_none by (auto; apply uvec_length). rewrite !inb_uvec by auto.
  split; split; intros [H1 H2]; split; auto; lia.
Qed.

Lemma diagonal_compose per topo r a b : positive topo -> 0 <= r < zprod topo ->
  length a = length topo -> length b = length topo -> Forall2 (fun x y => x = 0 \/ y = 0) a b ->
  diagonal_rank per topo r (vadd a b) =
  match diagonal_rank per topo r a with Some s => diagonal_rank per topo s b | None => None end.
Proof.
  intros. rewrite !diagonal_nbr by (auto; rewrite vadd_length; lia).
  rewrite nbr_compose by auto. destruct (nbr per topo r a); auto. now rewrite diagonal_nbr.
Qed.

Lemma axis_diagonal per topo r dim : positive topo -> (dim < length topo)%nat -> 0 <= r < zprod topo ->
  next_grid_along per topo r dim = diagonal_rank per topo r (uvec (length topo) dim 1) /\
  previous_grid_along per topo r dim = diagonal_rank per topo r (uvec (length topo) dim (-1)).
Proof.
  intros. unfold next_grid_along, previous_grid_along.
  rewrite !cart_shift_nbr, !diagonal_nbr by (auto; apply uvec_length). auto.
Qed.

Lemma diagonal_range per topo r dv s : positive topo -> length dv = length topo ->
  diagonal_rank per topo r dv = Some s -> 0 <= s < zprod topo.
Proof. intros Hp Hl. rewrite diagonal_nbr by auto. now apply nbr_range. Qed.
