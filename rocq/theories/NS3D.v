(** The 3D Navier-Stokes time step in rotational form. *)
From Verif Require Import Base SpecGrid SpecGhost SpecStencil SpecStep SpecPenalise SpecFilter SpecDouble SpecNS Cart CartFacts Comm Spmd GhostGeo Ghost2D Ghost3D GhostProofs FieldProofs Stencil StencilProofs HaloProofs HaloKernels HaloThms CurlProofs KernelList KernelProofs TimeStep StepProofs StepHistory PyNum Penalise PenaliseProofs Filter FilterProofs Doubling DoublingProofs PoissonProofs NavierStokes NSBase NSHalo NSSteps NS2D.
Arguments run_lops : simpl never.
Arguments addr_eq : simpl never.
Arguments place_dec : simpl never.

Lemma hunch3 {T} pz py px n0 n1 n2 g full F (m : mem T) r f I : grid3 pz py px n0 n1 n2 g -> 0 <= r < zprod [pz; py; px] -> inb (ghosted g [n0; n1; n2]) I ->
  owner false [pz; py; px] [n0; n1; n2] (ghost_pos [pz; py; px] [n0; n1; n2] g r I) = None ->
  field (run_copies (all_copies (zprod [pz; py; px]) (exchange3 false pz py px n0 n1 n2 g full F)) m) (ghosted g [n0; n1; n2]) r f I = field m (ghosted g [n0; n1; n2]) r f I.
Proof.
  intros G Hr HI Ho. pose proof G as (A & B & C & D & E & E1 & E2).
  apply (out_unchanged false [pz; py; px] [n0; n1; n2] g (g3_ok _ _ _ _ _ _ _ G) ltac:(lia) (gn3 n0 n1 n2 g ltac:(auto)) (D3 full) F); auto.
  - intros dv. apply D3_dirs.
  - apply schedule3; auto. apply Permutation_refl.
Qed.

(** *** The filter only looks at the domain *)
Section FI.
Context {T : Type}.
Variables (lap : T -> T -> T -> T) (sub : T -> T -> T) (z : T) (N : list Z) (bw : Z).
Hypothesis Hbw : 1 <= bw.
Definition same_in (v v' : list Z -> T) : Prop := forall P, inb N P -> v P = v' P.
Lemma zone_edge P : inb N P -> zoneb false N bw P = false -> edgeb false N P = false.
Proof.
  intros HP Hz. destruct (edgeb false N P) eqn:E; auto. exfalso. unfold edgeb, zoneb in *. cbn [negb andb] in *.
  apply existsb_exists in E as (ab & Hin & E). assert (X : existsb (fun ab => (fst ab <? bw) || (snd ab - bw <=? fst ab)) (combine P N) = true); [|congruence].
  apply existsb_exists. exists ab. split; auto. apply orb_true_iff in E. apply orb_true_iff. rewrite Z.ltb_lt, Z.leb_le. rewrite !Z.eqb_eq in E. lia.
Qed.
Lemma filt_in a v v' : (a < length N)%nat -> same_in v v' -> same_in (filt lap z false N bw a v) (filt lap z false N bw a v').
Proof.
  intros Ha H P HP. unfold filt. destruct (zoneb false N bw P) eqn:Ez; auto. apply zone_edge in Ez; auto.
  assert (X : forall d, Z.abs d <= 1 -> v (norm false N (vadd P (axis_vec (length N) a d))) = v' (norm false N (vadd P (axis_vec (length N) a d)))).
  { intros d Hd. unfold norm. apply H. apply inside_star; auto. exists a, d. auto. }
  rewrite !X by lia. reflexivity.
Qed.
Lemma filts_in axes : Forall (fun a => (a < length N)%nat) axes -> forall v v', same_in v v' -> same_in (filts lap z false N bw axes v) (filts lap z false N bw axes v').
Proof. unfold filts. induction 1; intros v v' Hv; simpl; auto. apply IHForall. now apply filt_in. Qed.
Lemma filts_n_in n axes v v' : Forall (fun a => (a < length N)%nat) axes -> same_in v v' -> same_in (filts_n lap z false N bw n axes v) (filts_n lap z false N bw n axes v').
Proof. intros Ha Hv. unfold filts_n. induction n; simpl; auto. now apply filts_in. Qed.
Lemma filter_in ft order v v' : (3 <= length N)%nat -> same_in v v' -> same_in (serial_filter lap sub z false N bw ft order v) (serial_filter lap sub z false N bw ft order v').
Proof.
  intros Hl Hv.
  assert (C1 : forall a v v', (a < length N)%nat -> same_in v v' -> same_in (conv1 lap sub z false N bw order a v) (conv1 lap sub z false N bw order a v')).
  { intros a v0 v0' Ha H0 P HP. unfold conv1. rewrite (H0 P HP). f_equal. apply filts_n_in; auto. }
  destruct ft; cbn [serial_filter].
  - intros P HP. unfold multiplicative. rewrite (Hv P HP). f_equal. apply filts_n_in; auto. repeat constructor; lia.
  - unfold convolution. apply C1; [lia|]. apply C1; [lia|]. apply C1; [lia|auto].
Qed.
End FI.

(** *** Elementwise kernels that overwrite arrays not tracked before *)
Lemma elem_over {T} dims loc g (k : @kern T) ins Fs (m : mem T) u : grid_ok dims loc -> 1 <= g -> NoDup (map fst k) -> (forall f, In f ins -> ~ In f (map fst k)) ->
  (forall o K, In (o, K) k -> star_local (length loc) ins 0 K /\ overwrites K) -> incl ins Fs -> represents_ext false dims loc g Fs m u ->
  represents_ext false dims loc g (Fs ++ map fst k) (den (zprod dims) [PLoc (fun _ => kernel_lops (ghosted g loc) 0 k (map (fun _ => SAll) (ghosted g loc)))] m) (update_everywhere k u).
Proof.
  intros Hok Hg Hnd Hdis Hloc Hi H r f I Hr Hf HI HQ. unfold update_everywhere.
  destruct (in_dec Nat.eq_dec f (map fst k)) as [Hk|Hk].
  - apply key_In in Hk as [K Hin]. rewrite (apply_at k _ _ _ u f K _ Hnd Hin).
    rewrite (elem_post (ghosted g loc) (zprod dims) (sz_pos dims loc g Hok Hg) k ins m r I f K); auto; [|intros o' K' H'; rewrite sz_len; now apply (Hloc o')].
    destruct (Hloc f K Hin) as [HL HO]. rewrite (HO _ _ (u f (ghost_pos dims loc g r I))). apply HL. intros f' d Hf' Hd. apply star0 in Hd. subst d.
    pose proof (cell_len loc g I HI) as HlI. replace (vadd I (repeat 0 (length loc))) with I by (rewrite <- HlI, vadd_rep0; reflexivity).
    rewrite (H r f' I) by auto. f_equal.
    pose proof (gp_length dims loc g r I ltac:(destruct Hok; auto) HlI) as HlP. rewrite <- (vadd_rep0 (ghost_pos dims loc g r I)) at 1. f_equal. f_equal. rewrite HlP.
    unfold global_size. destruct Hok as [A _ _]. rewrite vmul_length; lia.
  - apply in_app_or in Hf as [Hf|Hf]; [|contradiction]. rewrite (apply_off k _ _ _ u f) by auto. unfold field. rewrite elem_frame by auto. now apply H.
Qed.

(** *** The 3D curl including the ghost cells around the domain *)
Lemma curl3_good {T} (z : T) pz py px n0 n1 n2 g full vx vy vz p0 p1 p2 Kx Ky Kz race Fs : grid3 pz py px n0 n1 n2 g ->
  NoDup [vx; vy; vz] -> (forall o, In o [vx; vy; vz] -> ~ In o [p0; p1; p2]) ->
  (forall K, In K [Kx; Ky; Kz] -> star_local 3 [p0; p1; p2] 1 K /\ overwrites K) -> incl [p0; p1; p2] Fs ->
  good_step false [pz; py; px] [n0; n1; n2] g Fs (curl_3d z false pz py px n0 n1 n2 g full vx vy vz p0 p1 p2 Kx Ky Kz race)
    (overwrite_interior z (global_size [pz; py; px] [n0; n1; n2]) [(vx, Kx); (vy, Ky); (vz, Kz)]).
Proof.
  intros G Hnd Hd HK Hi. pose proof G as (A1 & A2 & A3 & Hg & B1 & B2 & B3). pose proof (g3_ok _ _ _ _ _ _ _ G) as Hok.
  set (k := [(vx, Kx); (vy, Ky); (vz, Kz)]) in *.
  assert (Hdis : forall f, In f [p0; p1; p2] -> ~ In f (map fst k)) by (intros f Hf Hf'; apply (Hd f); auto).
  assert (Hloc : forall o K, In (o, K) k -> star_local 3 [p0; p1; p2] 1 K).
  { intros o K Hin. apply HK. unfold k in Hin. simpl in Hin. destruct Hin as [E|[E|[E|[]]]]; inversion E; subst; simpl; auto. }
  assert (Hov : forall o K, In (o, K) k -> overwrites K).
  { intros o K Hin. apply HK. unfold k in Hin. simpl in Hin. destruct Hin as [E|[E|[E|[]]]]; inversion E; subst; simpl; auto. }
  pose proof (exch3_facts false pz py px n0 n1 n2 g full [p0; p1; p2] ltac:(auto) Hg ltac:(auto)) as EF.
  split; [apply curl_ok; auto|]. intros m u H r f I Hr Hf HI HQ. unfold overwrite_interior.
  destruct (in_dec Nat.eq_dec f (map fst k)) as [Hk|Hk].
  - apply key_In in Hk as [K Hin]. rewrite (apply_at k _ _ _ u f K _ Hnd Hin).
    destruct HQ as [HQ|[Hga Ho]].
    + unfold k in *. rewrite curl_value with (K := K); auto.
      pose proof (sub_ok g _ I HQ) as (x & Hx & EI). rewrite (inner_in _ _ g r I Hok Hr HQ).
      assert (Ez : zeroed [n0; n1; n2] g (zeroed3 false pz py px g) r I = edgeb false (global_size [pz; py; px] [n0; n1; n2]) (ghost_pos [pz; py; px] [n0; n1; n2] g r I)).
      { rewrite EI, sub_pos. apply Bool.eq_true_iff_eq. rewrite edgeb_spec. apply boundary3; auto. }
      rewrite Ez. destruct (edgeb false _ _); cbn [negb andb]; auto.
      rewrite (Hov f K Hin _ _ z). apply (Hloc f K Hin). intros f' d Hf' Hd'.
      rewrite (read_ext false [pz; py; px] [n0; n1; n2] g 1 [p0; p1; p2] _ z (fun a _ => a) Hok ltac:(lia) Hg EF m u r I); auto. intros r' f'' I' A B D E. apply H; auto.
    + rewrite owner_out by auto. cbn [andb].
      unfold field. unfold k in *. rewrite curl_run by auto.
      pose proof (zeroed3_out false pz py px n0 n1 n2 g r I G Hr HI Ho) as Hz.
      rewrite run_sets; auto.
      * destruct (in_dec ldec I _) as [|Hn]; auto. exfalso. apply Hn. apply (zero_cells_In [n0; n1; n2] g (zeroed3 false pz py px g)); auto. intros r'. apply zvs_len.
      * intros J HJ. apply (zero_cells_In [n0; n1; n2] g (zeroed3 false pz py px g) (fun r' => zvs_len false pz py px n0 n1 n2 g r')) in HJ. unfold zeroed in HJ. apply existsb_exists in HJ as (v & Hv & HJ).
        eapply view_in_inb; [|apply (sizes_pos [pz; py; px]); eauto|exact HJ]. lia.
      * apply in_map_iff. exists (f, K). auto.
  - rewrite (apply_off k _ _ _ u f) by auto. rewrite <- (H r f I Hr Hf HI HQ). unfold field at 1. unfold k in *. rewrite curl_frame by auto.
    exact (copies_ext [pz; py; px] [n0; n1; n2] g [p0; p1; p2] _ Hg EF m r f I Hr HI HQ).
Qed.

(** *** Equal in the domain, for the arrays ws; equal everywhere for the others *)
Section Rel.
Context {T C : Type}.
Variables (ws : list nat) (N : list Z).
Definition nearly (U u : nat -> list Z -> T) : Prop := (forall f P, In f ws -> inb N P -> U f P = u f P) /\ (forall f P, ~ In f ws -> U f P = u f P).
Lemma nearly_euler add z c K U u : In c ws -> star_local (length N) [c] 1 K -> nearly U u -> nearly (euler_step false N add z true c K U) (euler_step false N add z true c K u).
Proof.
  intros Hc HK [H1 H2]. split.
  - intros f P Hf HP. destruct (Nat.eq_dec f c) as [->|Hne]; [apply euler_inside; auto|]. unfold euler_step. destruct (Nat.eqb_spec f c); [contradiction|auto].
  - intros f P Hf. unfold euler_step. destruct (Nat.eqb_spec f c) as [->|]; [contradiction|auto].
Qed.
Lemma nearly_fields h U u : (forall v v', same_in N v v' -> same_in N (h v) (h v')) -> nearly U u -> nearly (on_fields ws h U) (on_fields ws h u).
Proof.
  intros Hh [H1 H2]. split.
  - intros f P Hf HP. unfold on_fields. destruct (in_dec Nat.eq_dec f ws); [|contradiction]. apply Hh; auto. intros P' HP'. auto.
  - intros f P Hf. unfold on_fields. destruct (in_dec Nat.eq_dec f ws); [contradiction|]. auto.
Qed.
Lemma nearly_sponge (damp : C -> C -> T -> T) coord width axes U u f P : 1 <= width -> Forall (fun n => width <= n) N ->
  Forall (fun a => (a < length N)%nat) axes -> (forall a, (a < length N)%nat -> In a axes) -> nearly U u -> length P = length N ->
  on_fields ws (sponge damp coord N width false axes) U f P = on_fields ws (sponge damp coord N width false axes) u f P.
Proof.
  intros Hw HN Ha Hall [H1 H2] HP. unfold on_fields. destruct (in_dec Nat.eq_dec f ws); [|auto].
  apply (sponge_forgets damp coord N width); auto.
Qed.
End Rel.

Section NS3.
Context {T C : Type}.
Variables (add : T -> T -> T) (z : T) (damp : C -> C -> T -> T) (coord : nat -> Z -> C) (width : Z)
          (conv : (list Z -> T) -> list Z -> T) (Kcx Kcy Kcz : @kfun T)
          (lap : T -> T -> T -> T) (sub : T -> T -> T) (filt : option (filter_type * nat * Z)).
Variables (pz py px n0 n1 n2 g : Z) (full : bool) (xg : Z -> nat -> Z -> C).
Variables (w0 w1 w2 p0 p1 p2 vx vy vz fx fy fz b0 b1 b2 buf D S : nat).
Notation dims := [pz; py; px].
Notation loc := [n0; n1; n2].
Notation N := (global_size dims loc).
Notation n := (zprod dims).
Notation ws := [w0; w1; w2].
Notation ps := [p0; p1; p2].
Notation vs := [vx; vy; vz].
Notation fs := [fx; fy; fz].
Notation bs := [b0; b1; b2].
Notation Fs0 := [w0; w1; w2; p0; p1; p2; vx; vy; vz].
Hypothesis G : grid3 pz py px n0 n1 n2 g.
Hypothesis H2 : 2 <= n0 /\ 2 <= n1 /\ 2 <= n2.
Hypothesis Hw : 1 <= width /\ width <= n0 /\ width <= n1 /\ width <= n2.
Hypothesis Hev : evenly dims.
Hypothesis Hxg : coords_ok dims loc g xg coord.
Hypothesis Hnd : NoDup [w0; w1; w2; p0; p1; p2; vx; vy; vz; fx; fy; fz; b0; b1; b2; buf; D; S].
Hypothesis HKc : forall K, In K [Kcx; Kcy; Kcz] -> star_local 3 ps 1 K /\ overwrites K.
Hypothesis Hfilt : match filt with Some (_, order, bw) => (1 <= order)%nat /\ 1 <= bw /\ bw <= n0 /\ bw <= n1 /\ bw <= n2 | None => True end.

Definition all_arrays : list nat := [w0; w1; w2; p0; p1; p2; vx; vy; vz; fx; fy; fz; b0; b1; b2; buf; D; S].
(** Distinct positions hold distinct arrays. *)
Lemma nd_at i j : (i < 18)%nat -> (j < 18)%nat -> i <> j -> nth i all_arrays 0%nat <> nth j all_arrays 0%nat.
Proof. intros Hi Hj Hne E. apply Hne. exact (proj1 (NoDup_nth all_arrays 0%nat) Hnd i j Hi Hj E). Qed.
Lemma sub_disj l l' : (forall i j, In i l -> In j l' -> (i < 18)%nat /\ (j < 18)%nat /\ i <> j) ->
  forall f, In f (map (fun i => nth i all_arrays 0%nat) l) -> ~ In f (map (fun i => nth i all_arrays 0%nat) l').
Proof.
  intros H f Hf Hf'. apply in_map_iff in Hf as (i & <- & Hi). apply in_map_iff in Hf' as (j & E & Hj). destruct (H i j Hi Hj) as (A & B & N'). exact (nd_at j i B A (not_eq_sym N') E).
Qed.
Lemma sub_nodup l : NoDup l -> (forall i, In i l -> (i < 18)%nat) -> NoDup (map (fun i => nth i all_arrays 0%nat) l).
Proof.
  intros Hl Hb. induction Hl as [|a l Ha Hl IH]; simpl; constructor.
  - intros Hin. apply in_map_iff in Hin as (j & E & Hj). apply (nd_at j a); auto; try (apply Hb; simpl; auto). intros ->. contradiction.
  - apply IH. intros i Hi. apply Hb. simpl; auto.
Qed.
Ltac bounds := let i := fresh in let j := fresh in intros i j; simpl; lia.
Lemma b_fresh f : In f (Fs0 ++ fs) -> ~ In f [b0; b1; b2; buf; D; S].
Proof. apply (sub_disj [0;1;2;3;4;5;6;7;8;9;10;11]%nat [12;13;14;15;16;17]%nat). bounds. Qed.

Let Hok : grid_ok dims loc := g3_ok _ _ _ _ _ _ _ G.
Let Hg1 : 1 <= g. Proof. destruct G as (?&?&?&?&?&?&?). auto. Qed.
Let Hgn : Forall (fun n => g <= n) loc. Proof. destruct G as (?&?&?&?&?&?&?). repeat constructor; auto. Qed.
Let Hp1 : 1 <= pz /\ 1 <= py /\ 1 <= px. Proof. destruct G as (?&?&?&?&?&?&?). auto. Qed.
Let Hn1 : g <= n0 /\ g <= n1 /\ g <= n2. Proof. destruct G as (?&?&?&?&?&?&?). auto. Qed.
Let HNl : Forall (fun n => width <= n) N. Proof. destruct G as (?&?&?&?&?&?&?). repeat constructor; nia. Qed.
Let passes_one x : inb loc x -> passes loc g 1 (strips3 g 1 (s0 n0 g) (s1 n1 g) (s2 n2 g)) (map (fun i => i + g) x) = 1%nat.
Proof. intros Hx. apply passes3; auto; try lia. now apply add_inner. Qed.

(** The update of the vorticity by the curl of a vector field qs. *)
Section Upd.
Variables (q0 q1 q2 : nat) (K : @kfun T * @kfun T * @kfun T).
Notation qs := [q0; q1; q2].
Notation k := (three w0 w1 w2 K).
Hypothesis Hqw : forall f, In f qs -> ~ In f ws.
Hypothesis HK : forall K', in3 K' K -> star_local 3 qs 1 K'.
Notation uprog := (update_vorticity_call_3d pz py px n0 n1 n2 g full w0 w1 w2 q0 q1 q2 K).
Notation hprog := (halo loc g 1 (all_copies n (exchange3 false pz py px n0 n1 n2 g full qs)) k (strips3 g 1 (s0 n0 g) (s1 n1 g) (s2 n2 g)) (fun _ => []) z).

Lemma k_keys : map fst k = ws. Proof. destruct K as [[a b] c]. reflexivity. Qed.
Lemma k_loc o K' : In (o, K') k -> star_local 3 qs 1 K'.
Proof. intros Hin. apply HK. destruct K as [[a b] c]. simpl in *. destruct Hin as [E|[E|[E|[]]]]; inversion E; auto. Qed.
Lemma k_nd : NoDup (map fst k). Proof. rewrite k_keys. apply (sub_nodup [0;1;2]%nat); [repeat constructor; simpl; lia|simpl; lia]. Qed.
Lemma k_dis f : In f qs -> ~ In f (map fst k). Proof. rewrite k_keys. apply Hqw. Qed.
Lemma upd_den (m : mem T) : den n uprog m = den n hprog m. Proof. destruct K as [[a b] c]. reflexivity. Qed.
Lemma upd_ok : Forall (phase_ok n) uprog.
Proof.
  assert (X : Forall (phase_ok n) hprog).
  { apply (plain_ok dims loc g 1 qs _ k _ (fun _ => []) z Hok ltac:(lia) Hg1 (exch3_facts false pz py px n0 n1 n2 g full qs Hp1 Hg1 Hn1)); auto using k_dis, k_nd; try (repeat constructor).
    intros o K' Hin. apply (k_loc o K' Hin). }
  destruct K as [[a b] c]. exact X.
Qed.
Lemma upd_keep (m : mem T) r f I : 0 <= r < n -> inb (ghosted g loc) I -> Qext false dims loc g r I -> ~ In f ws ->
  field (den n uprog m) (ghosted g loc) r f I = field m (ghosted g loc) r f I.
Proof.
  intros Hr HI HQ Hf. rewrite upd_den.
  apply (plain_keep dims loc g 1 qs _ k _ (fun _ => []) z Hg1 (exch3_facts false pz py px n0 n1 n2 g full qs Hp1 Hg1 Hn1)); auto. pose proof k_keys as E. unfold kfun in *. rewrite E. exact Hf.
Qed.
Lemma upd_inner Fs (m : mem T) u : represents_ext false dims loc g qs m u -> represents dims loc g Fs m u ->
  represents dims loc g Fs (den n uprog m) (update_inside N k u).
Proof.
  intros He Hr. rewrite upd_den.
  apply (plain_step_inner dims loc g 1 qs _ k _ (fun _ => []) z Hok ltac:(lia) Hg1 (exch3_facts false pz py px n0 n1 n2 g full qs Hp1 Hg1 Hn1)); auto using k_dis, k_nd; try (repeat constructor).
  intros o K' Hin. apply (k_loc o K' Hin).
Qed.
Lemma upd_ext Fs (m : mem T) u : incl qs Fs -> represents_ext false dims loc g Fs m u ->
  (forall r f J, 0 <= r < n -> In f qs -> inb (ghosted g loc) J -> owner false dims loc (ghost_pos dims loc g r J) = None -> field m (ghosted g loc) r f J = z) ->
  (forall f P, In f qs -> inb N P -> edgeb false N P = true -> u f P = z) ->
  (forall K', in3 K' K -> quiet z 3 qs 1 K') ->
  represents_ext false dims loc g Fs (den n uprog m) (update_inside N k u).
Proof.
  intros Hi He Hz Hu Hq. rewrite upd_den.
  apply (plain_step_ext dims loc g 1 qs _ k _ (fun _ => []) z Hok ltac:(lia) Hg1 (exch3_facts false pz py px n0 n1 n2 g full qs Hp1 Hg1 Hn1)); auto using k_dis, k_nd; try (repeat constructor).
  - intros o K' Hin. apply (k_loc o K' Hin).
  - intros m' r f I Hr HI Ho. now apply hunch3.
  - intros o K' Hin. apply Hq. destruct K as [[a b] c]. simpl in *. destruct Hin as [E|[E|[E|[]]]]; inversion E; auto.
Qed.
End Upd.

Lemma ws_nd : NoDup ws. Proof. apply (sub_nodup [0;1;2]%nat); [repeat constructor; simpl; lia|simpl; lia]. Qed.
Lemma vs_nd : NoDup vs. Proof. apply (sub_nodup [6;7;8]%nat); [repeat constructor; simpl; lia|simpl; lia]. Qed.
Lemma bs_nd : NoDup bs. Proof. apply (sub_nodup [12;13;14]%nat); [repeat constructor; simpl; lia|simpl; lia]. Qed.
Lemma b_not_w f : In f bs -> ~ In f ws. Proof. apply (sub_disj [12;13;14]%nat [0;1;2]%nat). bounds. Qed.
Lemma f_not_w f : In f fs -> ~ In f ws. Proof. apply (sub_disj [9;10;11]%nat [0;1;2]%nat). bounds. Qed.
Lemma v_not_p f : In f vs -> ~ In f ps. Proof. apply (sub_disj [6;7;8]%nat [3;4;5]%nat). bounds. Qed.
Lemma wv_not_b f : In f (ws ++ vs) -> ~ In f bs. Proof. apply (sub_disj [0;1;2;6;7;8]%nat [12;13;14]%nat). bounds. Qed.
Lemma f_not_0 f : In f fs -> ~ In f Fs0. Proof. apply (sub_disj [9;10;11]%nat [0;1;2;3;4;5;6;7;8]%nat). bounds. Qed.

Definition dif_steps (dif : nat -> @kfun T) := flat_map (fun c => tstep_3d add z false pz py px n0 n1 n2 g full buf vx vy vz (Dif c (dif c))) ws.
Definition filt_steps := match filt with
  | Some (ft, order, bw) => vector_filter_3d lap sub z false pz py px n0 n1 n2 g full bw ft b1 b0 order ws
  | None => [] end.
Definition serial_filt (u : nat -> list Z -> T) := match filt with
  | Some (ft, order, bw) => on_fields ws (serial_filter lap sub z false N bw ft order) u
  | None => u end.
Notation sponge_ws := (on_fields ws (sponge damp coord N width false [2; 1; 0]%nat)).

Section Fs.
Variable Fs : list nat.
Hypothesis Hi : incl Fs0 Fs.
Hypothesis Hfr : forall f, In f [b0; b1; b2; buf; D; S] -> ~ In f Fs.
Lemma inc l : incl l Fs0 -> incl l Fs. Proof. intros H f Hf. auto. Qed.

Lemma dif_good dif : (forall c, In c ws -> star_local 3 [c] 1 (dif c) /\ overwrites (dif c)) ->
  good_step false dims loc g Fs (dif_steps dif) (fun u => fold_left (fun u c => euler_step false N add z true c (dif c) u) ws u).
Proof.
  intros Hd. apply (good_step_fold false dims loc g Fs (fun c => tstep_3d add z false pz py px n0 n1 n2 g full buf vx vy vz (Dif c (dif c))) (fun c u => euler_step false N add z true c (dif c) u)).
  apply Forall_forall. intros c Hc. destruct (Hd c Hc) as [A B].
  apply (tstep_3d_good add z false pz py px n0 n1 n2 g full buf vx vy vz Fs (Dif c (dif c)) G).
  - apply Hfr. simpl; tauto.
  - apply inc. intros f Hf. simpl in *; tauto.
  - simpl. split; auto. apply Hi. simpl in *. tauto.
Qed.
Lemma filt_good : good_step false dims loc g Fs filt_steps serial_filt.
Proof.
  unfold filt_steps, serial_filt. destruct filt as [[[ft order] bw]|]; [|split; [constructor|auto]]. destruct Hfilt as (Ho & Hb).
  assert (Hbb : b1 <> b0) by (apply (nd_at 13 12); lia).
  split; [now apply vector_filter_ok|]. intros m u H. apply rep_ext. apply rep_ext in H.
  apply vector_filter_rep; auto.
  - intros r I HI. now left.
  - apply Hfr. simpl; tauto.
  - apply Hfr. simpl; tauto.
  - apply inc. intros f Hf. simpl in *; tauto.
  - apply ws_nd.
Qed.
Lemma pen_good : good_step false dims loc g Fs (penalise_vector_3d damp false pz py px n0 n1 n2 g width xg ws) sponge_ws.
Proof.
  split; [apply penalise_vector_3d_local|]. intros m u H. apply rep_ext. apply rep_ext in H.
  apply penalise_vector_3d_rep; auto; try lia; [now apply tracked_ext|apply ws_nd].
Qed.
Lemma pois_good : good_step false dims loc g Fs (poisson_vector_solve_3d conv z false pz py px n0 n1 n2 g D S ps ws) (solve_all conv z N [(p0, w0); (p1, w1); (p2, w2)]).
Proof.
  assert (HDS : D <> S) by (apply (nd_at 16 17); lia).
  assert (HD : ~ In D Fs) by (apply Hfr; simpl; tauto). assert (HS : ~ In S Fs) by (apply Hfr; simpl; tauto).
  assert (HF : Forall (fun sr => In (fst sr) Fs /\ In (snd sr) Fs) [(p0, w0); (p1, w1); (p2, w2)]) by (repeat constructor; apply Hi; simpl; tauto).
  destruct G as (?&?&?&?&?&?&?).
  assert (HH : forall m u, exists m', spmd_ends n (poisson_vector_solve_3d conv z false pz py px n0 n1 n2 g D S ps ws) m m' /\
     (represents_ext false dims loc g Fs m u -> represents_ext false dims loc g Fs m' (solve_all conv z N [(p0, w0); (p1, w1); (p2, w2)] u))).
  { intros m u. destruct (solves_3d conv z false pz py px n0 n1 n2 g D S Fs [(p0, w0); (p1, w1); (p2, w2)] m u) as (m' & E & _ & H'); auto; try lia. exists m'. split; auto. }
  assert (HO : Forall (phase_ok n) (poisson_vector_solve_3d conv z false pz py px n0 n1 n2 g D S ps ws)).
  { apply (solves_ok dims loc g Hok ltac:(lia) conv z D S (fun f r => ops_of (to_doubled3 false dims loc g f D r)) (fun f r => ops_of (from_doubled3 false dims loc g f D r)) HDS).
    - intros f. apply to3_shape; auto.
    - intros f. apply from3_shape; auto.
    - apply Forall_forall. intros sr Hsr. rewrite Forall_forall in HF. destruct (HF sr Hsr) as [A B]. split; intros X; simpl in X; destruct X as [E|[E|[]]]; subst; congruence. }
  split; [exact HO|]. intros m u He. destruct (HH m u) as (m' & E & H').
  rewrite <- (spmd_ends_det _ _ _ _ _ E (spmd_safe _ _ m HO)). auto.
Qed.
Lemma curl_g race : good_step false dims loc g Fs (curl_3d z false pz py px n0 n1 n2 g full vx vy vz p0 p1 p2 Kcx Kcy Kcz race) (overwrite_interior z N [(vx, Kcx); (vy, Kcy); (vz, Kcz)]).
Proof. apply curl3_good; auto; [apply vs_nd|apply v_not_p|apply inc; intros f Hf; simpl in *; tauto]. Qed.

(** From the cross product to the penalised vorticity. *)
Lemma vort_post (s : @ns3_step T) (m : mem T) u :
  (forall K, in3 K (n3_crs s) -> star_local 3 (ws ++ vs) 0 K /\ overwrites K) ->
  (forall K, in3 K (n3_upd s) -> star_local 3 bs 1 K) ->
  (forall c, In c ws -> star_local 3 [c] 1 (n3_dif s c) /\ overwrites (n3_dif s c)) ->
  represents_ext false dims loc g Fs m u ->
  represents_ext false dims loc g Fs
   (den n (penalise_vector_3d damp false pz py px n0 n1 n2 g width xg ws) (den n filt_steps (den n (dif_steps (n3_dif s))
     (den n (update_vorticity_call_3d pz py px n0 n1 n2 g full w0 w1 w2 b0 b1 b2 (n3_upd s))
       (den n [PLoc (fun _ => kernel_lops (ghosted g loc) 0 (three b0 b1 b2 (n3_crs s)) (map (fun _ => SAll) (ghosted g loc)))] m)))))
   (sponge_ws (serial_filt (fold_left (fun u c => euler_step false N add z true c (n3_dif s c) u) ws
      (update_inside N (three w0 w1 w2 (n3_upd s)) (update_everywhere (three b0 b1 b2 (n3_crs s)) u))))).
Proof.
  intros HC HU HDf He.
  assert (Hk : map fst (three b0 b1 b2 (n3_crs s)) = bs) by (destruct (n3_crs s) as [[? ?] ?]; reflexivity).
  assert (H1 : represents_ext false dims loc g (Fs ++ bs) (den n [PLoc (fun _ => kernel_lops (ghosted g loc) 0 (three b0 b1 b2 (n3_crs s)) (map (fun _ => SAll) (ghosted g loc)))] m)
     (update_everywhere (three b0 b1 b2 (n3_crs s)) u)).
  { rewrite <- Hk. apply (elem_over dims loc g _ (ws ++ vs)); auto.
    - unfold kfun in *. rewrite Hk. apply bs_nd.
    - unfold kfun in *. rewrite Hk. apply wv_not_b.
    - intros o K Hin. apply HC. destruct (n3_crs s) as [[? ?] ?]. simpl in *. destruct Hin as [E|[E|[E|[]]]]; inversion E; auto.
    - apply inc. intros f Hf. simpl in *; tauto. }
  set (m1 := den n [PLoc _] m) in *. set (u1 := update_everywhere _ u) in *.
  pose proof (upd_inner b0 b1 b2 (n3_upd s) b_not_w HU ws m1 u1) as HI2.
  assert (Hbe : represents_ext false dims loc g bs m1 u1) by (eapply ext_sub; [|exact H1]; intros f Hf; apply in_or_app; auto).
  assert (Hwr : represents dims loc g ws m1 u1).
  { apply (ext_represents dims loc g Hg1). eapply ext_sub; [|exact H1]. intros f Hf; apply in_or_app; left. apply Hi. simpl in *; tauto. }
  specialize (HI2 Hbe Hwr).
  pose proof (upd_keep b0 b1 b2 (n3_upd s) HU m1) as HK2.
  set (m2 := den n (update_vorticity_call_3d pz py px n0 n1 n2 g full w0 w1 w2 b0 b1 b2 (n3_upd s)) m1) in *.
  set (u2 := update_inside N (three w0 w1 w2 (n3_upd s)) u1) in *.
  destruct (ext_refine dims loc g Hok Hg1 Hgn ws m2 u2 HI2) as (uu & Huu & Heq).
  set (U := fun f P => if in_dec Nat.eq_dec f ws then uu f P else u2 f P).
  assert (HUr : represents_ext false dims loc g Fs m2 U).
  { intros r f I Hr Hf HI HQ. unfold U. destruct (in_dec Nat.eq_dec f ws) as [Hf'|Hf']; [now apply Huu|].
    rewrite HK2 by auto. unfold u2, update_inside. rewrite apply_off by (destruct (n3_upd s) as [[? ?] ?]; exact Hf'). apply H1; auto. apply in_or_app; auto. }
  assert (Hn : nearly ws N U u2).
  { split; intros f P Hf; unfold U; destruct (in_dec Nat.eq_dec f ws); try contradiction; auto. intros HP. apply Heq. now apply inbb_spec. }
  apply (proj2 (dif_good (n3_dif s) HDf)) in HUr. apply (proj2 filt_good) in HUr. apply (proj2 pen_good) in HUr.
  apply (ext_congr dims loc g Hok _ _ _ _ HUr). intros f P Hf HP. apply nearly_sponge; auto; try lia.
  - repeat constructor; auto.
  - intros a Ha. simpl in Ha. simpl. lia.
  - assert (Hn4 : nearly ws N (fold_left (fun u c => euler_step false N add z true c (n3_dif s c) u) ws U) (fold_left (fun u c => euler_step false N add z true c (n3_dif s c) u) ws u2)).
    { cbn [fold_left]. apply nearly_euler; [simpl; auto|apply HDf; simpl; auto|]. apply nearly_euler; [simpl; auto|apply HDf; simpl; auto|]. apply nearly_euler; [simpl; auto|apply HDf; simpl; auto|]. exact Hn. }
    unfold serial_filt. destruct filt as [[[ft order] bw]|]; [|exact Hn4]. apply nearly_fields; auto. intros v v' Hv. apply filter_in; auto; try lia. 
Qed.

Lemma ns3_ok (s : @ns3_step T) race :
  (forall K, in3 K (n3_upd s) -> star_local 3 bs 1 K) ->
  (forall c, In c ws -> star_local 3 [c] 1 (n3_dif s c) /\ overwrites (n3_dif s c)) ->
  Forall (phase_ok n) (navier_stokes_3d add z damp conv lap sub filt pz py px n0 n1 n2 g full width xg w0 w1 w2 p0 p1 p2 vx vy vz b0 b1 b2 buf D S Kcx Kcy Kcz race s).
Proof.
  intros HU HDf. unfold navier_stokes_3d, compute_flow_velocity_3d. rewrite !Forall_app.
  split; [repeat constructor|]. split; [apply upd_ok; auto; apply b_not_w|]. split; [apply (proj1 (dif_good (n3_dif s) HDf))|]. split; [apply (proj1 filt_good)|].
  split; [apply (proj1 pen_good)|]. split; [apply (proj1 pois_good)|]. split; [apply (proj1 (curl_g race))|].
  destruct (n3_free s) as [[[a b] c]|]; repeat constructor.
Qed.
Lemma ns3_post (s : @ns3_step T) race (m : mem T) u :
  (forall K, in3 K (n3_crs s) -> star_local 3 (ws ++ vs) 0 K /\ overwrites K) ->
  (forall K, in3 K (n3_upd s) -> star_local 3 bs 1 K) ->
  (forall c, In c ws -> star_local 3 [c] 1 (n3_dif s c) /\ overwrites (n3_dif s c)) ->
  represents_ext false dims loc g Fs m u ->
  represents_ext false dims loc g Fs (den n (navier_stokes_3d add z damp conv lap sub filt pz py px n0 n1 n2 g full width xg w0 w1 w2 p0 p1 p2 vx vy vz b0 b1 b2 buf D S Kcx Kcy Kcz race s) m)
   (let u6 := sponge_ws (serial_filt (fold_left (fun u c => euler_step false N add z true c (n3_dif s c) u) ws
      (update_inside N (three w0 w1 w2 (n3_upd s)) (update_everywhere (three b0 b1 b2 (n3_crs s)) u)))) in
    let u8 := overwrite_interior z N [(vx, Kcx); (vy, Kcy); (vz, Kcz)] (solve_all conv z N [(p0, w0); (p1, w1); (p2, w2)] u6) in
    match n3_free s with Some (a, b, c) => free_stream add [(vx, a); (vy, b); (vz, c)] u8 | None => u8 end).
Proof.
  intros HC HU HDf He. unfold navier_stokes_3d, compute_flow_velocity_3d. rewrite !den_app.
  pose proof (vort_post s m u HC HU HDf He) as H6. unfold dif_steps, filt_steps in H6.
  apply (proj2 pois_good) in H6. apply (proj2 (curl_g race)) in H6.
  destruct (n3_free s) as [[[a b] c]|]; [|exact H6].
  exact (proj2 (free_good dims loc g Hok Hg1 add [(vx, a); (vy, b); (vz, c)] Fs vs_nd) _ _ H6).
Qed.
End Fs.

Notation step := (fun sr => time_step_3d add z damp conv lap sub filt pz py px n0 n1 n2 g full width xg w0 w1 w2 p0 p1 p2 vx vy vz fx fy fz b0 b1 b2 buf D S Kcx Kcy Kcz (snd sr) (fst sr)).
Notation serial := (serial_ns_3d add z damp coord width conv Kcx Kcy Kcz lap sub filt N w0 w1 w2 p0 p1 p2 vx vy vz b0 b1 b2 fx fy fz).

Lemma fr0 f : In f [b0; b1; b2; buf; D; S] -> ~ In f Fs0.
Proof. apply (sub_disj [12;13;14;15;16;17]%nat [0;1;2;3;4;5;6;7;8]%nat). bounds. Qed.
Lemma fr1 f : In f [b0; b1; b2; buf; D; S] -> ~ In f (Fs0 ++ fs).
Proof. apply (sub_disj [12;13;14;15;16;17]%nat [0;1;2;3;4;5;6;7;8;9;10;11]%nat). bounds. Qed.

Lemma step3_ok s race : ns3_step_ok z N ws vs bs fs s -> Forall (phase_ok n) (step (s, race)).
Proof.
  intros (HC & HU & HDf & HF). cbn [fst snd]. unfold time_step_3d.
  pose proof (ns3_ok Fs0 ltac:(intros f; auto) fr0 s race HU HDf) as OK.
  destruct (n3_frc s) as [[K fv]|]; [|exact OK]. rewrite !Forall_app. split; [|split; [exact OK|repeat constructor]].
  apply upd_ok; [apply f_not_w|]. intros K' HK'. now apply HF.
Qed.
Lemma step3_post s race (m m1 : mem T) u : ns3_step_ok z N ws vs bs fs s ->
  represents_ext false dims loc g Fs0 m u ->
  between z dims loc g Fs0 fs (forcing_of (n3_frc s)) m m1 ->
  represents_ext false dims loc g Fs0 (den n (step (s, race)) m1) (serial u s) /\
  (n3_frc s <> None -> forall r f I, 0 <= r < n -> In f fs -> inb (ghosted g loc) I -> field (den n (step (s, race)) m1) (ghosted g loc) r f I = z).
Proof.
  intros (HC & HU & HDf & HF) He [Hk Hd]. cbn [fst snd]. unfold time_step_3d, serial_ns_3d.
  destruct (n3_frc s) as [[K fv]|]; cbn [forcing_of option_map snd] in Hd.
  - destruct HF as (HK & Hob). rewrite !den_app. split.
    + pose proof (deposit_ext dims loc g z Hok Fs0 fs fv m m1 u f_not_0 Hk Hd He) as H1.
      pose proof (upd_ext fx fy fz K f_not_w (fun K' H => proj1 (HK K' H)) (Fs0 ++ fs) m1 _ ltac:(intros f Hf; apply in_or_app; auto) H1 ltac:(destruct Hd; auto) (put_edge dims loc z fs fv u Hob) (fun K' H => proj2 (HK K' H))) as Hf2.
      pose proof (ns3_post (Fs0 ++ fs) ltac:(intros f Hf; apply in_or_app; auto) fr1 s race _ _ HC HU HDf Hf2) as H3.
      pose proof (proj2 (fill_good dims loc g Hok Hg1 z fs (Fs0 ++ fs)) _ _ H3) as H4.
      eapply ext_sub; [|exact H4]. intros f Hf; apply in_or_app; auto.
    + intros _ r f I Hr Hf HI. apply (sets_post (ghosted g loc) n (sz_pos dims loc g Hok Hg1)); auto.
  - split; [|congruence]. apply (ns3_post Fs0 ltac:(intros f; auto) fr0 s race _ _ HC HU HDf). eapply kept_ext; eauto.
Qed.
Lemma history3_ext hist : Forall (fun sr => ns3_step_ok z N ws vs bs fs (fst sr)) hist -> forall (m m' : mem T) u,
  represents_ext false dims loc g Fs0 m u ->
  history dims step (fun sr => between z dims loc g Fs0 fs (forcing_of (n3_frc (fst sr)))) hist m m' ->
  represents_ext false dims loc g Fs0 m' (fold_left serial (map fst hist) u).
Proof.
  induction 1 as [|[s race] l Hs Hl IH]; intros m m' u He Hh; inversion Hh as [|s' l' m0 m1 m2 m3 B E R]; subst; auto. cbn [map fold_left fst].
  eapply IH; [|exact R]. rewrite (spmd_ends_det _ _ _ _ _ E (spmd_safe _ _ m1 (step3_ok s race Hs))). eapply step3_post; eauto.
Qed.
End NS3.
