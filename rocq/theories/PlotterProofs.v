(** Proofs about the plotter (C58). *)
From Verif Require Import Base SpecGrid Comm Blocking SpecBlocking SpecFields FieldComm FieldProofs RunsTo SpecPlotter Plotter.
From Coq Require Import FunctionalExtensionality.
Open Scope Z_scope.

Section P.
Context {T D Name : Type}.
Variables (dims loc : list Z) (g master : Z) (order : list Z).
Variables (fio xio yio : nat) (none : T).
Hypothesis Hgrid : grid_ok dims loc.
Hypothesis Hg : 0 <= g.
Hypothesis Hm : 0 <= master < zprod dims.
Hypothesis Ho : slave_order dims master order.
Hypothesis Hfx : fio <> xio.
Hypothesis Hfy : fio <> yio.
Hypothesis Hxy : xio <> yio.

Notation no_buffer := (user_arrays (T := T) (D := D) (Name := Name) [fio; xio; yio]).

Notation step := (plot_step (Name := Name) (D := D) dims loc g master order fio xio yio).
Notation runs := (plots (Name := Name) (D := D) dims loc g master order fio xio yio).
Notation wd := (world (T := T) (D := D) (Name := Name)).

Lemma step_det (w : wd) c o1 o2 : step w c o1 -> step w c o2 -> o1 = o2.
Proof.
  intros H1 H2. inversion H1; subst; inversion H2; subst; try reflexivity.
  - match goal with A : runs_to _ _ _ ?a, B : runs_to _ _ _ ?b |- Some {| w_mem := ?a |} = _ => pose proof (runs_to_det _ _ _ _ _ A B) as E end. subst. reflexivity.
  - assert (E : p = p0). { apply functional_extensionality. intros r. specialize (H r). specialize (H0 r). congruence. }
    subst. reflexivity.
  - specialize (H r). congruence.
  - specialize (H3 r). congruence.
  - assert (E : m = m0).
    { apply functional_extensionality. intros r. apply functional_extensionality. intros [a i].
      destruct (in_dec Nat.eq_dec a [fio; xio; yio]) as [I|I]; [rewrite H0, H5 by exact I|rewrite H, H4 by exact I]; reflexivity. }
    subst. reflexivity.
Qed.
Lemma runs_det cs : forall (w : wd) o1 o2, runs w cs o1 -> runs w cs o2 -> o1 = o2.
Proof.
  induction cs as [|c cs IH]; intros w o1 o2 H1 H2; inversion H1; subst; inversion H2; subst; try reflexivity.
  - match goal with A : step w c (Some ?x), B : step w c (Some ?y) |- _ => pose proof (step_det _ _ _ _ A B) as E; injection E as E; subst end.
    eapply IH; eassumption.
  - match goal with A : step w c (Some ?x), B : step w c None |- _ => pose proof (step_det _ _ _ _ A B) as E; discriminate E end.
  - match goal with A : step w c (Some ?x), B : step w c None |- _ => pose proof (step_det _ _ _ _ A B) as E; discriminate E end.
Qed.

(** one gather *)
Lemma one_gather gid lid (m : Z -> @lmem T) : gid <> lid -> exists m',
  runs_to (zprod dims) (fun r => gather_scalar dims loc g master order r gid lid) m m' /\
  (forall P, inb (global_size dims loc) P -> m' master (gid, ravel (global_size dims loc) P) = at_owner dims loc g none m lid P) /\
  (forall r a i, a <> gid -> m' r (a, i) = m r (a, i)).
Proof.
  intros N.
  destruct (gather_runs dims loc g master order Hgrid Hm Ho [(gid, lid)] m) as (m' & R & [V O' Q]).
  { split; cbn [map fst snd]; [constructor; [intros []|constructor]|constructor; [intros []|constructor]|].
    intros a [<-|[]] [E|[]]. apply N. symmetry. exact E. }
  exists m'. split; [|split].
  - eapply runs_to_ext; [|exact R]. intros r _. unfold gather_fields. cbn [flat_map fst snd]. apply app_nil_r.
  - intros P HP. destruct (V gid lid P (or_introl eq_refl) HP) as (s & x & E & ->). unfold at_owner. rewrite E. reflexivity.
  - intros r a i Na. destruct (Z.eq_dec r master) as [->|Nr]; [|apply O'; exact Nr].
    apply Q. intros [[E|[]] _]. apply Na. symmetry. exact E.
Qed.
Lemma at_owner_ext (u v : Z -> nat * Z -> T) a P : (forall r i, u r (a, i) = v r (a, i)) -> at_owner dims loc g none u a P = at_owner dims loc g none v a P.
Proof. intros E. unfold at_owner. destruct (owner false dims loc P) as [[s x]|]; [apply E|reflexivity]. Qed.
Lemma contourf_runs x y f (m : Z -> @lmem T) : ~ In x [fio; xio; yio] -> ~ In y [fio; xio; yio] -> ~ In f [fio; xio; yio] -> exists m',
  runs_to (zprod dims) (contourf_prog dims loc g master order fio xio yio x y f) m m' /\
  (forall P, inb (global_size dims loc) P -> global_array dims loc (m' master) xio P = at_owner dims loc g none m x P) /\
  (forall P, inb (global_size dims loc) P -> global_array dims loc (m' master) yio P = at_owner dims loc g none m y P) /\
  (forall P, inb (global_size dims loc) P -> global_array dims loc (m' master) fio P = at_owner dims loc g none m f P) /\
  (forall r a i, ~ In a [fio; xio; yio] -> m' r (a, i) = m r (a, i)).
Proof.
  intros Nx Ny Nf. cbn [In] in Nx, Ny, Nf.
  destruct (one_gather fio f m) as (m1 & R1 & V1 & S1). { intros E. apply Nf. left. exact E. }
  destruct (one_gather xio x m1) as (m2 & R2 & V2 & S2). { intros E. apply Nx. right. left. exact E. }
  destruct (one_gather yio y m2) as (m3 & R3 & V3 & S3). { intros E. apply Ny. right. right. left. exact E. }
  exists m3. split; [|split; [|split; [|split]]].
  - unfold contourf_prog. eapply runs_to_app; [exact R1|]. eapply runs_to_app; [exact R2|exact R3].
  - intros P HP. unfold global_array. rewrite S3 by exact Hxy. rewrite V2 by exact HP.
    apply at_owner_ext. intros r i. apply S1. intros E. apply Nx. left. symmetry. exact E.
  - intros P HP. unfold global_array. rewrite V3 by exact HP. apply at_owner_ext. intros r i.
    rewrite S2; [apply S1|]; intros E; apply Ny; [left|right; left]; symmetry; exact E.
  - intros P HP. unfold global_array. rewrite S3 by exact Hfy. rewrite S2 by exact Hfx. apply V1. exact HP.
  - intros r a i N. cbn [In] in N. rewrite S3, S2, S1; [reflexivity| | |]; intros E; apply N; rewrite E; auto.
Qed.

(** what holds between two calls *)
Record inv (w : wd) (u : Z -> nat * Z -> T) (l : list (artist T D)) (k s : nat) (t : bool) (c : attribute) : Prop := {
  i_mem : forall r a i, ~ In a [fio; xio; yio] -> w_mem w r (a, i) = u r (a, i);
  i_shown : Forall2 (same_artist dims loc) (shown (fig (w_plot w master))) l;
  i_bars : bars (fig (w_plot w master)) = (k + s)%nat;
  i_title : titled (fig (w_plot w master)) = t;
  i_count : contours l = k;
  i_cbar : forall r, cbar (w_plot w r) = c;
  i_bar : c = IsBar <-> (0 < k)%nat;
  i_missing : c = Missing -> s = 0%nat }.
Notation file_ok := (wanted (T := T) (D := D) (Name := Name) dims loc master).

Lemma saves_master (name : Name) (w : wd) : saves_now dims master name w = [(master, name, fig (w_plot w master))].
Proof.
  unfold saves_now, ranks, only_on_master.
  assert (H : forall L : list Z, NoDup L -> In master L -> flat_map (fun r => if r =? master then [(r, name, fig (w_plot w r))] else []) L = [(master, name, fig (w_plot w master))]).
  { induction L as [|a L IH]; intros ND I; [destruct I|]. inversion ND as [|? ? NI ND']; subst. cbn [flat_map].
    destruct (a =? master) eqn:E.
    - apply Z.eqb_eq in E. subst a. cbn [app]. f_equal.
      assert (Z0 : forall r, In r L -> (r =? master) = false). { intros r Ir. apply Z.eqb_neq. intros ->. exact (NI Ir). }
      clear - Z0. induction L as [|b L IH]; [reflexivity|]. cbn [flat_map]. rewrite (Z0 b (or_introl eq_refl)). cbn [app]. apply IH. intros r Ir. apply Z0. right. exact Ir.
    - destruct I as [->|I]; [rewrite Z.eqb_refl in E; discriminate E|]. cbn [app]. apply IH; assumption. }
  apply H; [apply zrange_NoDup|apply zrange_In; lia].
Qed.
Lemma contours_app (l : list (artist T D)) a : contours (l ++ [a]) = (contours l + match a with Contours _ _ _ => 1 | _ => 0 end)%nat.
Proof. unfold contours. rewrite filter_app, app_length. f_equal. destruct a; reflexivity. Qed.

Lemma run_all cs : forall (w : wd) u l k s t c, inv w u l k s t c -> Forall no_buffer cs -> (c = Missing -> contour_before_clear cs = true) ->
  exists w' new, runs w cs (Some w') /\ w_files w' = w_files w ++ new /\
    Forall2 file_ok new (should_save dims loc g none u l cs) /\
    map (fun f => bars (snd f)) new = colour_bars k s cs /\ map (fun f => titled (snd f)) new = before_clear t cs.
Proof.
  induction cs as [|c cs IH]; intros w u l k s t cb I NB CB.
  - exists w, []. repeat split; try constructor. symmetry. apply app_nil_r.
  - inversion NB as [|? ? NBc NBs]; subst. destruct c as [x y f|d|name| |v]; cbn [user_arrays] in NBc.
    + destruct NBc as (Nx & Ny & Nf). destruct (contourf_runs x y f (w_mem w) Nx Ny Nf) as (m' & R & Vx & Vy & Vf & St).
      set (w1 := {| w_mem := m'; w_plot := fun r => draw_contour dims loc fio xio yio (m' r) (w_plot w r); w_files := w_files w |} : wd).
      destruct (IH w1 u (l ++ [Contours (at_owner dims loc g none u x) (at_owner dims loc g none u y) (at_owner dims loc g none u f)]) (S k) s t IsBar) as (w' & new & A & B & C & E & F).
      * destruct I as [Im Is Ib It Ic Icb Ibar Imis]. split; cbn [w1 w_mem w_plot draw_contour fig shown bars titled cbar].
        -- intros r a i N. rewrite St by exact N. apply Im. exact N.
        -- apply Forall2_app; [exact Is|]. constructor; [|constructor]. cbn [same_artist]. intros P HP.
           rewrite Vx, Vy, Vf by exact HP. repeat split; apply at_owner_ext; intros r i; apply Im; assumption.
        -- rewrite Ib. reflexivity.
        -- exact It.
        -- rewrite contours_app, Ic. apply Nat.add_1_r.
        -- reflexivity.
        -- split; [intros _; apply Nat.lt_0_succ|reflexivity].
        -- discriminate.
      * exact NBs.
      * discriminate.
      * exists w', new. repeat split; try assumption. eapply pl_step; [|exact A]. constructor. exact R.
    + destruct (IH {| w_mem := w_mem w; w_plot := fun r => only_on_master master r (draw_data d (w_plot w r)) (w_plot w r); w_files := w_files w |} u (l ++ [Data d]) k s t cb) as (w' & new & A & B & C & E & F).
      * destruct I as [Im Is Ib It Ic Icb Ibar Imis]. split; cbn [w_mem w_plot]; unfold only_on_master; rewrite ?Z.eqb_refl; cbn [draw_data fig shown bars titled]; try assumption.
        -- apply Forall2_app; [exact Is|]. constructor; [reflexivity|constructor].
        -- rewrite contours_app, Ic. apply Nat.add_0_r.
        -- intros r. destruct (r =? master); apply Icb.
      * exact NBs.
      * exact CB.
      * exists w', new. repeat split; try assumption. eapply pl_step; [|exact A]. constructor.
    + destruct (IH {| w_mem := w_mem w; w_plot := w_plot w; w_files := w_files w ++ saves_now dims master name w |} u l k s t cb) as (w' & new & A & B & C & E & F).
      * destruct I as [Im Is Ib It Ic Icb Ibar Imis]. split; cbn [w_mem w_plot]; assumption.
      * exact NBs.
      * exact CB.
      * cbn [w_files] in B. rewrite saves_master, <- app_assoc in B. cbn [app] in B. destruct I as [Im Is Ib It Ic Icb Ibar Imis].
        exists w', ((master, name, fig (w_plot w master)) :: new). split; [eapply pl_step; [|exact A]; constructor|].
        split; [exact B|]. cbn [should_save map colour_bars before_clear snd]. split; [|split].
        -- constructor; [|exact C]. repeat split; cbn [fst snd]. exact Is.
        -- rewrite Ib, E. reflexivity.
        -- rewrite It, F. reflexivity.
    + assert (NM : cb <> Missing). { intros ->. specialize (CB eq_refl). cbn in CB. discriminate CB. }
      assert (X : exists p, forall r, clear_fig (w_plot w r) = Some (p r) /\ shown (fig (p r)) = [] /\ bars (fig (p r)) = match cb with IsBar => pred (bars (fig (w_plot w r))) | _ => bars (fig (w_plot w r)) end /\ titled (fig (p r)) = false /\ cbar (p r) = IsNone).
      { exists (fun r => match clear_fig (w_plot w r) with Some q => q | None => w_plot w r end). intros r. unfold clear_fig. rewrite (i_cbar _ _ _ _ _ _ _ I r).
        destruct cb; [contradiction NM; reflexivity| |]; repeat split. }
      destruct X as (p & Hp).
      destruct (IH {| w_mem := w_mem w; w_plot := p; w_files := w_files w |} u [] 0%nat (s + pred k)%nat false IsNone) as (w' & new & A & B & C & E & F).
      * destruct I as [Im Is Ib It Ic Icb Ibar Imis]. destruct (Hp master) as (_ & P1 & P2 & P3 & _). split; cbn [w_mem w_plot].
        -- exact Im.
        -- rewrite P1. constructor.
        -- rewrite P2. destruct cb; [contradiction NM; reflexivity| |]; rewrite Ib.
           ++ assert (K : k = 0%nat). { destruct k; [reflexivity|]. destruct Ibar as [_ Ibar]. discriminate (Ibar (Nat.lt_0_succ _)). }
              rewrite K. cbn [pred]. rewrite Nat.add_0_r. reflexivity.
           ++ assert (K : (0 < k)%nat) by (apply Ibar; reflexivity). clear - K. lia.
        -- exact P3.
        -- reflexivity.
        -- intros r. apply Hp.
        -- split; [discriminate|intros K; inversion K].
        -- discriminate.
      * exact NBs.
      * discriminate.
      * exists w', new. repeat split; try assumption. eapply pl_step; [|exact A]. constructor. intros r. apply Hp.
    + set (m' := (fun r (ai : nat * Z) => if in_dec Nat.eq_dec (fst ai) [fio; xio; yio] then w_mem w r ai else v r ai) : Z -> @lmem T).
      destruct (IH {| w_mem := m'; w_plot := w_plot w; w_files := w_files w |} v l k s t cb) as (w' & new & A & B & C & E & F).
      * destruct I as [Im Is Ib It Ic Icb Ibar Imis]. split; cbn [w_mem w_plot]; try assumption.
        intros r a i N. unfold m'. cbn [fst]. destruct (in_dec Nat.eq_dec a [fio; xio; yio]); [contradiction|reflexivity].
      * exact NBs.
      * exact CB.
      * exists w', new. repeat split; try assumption. eapply pl_step; [|exact A]. constructor.
        -- intros r a i N. unfold m'. cbn [fst]. destruct (in_dec Nat.eq_dec a [fio; xio; yio]); [contradiction|reflexivity].
        -- intros r a i N. unfold m'. cbn [fst]. destruct (in_dec Nat.eq_dec a [fio; xio; yio]); [reflexivity|contradiction].
Qed.

Lemma begins_inv m : inv (begins m) m [] 0 0 true Missing.
Proof.
  split; cbn; try reflexivity; try constructor.
  - discriminate.
  - intros K. inversion K.
Qed.

(** clearing first *)
Lemma run_fails cs : forall (w : wd) , (forall r, cbar (w_plot w r) = Missing) -> contour_before_clear cs = false -> runs w cs None.
Proof.
  induction cs as [|c cs IH]; intros w M CB; [discriminate CB|]. destruct c as [x y f|d|name| |v]; cbn [contour_before_clear] in CB.
  - discriminate CB.
  - eapply pl_step; [constructor|]. apply IH; [|exact CB]. cbn [w_plot]. intros r. unfold only_on_master. destruct (r =? master); cbn [draw_data cbar]; apply M.
  - eapply pl_step; [constructor|]. apply IH; [|exact CB]. cbn [w_plot]. exact M.
  - apply pl_fail. eapply ps_fails with (r := master); [exact Hm|]. unfold clear_fig. rewrite M. reflexivity.
  - eapply pl_step.
    + apply ps_simulate with (m := fun r (ai : nat * Z) => if in_dec Nat.eq_dec (fst ai) [fio; xio; yio] then w_mem w r ai else v r ai).
      * intros r a i N. cbn [fst]. destruct (in_dec Nat.eq_dec a [fio; xio; yio]); [contradiction|reflexivity].
      * intros r a i N. cbn [fst]. destruct (in_dec Nat.eq_dec a [fio; xio; yio]); [reflexivity|contradiction].
    + apply IH; [|exact CB]. exact M.
Qed.

(** colour bars when at most one contour is drawn between clearings *)
Lemma bars_contours u cs : forall l k drawn, k = contours l -> (drawn = true <-> (0 < k)%nat) -> (k <= 1)%nat -> one_contour drawn cs = true ->
  colour_bars k 0 cs = map (fun f : Name * list (artist T D) => contours (snd f)) (should_save dims loc g none u l cs).
Proof.
  revert u. induction cs as [|c cs IH]; intros u l k drawn K Dr K1 O1; [reflexivity|].
  destruct c as [x y f|d|name| |v]; cbn [one_contour colour_bars should_save map snd] in *.
  - apply andb_true_iff in O1. destruct O1 as [O1 O2]. destruct drawn; [discriminate O1|].
    assert (k = 0%nat) as K0. { destruct k; [reflexivity|]. destruct Dr as [_ Dr]. discriminate (Dr (Nat.lt_0_succ _)). }
    apply IH with (drawn := true); [|split; [intros _; apply Nat.lt_0_succ|reflexivity]|rewrite K0; apply le_n|exact O2].
    rewrite contours_app, <- K. symmetry. apply Nat.add_1_r.
  - apply IH with (drawn := drawn); [|exact Dr|exact K1|exact O1]. rewrite contours_app, <- K. symmetry. apply Nat.add_0_r.
  - f_equal; [rewrite Nat.add_0_r; exact K|]. apply IH with (drawn := drawn); assumption.
  - replace (0 + pred k)%nat with 0%nat by (clear - K1; lia). apply IH with (drawn := false); [reflexivity| |apply Nat.le_0_l|exact O1].
    split; [discriminate|intros H; inversion H].
  - apply IH with (drawn := drawn); assumption.
Qed.
End P.
