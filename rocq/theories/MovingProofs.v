(** Proofs for C70. *)
From Coq Require Import QArith.
From Verif Require Import Base SpecGrid SpecStep SpecLag SpecIB SpecVbf SpecBodies SpecReduce SpecCoupled SpecLoop SpecDiag SpecAdaptive SpecDriver SpecFixed SpecMoving Comm Blocking Spmd Lagrangian Vbf Coupled SpecTracks Loop Diagnostics Adaptive Driver.
From Verif Require LagProofs FixedProofs.
Open Scope Z_scope.

Lemma tell_split dx shift dims loc X l l' : tell_along dx shift dims loc X (l ++ l') -> tell_along dx shift dims loc X l /\ tell_along dx shift dims loc (last l X) l'.
Proof.
  revert X. induction l as [|Y l IH]; intros X H; [now split|]. cbn [app tell_along] in H. destruct H as [H1 H2]. destruct (IH _ H2) as [H3 H4]. split; [now split|].
  replace (last (Y :: l) X) with (last l Y); [exact H4|]. clear. revert X Y. induction l as [|Z l IH]; intros X Y; [reflexivity|]. change (last (Y :: Z :: l) X) with (last (Z :: l) X). rewrite <- (IH X Z), <- (IH Y Z). reflexivity.
Qed.
Lemma of_body_app b l l' : of_body b (l ++ l') = of_body b l ++ of_body b l'.
Proof. unfold of_body. now rewrite filter_app, map_app. Qed.
Lemma last_app {A} (l l' : list A) x : last (l ++ l') x = last l' (last l x).
Proof.
  revert x. induction l as [|y l IH]; intros x; [reflexivity|]. destruct l as [|y' l]; [|].
  - cbn [app last]. destruct l' as [|z l']; [reflexivity|]. change (last (y :: z :: l') x) with (last (z :: l') x). clear. revert z. induction l' as [|w l' IH]; intros z; [reflexivity|]. exact (IH w).
  - change (last ((y :: y' :: l) ++ l') x) with (last ((y' :: l) ++ l') x). change (last (y :: y' :: l) x) with (last (y' :: l) x). apply IH.
Qed.

(** *** When counts tell *)
Lemma one_way_counts (p q : Z) a a' : Forall2 (fun x y => y = x \/ (x = p /\ y = q)) a a' -> p <> q ->
  (length (filter (fun v => (v =? q)%Z) a) <= length (filter (fun v => (v =? q)%Z) a'))%nat /\ (length (filter (fun v => (v =? q)%Z) a) = length (filter (fun v => (v =? q)%Z) a') -> a' = a) /\ (a' = a \/ In q a').
Proof.
  intros H Hpq. induction H as [|x y a a' Hxy _ (I1 & I2 & I3)]; [auto|]. cbn [filter]. destruct Hxy as [->|[-> ->]].
  - destruct (x =? q); cbn [length]; (split; [clear - I1; lia|split; [intros E; f_equal; apply I2; clear - E; lia|destruct I3 as [->|I3]; [now left|right; now right]]]).
  - destruct (Z.eqb_spec p q) as [E|_]; [congruence|]. rewrite Z.eqb_refl. cbn [length]. split; [clear - I1; lia|]. split; [intros E; exfalso; clear - E I1; lia|right; now left].
Qed.
Lemma one_way_tells dx shift dims loc X Y : length X = length Y -> one_way dx shift dims loc X Y -> counts_tell dx shift dims loc X Y.
Proof.
  intros HL (p & q & H) a a' Ha Ha' Hc.
  assert (M : Forall2 (fun x y => y = x \/ (x = p /\ y = q)) a a').
  { clear Hc. revert Y a' HL H Ha'. induction Ha as [|x r X a [R1 R2] Ha IH]; intros Y a' HL H Ha'; inversion Ha' as [|y r' Y' b [S1 S2] Ha'' E1 E2]; subst; cbn in HL; try discriminate; constructor.
    - exact (H 0%nat x y eq_refl eq_refl r r' R1 S1 R2 S2).
    - apply (IH Y'); [congruence| |assumption]. intros j u v Hu Hv. exact (H (Datatypes.S j) u v Hu Hv). }
  destruct (Z.eq_dec p q) as [->|Ne]; [clear - M; induction M as [|x y a a' [->|[-> ->]]]; congruence|].
  destruct (one_way_counts p q a a' M Ne) as (C1 & C2 & [C3|C3]); [exact C3|]. apply C2.
  assert (Q : 0 <= q < zprod dims) by (clear - Ha' C3; induction Ha' as [|y r Y a' [S1 _] _ IH]; [destruct C3|]; destruct C3 as [->|C3]; [exact S1|exact (IH C3)]).
  specialize (Hc q Q). rewrite <- !LagProofs.count_eq in Hc. unfold local_num_lag_nodes in Hc. lia.
Qed.
Lemma one_rank_tells dx shift dims loc X Y : zprod dims = 1 -> length X = length Y -> counts_tell dx shift dims loc X Y.
Proof.
  intros H1 HL a a' Ha Ha' _. revert Y a' HL Ha'. induction Ha as [|x r X a [R1 _] Ha IH]; intros Y a' HL Ha'; inversion Ha' as [|y r' Y' b [S1 _] Ha'' E1 E2]; subst; cbn in HL; try discriminate; [reflexivity|].
  f_equal; [lia|]. apply (IH Y'); [congruence|assumption].
Qed.

Section M.
Context {T F F' B L V W : Type}.
Variables (dims loc : list Z) (Fs fs vels : list nat) (nb : nat) (actors : nat -> actor T) (rules : nat -> body_rules T B L) (look : list (list T) -> V).
Variables (num : nat -> W -> W -> nat) (script : nat -> W -> W -> list V -> action T F).
Variables (add sub mul : T -> T -> T) (z : T) (scale : T -> T) (sum : list T -> T) (dx shift : Q).
Variable flow_step : (Z -> list Z -> T) -> (nat -> list Z -> T) -> F -> nat -> list Z -> T.
Variables (ord : nat -> list Z -> list Z) (lifts : (list V -> F -> F') -> Prop) (flow_ok : F' -> Prop).
Hypothesis Hpos : (0 < dx)%Q.
Hypothesis HG : grid_ok dims loc.
Hypothesis Hauto : forall b, (b < nb)%nat -> a_auto (actors b) = true.
Hypothesis Hord : forall b a, (b < nb)%nat -> NoDup (ord b a) /\ forall s, In s (ord b a) <-> In s a /\ s <> a_master (actors b).
Notation blocks := (in_blocks dx shift dims loc).
Notation pl := (placed dx shift dims loc ord).
Notation pev := (placed_event dx shift dims loc ord).
(** What is asked of the position of a body. *)
Definition fine (p : nat * list (list Q)) : Prop :=
  (fst p < nb)%nat /\ Z.of_nat (length (snd p)) = v_count (a_body (actors (fst p))) /\
  stays_inside dx shift (global_size dims loc) (v_width (a_body (actors (fst p)))) (snd p) /\
  (a_local (actors (fst p)) = true -> blocks (snd p) (repeat (a_master (actors (fst p))) (length (snd p)))).
Lemma blocks_of p : fine p -> exists a, blocks (snd p) a /\ map_nodes false dims loc dx shift (Z.of_nat (length dims)) (snd p) = Mapped a.
Proof using Hpos HG.
  intros (_ & _ & Hin & _). pose proof (FixedProofs.inside_in_domain dims loc dx shift _ _ HG Hin) as D.
  destruct (LagProofs.map_in_domain false dims loc dx shift Hpos (snd p) HG D) as (a & E & F2). exists a. split; [|exact E].
  unfold in_blocks. clear - F2. induction F2; constructor; tauto.
Qed.
Lemma blocks_unique X a a' : Forall (in_domain dx shift dims loc) X -> blocks X a -> blocks X a' -> a = a'.
Proof using Hpos HG.
  intros D H H'. pose proof (FixedProofs.mapped_to dims loc dx shift X a Hpos HG H D) as E. rewrite (FixedProofs.mapped_to dims loc dx shift X a' Hpos HG H' D) in E. congruence.
Qed.
Lemma fine_domain p : fine p -> Forall (in_domain dx shift dims loc) (snd p).
Proof using HG. intros (_ & _ & Hin & _). exact (FixedProofs.inside_in_domain dims loc dx shift _ _ HG Hin). Qed.

(** Placed events and the positions they show. *)
Inductive shown : list (event T F') -> list (nat * list (list Q)) -> Prop :=
| sh_nil : shown [] []
| sh_adv b dt es l : (b < nb)%nat -> shown es l -> shown (EAdvance b dt :: es) l
| sh_flow s es l : flow_ok s -> shown es l -> shown (EFlow s :: es) l
| sh_ghost es l : shown es l -> shown (EGhost :: es) l
| sh_full b (p : pose T) es l : shown es l -> shown (EFull b (pl b p) :: es) ((b, p_nodes p) :: l)
| sh_lag b (p : pose T) es l : shown es l -> shown (ELag b (pl b p) :: es) ((b, p_nodes p) :: l).
Lemma shown_app es l es' l' : shown es l -> shown es' l' -> shown (es ++ es') (l ++ l').
Proof. intros H H'. induction H; cbn; try constructor; auto. Qed.

Lemma pose_legal b (p : pose T) : fine (b, p_nodes p) -> exists a, blocks (p_nodes p) a /\ p_address (pl b p) = a /\
  pose_ok dims loc dx shift (a_master (actors b)) (a_body (actors b)) (pl b p) /\ (a_local (actors b) = true -> a = repeat (a_master (actors b)) (Z.to_nat (v_count (a_body (actors b))))).
Proof using Hpos HG Hord.
  intros Hf. destruct (blocks_of _ Hf) as (a & Ba & E). cbn [snd] in *. exists a. split; [exact Ba|]. unfold placed. rewrite E. cbn [p_address]. split; [reflexivity|].
  pose proof (fine_domain _ Hf) as D. destruct Hf as (Hb & Hn & [I1 I2] & Hl). cbn [fst snd] in *. split.
  - split; cbn [p_nodes p_address p_order]; auto. split; [|split].
    + clear - Ba. unfold in_blocks in Ba. induction Ba; constructor; tauto.
    + now apply Hord.
    + rewrite <- Hn. f_equal. clear - Ba. unfold in_blocks in Ba. induction Ba; cbn; congruence.
  - intros E1. rewrite <- Hn, Nat2Z.id. exact (blocks_unique _ _ _ D Ba (Hl E1)).
Qed.

Lemma fresh_always es l : shown es l -> Forall fine l -> forall f, ghosts_ok actors f es.
Proof using Hauto.
  induction 1; intros Hl f; cbn [ghosts_ok]; auto; inversion Hl as [|? ? Hf Hl']; subst; (split; [rewrite Hauto; [reflexivity|apply Hf]|auto]).
Qed.
Lemma places_app (a : nat -> list Z) (es es' : list (event T F')) : places_after a (es ++ es') = places_after (places_after a es) es'.
Proof. unfold places_after. apply fold_left_app. Qed.

(** Legal calls, and the places of the nodes after them. *)
Lemma shown_legal es l : shown es l -> Forall fine l -> forall (a : nat -> list Z) (X : nat -> list (list Q)), (forall b, (b < nb)%nat -> blocks (X b) (a b)) ->
  (forall b, (b < nb)%nat -> tell_along dx shift dims loc (X b) (of_body b l)) ->
  Forall (event_ok dims loc nb actors dx shift flow_ok) es /\ moves_ok (zprod dims) a es /\ forall b, (b < nb)%nat -> blocks (last (of_body b l) (X b)) (places_after a es b).
Proof using Hpos HG Hord.
  assert (K : forall b (p : pose T) es l (e : event T F'), (e = EFull b (pl b p) \/ e = ELag b (pl b p)) ->
     (Forall fine l -> forall (a : nat -> list Z) (X : nat -> list (list Q)), (forall b, (b < nb)%nat -> blocks (X b) (a b)) -> (forall b, (b < nb)%nat -> tell_along dx shift dims loc (X b) (of_body b l)) ->
        Forall (event_ok dims loc nb actors dx shift flow_ok) es /\ moves_ok (zprod dims) a es /\ forall b, (b < nb)%nat -> blocks (last (of_body b l) (X b)) (places_after a es b)) ->
     Forall fine ((b, p_nodes p) :: l) -> forall (a : nat -> list Z) (X : nat -> list (list Q)), (forall b, (b < nb)%nat -> blocks (X b) (a b)) ->
     (forall b', (b' < nb)%nat -> tell_along dx shift dims loc (X b') (of_body b' ((b, p_nodes p) :: l))) ->
     Forall (event_ok dims loc nb actors dx shift flow_ok) (e :: es) /\ moves_ok (zprod dims) a (e :: es) /\
     forall b', (b' < nb)%nat -> blocks (last (of_body b' ((b, p_nodes p) :: l)) (X b')) (places_after a (e :: es) b')).
  { intros b p es' l' e He IH Hl a X Ha Ht. inversion Hl as [|? ? Hf Hl']; subst. destruct (pose_legal b p Hf) as (ad & B1 & B2 & B3 & B4). pose proof (proj1 Hf) as Hb. cbn [fst] in Hb.
    assert (T0 : counts_tell dx shift dims loc (X b) (p_nodes p) /\ tell_along dx shift dims loc (p_nodes p) (of_body b l')).
    { specialize (Ht b Hb). unfold of_body in Ht. cbn [filter fst] in Ht. rewrite Nat.eqb_refl in Ht. exact Ht. }
    destruct (IH Hl' (set_at a b ad) (set_at X b (p_nodes p))) as (C1 & C2 & C3).
    - intros b' Hb'. unfold set_at. destruct (Nat.eqb_spec b' b) as [->|]; auto.
    - intros b' Hb'. unfold set_at. specialize (Ht b' Hb'). destruct (Nat.eqb_spec b' b) as [->|Ne]; [apply T0|]. unfold of_body in *. cbn [filter fst] in Ht.
      destruct (Nat.eqb_spec b b') as [E0|_]; [congruence|exact Ht].
    - assert (EV : event_ok dims loc nb actors dx shift flow_ok e /\ moves_ok (zprod dims) a (e :: es') /\ places_after a (e :: es') = places_after (set_at a b ad) es').
      { destruct He as [-> | ->]; (split; [cbn [event_ok]; split; [exact Hb|]; split; [exact B3|]; rewrite B2; exact B4|]); (split; [|unfold places_after; cbn [fold_left]; rewrite B2; reflexivity]);
          cbn [moves_ok moves_change_counts]; rewrite B2; (split; [split; [|exact I]; intros Hc; exact (proj1 T0 (a b) ad (Ha b Hb) B1 Hc)|exact C2]). }
      destruct EV as (E1 & E2 & E3). split; [constructor; assumption|]. split; [exact E2|]. intros b' Hb'. rewrite E3. specialize (C3 b' Hb'). unfold of_body in *. cbn [filter fst] in *. unfold set_at at 1 in C3.
      destruct (Nat.eqb_spec b b') as [->|Ne].
      + rewrite Nat.eqb_refl in C3. cbn [map snd]. destruct (map snd (filter (fun q => Nat.eqb (fst q) b') l')) as [|y r] eqn:Er; [exact C3|]. change (last (p_nodes p :: y :: r) (X b')) with (last (y :: r) (X b')).
        replace (last (y :: r) (X b')) with (last (y :: r) (p_nodes p)); [exact C3|]. clear. revert y. induction r as [|w r IH]; intros y; [reflexivity|]. exact (IH w).
      + destruct (Nat.eqb_spec b' b) as [E0|_]; [congruence|]. exact C3. }
  induction 1 as [|b dt es l Hb H IH|s es l Hs H IH|es l H IH|b p es l H IH|b p es l H IH]; intros Hl a X Ha Ht.
  - split; [constructor|]. split; [exact I|]. exact Ha.
  - destruct (IH Hl a X Ha Ht) as (C1 & C2 & C3). split; [constructor; assumption|]. split; [exact C2|exact C3].
  - destruct (IH Hl a X Ha Ht) as (C1 & C2 & C3). split; [constructor; assumption|]. split; [exact C2|exact C3].
  - destruct (IH Hl a X Ha Ht) as (C1 & C2 & C3). split; [constructor; [exact I|assumption]|]. split; [exact C2|exact C3].
  - exact (K b p es l _ (or_introl eq_refl) IH Hl a X Ha Ht).
  - exact (K b p es l _ (or_intror eq_refl) IH Hl a X Ha Ht).
Qed.

(** The calls of an iteration. *)
Notation nc := (Z.of_nat (length fs)).
Notation N := (global_size dims loc).
Notation bodies := (fun b => a_body (actors b)).
Hypothesis Hscript : forall k t d h, match script k t d h with OAdvance b _ => (b < nb)%nat | OFlow s => forall lift h', lifts lift -> flow_ok (lift h' s) | _ => True end.
Notation sacts := (acts nc N Fs bodies rules look num script add sub mul z scale sum dx shift vels flow_step).
Notation calls := (driver_calls add sub mul z scale sum dx shift dims loc vels Fs fs actors rules num script look ord flow_step).
Lemma calls_shown (lift : list V -> F -> F') s d : lifts lift -> shown (calls lift s d) (sacts (s_count s) (s_time s) d (s_state s)).
Proof using Hscript.
  intros Hlift. unfold driver_calls, acts. set (k := s_count s). set (t := s_time s). set (e := entering (s_state s)). induction (num k t d) as [|j IH]; [constructor|].
  rewrite seq_S, flat_map_app. cbn [placed_calls Nat.add]. apply shown_app; [exact IH|]. cbn [flat_map]. rewrite app_nil_r. cbv zeta.
  set (y := serial_loop nc N Fs bodies rules (script k t d) look add sub mul z scale sum dx shift vels flow_step j e).
  pose proof (Hscript k t d (l_seen y)) as HS. destruct (script k t d (l_seen y)) as [b|b|b dt|b dt|f|]; cbn [call_of map placed_event acting].
  - apply (sh_full b (pose_of rules b (l_body y b))). constructor.
  - apply (sh_lag b (pose_of rules b (l_body y b))). constructor.
  - constructor.
  - constructor; [exact HS|constructor].
  - constructor; [now apply HS|constructor].
  - constructor. constructor.
Qed.

(** The run. *)
Variable step : sconfig W (cstate T * (nat -> B)) -> happening W (cstate T * (nat -> B)) -> sconfig W (cstate T * (nat -> B)) -> Prop.
Variables (s0 : sconfig W (cstate T * (nat -> B))) (a0 : nat -> list Z) (X0 : nat -> list (list Q)).
Notation sacted := (acted nc N Fs bodies rules look num script add sub mul z scale sum dx shift vels flow_step step s0).
Hypothesis Hstart : forall b, (b < nb)%nat -> blocks (X0 b) (a0 b).
Hypothesis Hrun : forall hs s l, sacted hs s l -> Forall fine l /\ forall b, (b < nb)%nat -> tell_along dx shift dims loc (X0 b) (of_body b l).
Notation prun := (placed_run add sub mul z scale sum dx shift dims loc vels Fs fs actors rules num script look ord lifts flow_step step).
Lemma run_places hs s a : prun s0 a0 hs s a -> exists l, sacted hs s l /\ forall b, (b < nb)%nat -> blocks (last (of_body b l) (X0 b)) (a b).
Proof using Hpos HG Hord Hscript Hstart Hrun.
  induction 1 as [|hs s a h s' lift R (l & IH1 & IH2) I Hl]; [exists []; split; [constructor|exact Hstart]|].
  exists (l ++ sacts (s_count s) (s_time s) (h_dt h) (s_state s)). pose proof (at_snoc _ _ _ _ _ _ _ _ _ _ _ _ _ _ _ _ _ _ _ s0 hs s l h s' IH1 I) as A. split; [exact A|].
  destruct (Hrun _ _ _ A) as [A1 A2]. apply Forall_app in A1 as [_ A1].
  destruct (shown_legal _ _ (calls_shown lift s (h_dt h) Hl) A1 a (fun b => last (of_body b l) (X0 b)) IH2) as (_ & _ & C).
  - intros b Hb. specialize (A2 b Hb). rewrite of_body_app in A2. exact (proj2 (tell_split _ _ _ _ _ _ _ A2)).
  - intros b Hb. rewrite of_body_app, last_app. exact (C b Hb).
Qed.
Lemma moving_legal hs s a h s' (lift : list V -> F -> F') : prun s0 a0 hs s a -> step s h s' -> lifts lift ->
  Forall (event_ok dims loc nb actors dx shift flow_ok) (calls lift s (h_dt h)) /\ ghosts_ok actors false (calls lift s (h_dt h)) /\ moves_ok (zprod dims) a (calls lift s (h_dt h)).
Proof using Hpos HG Hauto Hord Hscript Hstart Hrun.
  intros R I Hl. destruct (run_places hs s a R) as (l & L1 & L2). pose proof (at_snoc _ _ _ _ _ _ _ _ _ _ _ _ _ _ _ _ _ _ _ s0 hs s l h s' L1 I) as A.
  destruct (Hrun _ _ _ A) as [A1 A2]. apply Forall_app in A1 as [_ A1]. pose proof (calls_shown lift s (h_dt h) Hl) as Sh.
  destruct (shown_legal _ _ Sh A1 a (fun b => last (of_body b l) (X0 b)) L2) as (C1 & C2 & _).
  - intros b Hb. specialize (A2 b Hb). rewrite of_body_app in A2. exact (proj2 (tell_split _ _ _ _ _ _ _ A2)).
  - split; [exact C1|]. split; [exact (fresh_always _ _ Sh A1 false)|exact C2].
Qed.
End M.
