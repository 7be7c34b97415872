(** Proofs about the rod drivers' script. *)
From Coq Require Import QArith.
From Verif Require Import Base SpecGrid SpecVbf SpecCoupled SpecLoop SpecAdaptive SpecDriver SpecMoving SpecRod Rod.
Open Scope Z_scope.

Lemma iter_same {A} (f h : A -> A) n x : (forall y, f y = h y) -> Nat.iter n f x = Nat.iter n h x.
Proof. intros H. induction n as [|n IH]; [reflexivity|]. simpl. rewrite IH. apply H. Qed.
Section S.
Context {T F B L V W : Type}.
Variables (nc : Z) (N : list Z) (Fs : list nat) (bodies : nat -> vbody T) (rules : nat -> body_rules T B L) (look : list (list T) -> V).
Variables (add sub mul : T -> T -> T) (z : T) (scale : T -> T) (sum : list T -> T) (dx shift : Q) (vels : list nat).
Variable flow_step : (Z -> list Z -> T) -> (nat -> list Z -> T) -> F -> nat -> list Z -> T.
Notation doc := (do_calls bodies rules add sub mul z scale sum dx shift vels flow_step nc).
Notation loop sc := (serial_loop nc N Fs bodies rules sc look add sub mul z scale sum dx shift vels flow_step).
Lemma loop_list (l : list (action T F)) x : forall k, (k <= length l)%nat ->
  let y := loop (fun seen : list V => nth (length seen) l OGhost) k (entering x) in
  (l_sim y, l_body y) = doc (firstn k l) x /\ length (l_seen y) = k.
Proof.
  induction k as [|k IH]; intros H; cbv zeta in *.
  - split; [destruct x; reflexivity|reflexivity].
  - destruct (IH ltac:(lia)) as [E Hl]. cbn [serial_loop]. set (y := loop _ k (entering x)) in *.
    unfold serial_loop1. cbn [l_sim l_body l_seen]. rewrite Hl. split; [|rewrite app_length, Hl; cbn; lia].
    assert (Ef : firstn (S k) l = firstn k l ++ [nth k l OGhost]).
    { clear -H. revert l H. induction k as [|k IH]; intros [|a l] H; cbn in *; try lia; [reflexivity|]. f_equal. now apply IH, le_S_n. }
    rewrite Ef. unfold do_calls. rewrite fold_left_app. fold (doc (firstn k l) x). rewrite <- E. reflexivity.
Qed.
Variables (steps : W -> nat) (part : W -> T) (stages : T -> list (action T F)) (flow : W -> W -> F).
Lemma do_app l l' x : doc (l ++ l') x = doc l' (doc l x).
Proof. apply fold_left_app. Qed.
Lemma do_repeat l n x : doc (concat (repeat l n)) x = Nat.iter n (doc l) x.
Proof.
  revert x. induction n as [|n IH]; intros x; [reflexivity|]. cbn [repeat concat]. rewrite do_app, IH. clear. induction n as [|n IH]; [reflexivity|]. cbn. now f_equal.
Qed.
Lemma rod_driven k t d x :
  driven nc N Fs bodies rules look (rod_num steps part stages flow) (rod_script steps part stages flow) add sub mul z scale sum dx shift vels flow_step k t d x =
  rod_advance bodies rules add sub mul z scale sum dx shift vels flow_step nc steps part stages flow t d x.
Proof.
  unfold driven. destruct (loop_list (rod_calls steps part stages flow t d) x (rod_num steps part stages flow k t d) (le_n _)) as [E _].
  cbv zeta in E. unfold rod_script. etransitivity; [exact E|]. unfold rod_num. rewrite firstn_all. unfold rod_calls. rewrite do_app, do_repeat.
  unfold rod_advance. cbn [do_calls fold_left]. f_equal. f_equal. apply iter_same. intros y. unfold rod_substep, substep_calls. rewrite do_app. reflexivity.
Qed.
Notation wh := (calls_where bodies rules add sub mul z scale sum dx shift vels flow_step nc).
Lemma where_app l l' x : wh (l ++ l') x = wh l x ++ wh l' (doc l x).
Proof. revert x. induction l as [|o l IH]; intros x; [reflexivity|]. cbn [app calls_where]. rewrite IH, app_assoc. reflexivity. Qed.
Lemma acts_list (l : list (action T F)) x : forall k, (k <= length l)%nat ->
  flat_map (fun j => let y := loop (fun seen : list V => nth (length seen) l OGhost) j (entering x) in acting rules (nth (length (l_seen y)) l OGhost) (l_body y)) (seq 0 k) = wh (firstn k l) x.
Proof.
  induction k as [|k IH]; intros H; [reflexivity|].
  assert (Ef : firstn (S k) l = firstn k l ++ [nth k l OGhost]).
  { clear -H. revert l H. induction k as [|k IH]; intros [|a l] H; cbn in *; try lia; [reflexivity|]. f_equal. now apply IH, le_S_n. }
  rewrite seq_S, flat_map_app, IH, Ef, where_app by lia. f_equal. cbn [flat_map plus calls_where]. f_equal.
  destruct (loop_list l x k ltac:(lia)) as [E El]. cbv zeta in *. rewrite El, <- E. reflexivity.
Qed.
Lemma where_repeat l n x : wh (concat (repeat l n)) x = flat_map (fun i => wh l (Nat.iter i (doc l) x)) (seq 0 n).
Proof.
  revert x. induction n as [|n IH]; intros x; [reflexivity|]. cbn [repeat concat seq flat_map]. rewrite where_app, IH. f_equal.
  rewrite <- seq_shift, flat_map_concat_map, (flat_map_concat_map _ (map S _)), map_map. f_equal. apply map_ext. intros i. f_equal.
  clear. induction i as [|i IH]; [reflexivity|]. simpl in *. now rewrite IH.
Qed.
Lemma rod_acts_where k t d x :
  acts nc N Fs bodies rules look (rod_num steps part stages flow) (rod_script steps part stages flow) add sub mul z scale sum dx shift vels flow_step k t d x =
  rod_where bodies rules add sub mul z scale sum dx shift vels flow_step nc steps part stages t d x.
Proof.
  unfold acts, rod_num. etransitivity; [exact (acts_list (rod_calls steps part stages flow t d) x (length (rod_calls steps part stages flow t d)) (le_n _))|]. rewrite firstn_all.
  unfold rod_calls. rewrite where_app, where_repeat, do_repeat. unfold rod_where. cbv zeta.
  assert (E : forall i, Nat.iter i (doc (substep_calls stages (part d))) x = Nat.iter i (rod_substep bodies rules add sub mul z scale sum dx shift vels flow_step nc stages (part d)) x).
  { intros i. apply iter_same. intros y. unfold rod_substep, substep_calls. rewrite do_app. reflexivity. }
  f_equal.
  - rewrite !flat_map_concat_map. f_equal. apply map_ext. intros i. rewrite E. unfold substep_calls. rewrite where_app. cbn [calls_where acting]. apply app_nil_r.
  - rewrite E. reflexivity.
Qed.
Lemma rod_good (P : F -> Prop) nb : rod_stages stages -> (forall t d, P (flow t d)) -> (0 < nb)%nat -> forall k t d (h : list V),
  match rod_script steps part stages flow k t d h with OAdvance b _ => (b < nb)%nat | OFlow s => P s | _ => True end.
Proof.
  intros Hs Hf Hn k t d h. unfold rod_script.
  assert (A : Forall (fun o => match o with OAdvance b _ => (b < nb)%nat | OFlow s => P s | _ => True end) (rod_calls steps part stages flow t d)).
  { unfold rod_calls. apply Forall_app. split.
    - assert (C : Forall (fun o : action T F => match o with OAdvance b _ => (b < nb)%nat | OFlow s => P s | _ => True end) (substep_calls stages (part d))).
      { apply Forall_app. split; [|repeat constructor; exact Hn]. eapply Forall_impl; [|apply Hs]. intros o [-> |[dt ->]]; exact I. }
      induction (steps d) as [|n IH]; cbn [repeat concat]; [constructor|]. apply Forall_app. now split.
    - repeat constructor. apply Hf. }
  destruct (nth_in_or_default (length h) (rod_calls steps part stages flow t d) OGhost) as [Hin | ->]; [|exact I].
  rewrite Forall_forall in A. exact (A _ Hin).
Qed.
End S.
