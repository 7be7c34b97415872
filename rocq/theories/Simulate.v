(** Two blocking programs of the same shape over different element types: if their local computations preserve a relation
    between elements, so do their runs.  (Proof device for C61.) *)
From Coq Require Import FunctionalExtensionality.
From Verif Require Import Base Comm Blocking SpecBlocking Spmd BlockFacts RunsTo.
Open Scope Z_scope.
Arguments run_lops : simpl never.

Section Sim.
Context {T1 T2 : Type}.
Variable rho : addr -> T1 -> T2 -> Prop.
Variable moved : addr -> Prop.
Hypothesis rho_moved : forall a b x y, moved a -> moved b -> rho a x y -> rho b x y.

Definition mrel (m1 : addr -> T1) (m2 : addr -> T2) : Prop := forall a, rho a (m1 a) (m2 a).
Inductive brel : @bop T1 -> @bop T2 -> Prop :=
| br_send d l : Forall moved l -> brel (BSend d l) (BSend d l)
| br_recv d l : Forall moved l -> brel (BRecv d l) (BRecv d l)
| br_local f1 f2 : (forall m1 m2, mrel m1 m2 -> mrel (f1 m1) (f2 m2)) -> brel (BLocal f1) (BLocal f2).
Definition crel (c1 : @config T1) (c2 : @config T2) : Prop :=
  (forall r, Forall2 brel (pr c1 r) (pr c2 r)) /\ (forall r, mrel (mm c1 r) (mm c2 r)) /\ (forall a b, ch c1 a b = [] /\ ch c2 a b = []).

Lemma write_rel d : forall (s : list addr) m1 m2 (v1 : list T1) (v2 : list T2), Forall moved d -> mrel m1 m2 -> Forall2 (fun x y => forall a, moved a -> rho a x y) v1 v2 -> mrel (write d v1 m1) (write d v2 m2).
Proof.
  intros s. induction d as [|a d IH]; intros m1 m2 v1 v2 Hd Hm Hv; [exact Hm|]. apply Forall_cons_iff in Hd as [Ha Hd].
  destruct Hv as [|x y v1 v2 H Hv]; [exact Hm|]. cbn. apply IH; auto. intros b. destruct (addr_dec b a) as [->|_]; [now apply H|apply Hm].
Qed.
Lemma read_rel s (m1 : addr -> T1) (m2 : addr -> T2) : Forall moved s -> mrel m1 m2 -> Forall2 (fun x y => forall a, moved a -> rho a x y) (map m1 s) (map m2 s).
Proof. induction 1 as [|a s Ha Hs IH]; intros Hm; [constructor|]. constructor; [intros b Hb; exact (rho_moved _ _ _ _ Ha Hb (Hm a))|auto]. Qed.
Lemma upd_pr (p1 : Z -> list (@bop T1)) (p2 : Z -> list (@bop T2)) a q1 q2 : (forall r, Forall2 brel (p1 r) (p2 r)) -> Forall2 brel q1 q2 -> forall r, Forall2 brel (upd p1 a q1 r) (upd p2 a q2 r).
Proof. intros H Hq r. unfold upd. destruct (r =? a); auto. Qed.
Lemma upd_mm (p1 : Z -> addr -> T1) (p2 : Z -> addr -> T2) a q1 q2 : (forall r, mrel (p1 r) (p2 r)) -> mrel q1 q2 -> forall r, mrel (upd p1 a q1 r) (upd p2 a q2 r).
Proof. intros H Hq r. unfold upd. destruct (r =? a); auto. Qed.

Lemma step_rel c1 c2 c2' : crel c1 c2 -> bstep false c2 c2' -> exists c1', bstep false c1 c1' /\ crel c1' c2'.
Proof.
  intros (Hp & Hm & Hc) St. inversion St as [a f p c Ep|a d p c Ep|a d p c Ep|a b d p c Ee Ep|b a d p v q c Ep Ec El|a b s d p q c Na Ep Eq Ec El]; subst c.
  - pose proof (Hp a) as Ha. rewrite Ep in Ha. inversion Ha as [|x y l1 l2 Hb Hl E1]. inversion Hb as [| |f1 f2 Hf]. subst.
    eexists. split; [apply st_local; symmetry; exact E1|]. repeat split; cbn [pr mm ch]; try apply Hc; [now apply upd_pr|apply upd_mm; auto].
  - pose proof (Hp a) as Ha. rewrite Ep in Ha. inversion Ha as [|x y l1 l2 Hb Hl E1]. inversion Hb. subst.
    eexists. split; [eapply st_snull; symmetry; exact E1|]. repeat split; cbn [pr mm ch]; try apply Hc; auto. now apply upd_pr.
  - pose proof (Hp a) as Ha. rewrite Ep in Ha. inversion Ha as [|x y l1 l2 Hb Hl E1]. inversion Hb. subst.
    eexists. split; [eapply st_rnull; symmetry; exact E1|]. repeat split; cbn [pr mm ch]; try apply Hc; auto. now apply upd_pr.
  - discriminate.
  - destruct (Hc a b) as [_ E]. rewrite E in Ec. discriminate.
  - pose proof (Hp a) as Ha. rewrite Ep in Ha. inversion Ha as [|x y l1 l2 Hb Hl E1]. inversion Hb. subst.
    pose proof (Hp b) as Hb2. rewrite Eq in Hb2. inversion Hb2 as [|x y l3 l4 Hb3 Hl2 E2]. inversion Hb3. subst.
    eexists. split; [eapply st_rdv; [exact Na|symmetry; exact E1|symmetry; exact E2|apply Hc|assumption]|].
    repeat split; cbn [pr mm ch]; try apply Hc; [apply upd_pr; auto; now apply upd_pr|]. apply upd_mm; auto. apply (write_rel d d); auto. now apply read_rel.
Qed.
Lemma steps_rel c2 c2' : bsteps false c2 c2' -> forall c1, crel c1 c2 -> exists c1', bsteps false c1 c1' /\ crel c1' c2'.
Proof.
  induction 1 as [c2|c2 c2a c2' St _ IH]; intros c1 H; [exists c1; split; [constructor|exact H]|].
  destruct (step_rel _ _ _ H St) as (d & S1 & H1). destruct (IH d H1) as (d' & S2 & H2). exists d'. split; [econstructor; eauto|exact H2].
Qed.
Theorem runs_rel n p1 p2 (m1 : Z -> addr -> T1) (m2 m2' : Z -> addr -> T2) : runs_to n p2 m2 m2' -> (forall r, 0 <= r < n -> Forall2 brel (p1 r) (p2 r)) -> (forall r, mrel (m1 r) (m2 r)) ->
  exists m1', runs_to n p1 m1 m1' /\ forall r, mrel (m1' r) (m2' r).
Proof.
  intros H Hp Hm. apply runs_to_sync in H. destruct (steps_rel _ _ H (start n p1 m1)) as (c & S1 & Hp' & Hm' & Hc').
  - split; [|split; [exact Hm|split; reflexivity]]. intros r. cbn. destruct (Z.leb_spec 0 r), (Z.ltb_spec r n); cbn; try constructor. apply Hp. lia.
  - exists (mm c). split; [|exact Hm']. apply runs_to_intro. replace (stop (mm c)) with c; [exact S1|]. destruct c as [p m k]. cbn in *. unfold stop. f_equal.
    + apply functional_extensionality. intros r. specialize (Hp' r). now inversion Hp'.
    + apply functional_extensionality. intros a. apply functional_extensionality. intros b. apply Hc'.
Qed.

(** Local computations. *)
Definition lrel (o1 : @lop T1) (o2 : @lop T2) : Prop := la o1 = la o2 /\ forall m1 m2, mrel m1 m2 -> rho (la o1) (lf o1 m1) (lf o2 m2).
Lemma lops_rel l1 l2 : Forall2 lrel l1 l2 -> forall m1 m2, mrel m1 m2 -> mrel (run_lops l1 m1) (run_lops l2 m2).
Proof.
  unfold run_lops. induction 1 as [|o1 o2 l1 l2 [E H] _ IH]; intros m1 m2 Hm; [exact Hm|]. cbn. apply IH. intros a. unfold lop1. rewrite <- E. destruct (addr_eq a (la o1)) as [->|_]; auto.
Qed.
End Sim.
Lemma Forall2_flat {A B C} (R : B -> C -> Prop) (f : A -> list B) (g : A -> list C) l : (forall x, In x l -> Forall2 R (f x) (g x)) -> Forall2 R (flat_map f l) (flat_map g l).
Proof. induction l as [|x l IH]; intros H; cbn; [constructor|]. apply Forall2_app; [apply H; now left|apply IH; intros; apply H; now right]. Qed.
Lemma Forall2_same {A B C} (R : B -> C -> Prop) (f : A -> B) (g : A -> C) l : (forall x, In x l -> R (f x) (g x)) -> Forall2 R (map f l) (map g l).
Proof. induction l as [|x l IH]; intros H; cbn; constructor; [apply H; now left|apply IH; intros; apply H; now right]. Qed.
