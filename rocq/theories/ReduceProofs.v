(** Facts about reductions. *)
From Coq Require Import Permutation.
From Verif Require Import Base SpecGhostSum GhostSumHops SpreadProofs SpecReduce.

Lemma combines_nonempty {T} op (v : Z -> T) l x : combines op v l x -> l <> [].
Proof.
  induction 1 as [r|l1 l2 x y H1 I1 H2 I2|l1 l2 x P H1 I1]; [discriminate| |].
  - destruct l1; [contradiction|discriminate].
  - intros ->. apply Permutation_sym, Permutation_nil in P. contradiction.
Qed.
Lemma combines_total {T} (add : T -> T -> T) z (Hm : comm_monoid add z) v l x : combines add v l x -> x = total add z (map v l).
Proof.
  induction 1 as [r|l1 l2 x y H1 I1 H2 I2|l1 l2 x P H1 I1].
  - unfold total. cbn. symmetry. apply (cm_zero _ _ Hm).
  - rewrite map_app, total_app by auto. now rewrite I1, I2.
  - rewrite I1. apply total_perm; [exact Hm|]. now apply Permutation_map.
Qed.
(** Associative, commutative operations give the same value always. *)
Lemma combines_sel {T} (op : T -> T -> T) (le : T -> T -> Prop) v l x :
  (forall a b, op a b = a \/ op a b = b) -> (forall a b, le (op a b) a /\ le (op a b) b) -> (forall a b c, le a b -> le b c -> le a c) -> (forall a, le a a) ->
  combines op v l x -> (exists r, In r l /\ x = v r) /\ (forall r, In r l -> le x (v r)).
Proof.
  intros Hs Hl Ht Hr. induction 1 as [r|l1 l2 x y H1 [E1 I1] H2 [E2 I2]|l1 l2 x P H1 [E1 I1]].
  - split; [exists r; cbn; auto|]. intros r' [-> |[]]. apply Hr.
  - split.
    + destruct (Hs x y) as [-> | -> ]; [destruct E1 as (r & Hi & E)|destruct E2 as (r & Hi & E)]; exists r; rewrite in_app_iff; auto.
    + intros r Hi. apply in_app_iff in Hi. destruct (Hl x y) as [L1 L2]. destruct Hi as [Hi|Hi]; [exact (Ht _ _ _ L1 (I1 r Hi))|exact (Ht _ _ _ L2 (I2 r Hi))].
  - split.
    + destruct E1 as (r & Hi & E). exists r. split; [now apply (Permutation_in r P)|exact E].
    + intros r Hi. apply I1. now apply (Permutation_in r (Permutation_sym P)).
Qed.
