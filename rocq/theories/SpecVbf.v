(** Specification of the virtual boundary forcing history, per node, without
    any notion of ranks. *)
From Verif Require Import Base SpecLag.

Section S.
Context {T : Type}.
Variables (add sub mul : T -> T -> T) (z stiff damp : T).

(** What the user does: compute an interaction (body velocity and flow velocity
    of every component of every node at that moment), or advance by dt. *)
Inductive event := Interact (body flow : Z -> Z -> T) | Advance (dt : T).

(** Position mismatch, velocity mismatch and forcing of component c of node j. *)
Record node_state := { pm : Z -> Z -> T; vm : Z -> Z -> T; fo : Z -> Z -> T }.
Definition ev1 (s : node_state) (e : event) : node_state :=
  match e with
  | Interact body flow =>
      let v := fun c j => sub (flow c j) (body c j) in
      {| pm := pm s; vm := v; fo := fun c j => add (mul stiff (pm s c j)) (mul damp (v c j)) |}
  | Advance dt => {| pm := fun c j => add (pm s c j) (mul dt (vm s c j)); vm := vm s; fo := fo s |}
  end.
Definition at_rest : node_state := {| pm := fun _ _ => z; vm := fun _ _ => z; fo := fun _ _ => z |}.
Definition history (es : list event) : node_state := fold_left ev1 es at_rest.

(** The position mismatch is the (forward Euler) time integral of the velocity
    mismatch: sum of dt times the latest velocity mismatch. *)
Fixpoint euler_integral (v : T) (es : list event) (c j : Z) (acc : T) : T :=
  match es with
  | [] => acc
  | Interact body flow :: es' => euler_integral (sub (flow c j) (body c j)) es' c j acc
  | Advance dt :: es' => euler_integral v es' c j (add acc (mul dt v))
  end.
Lemma history_integral es c j : pm (history es) c j = euler_integral z es c j z.
Proof.
  unfold history. assert (G : forall s v acc, vm s c j = v -> pm s c j = acc -> pm (fold_left ev1 es s) c j = euler_integral v es c j acc); [|now apply G].
  induction es as [|[b f|dt] es IH]; intros s v acc <- <-; cbn [fold_left euler_integral]; auto; now apply IH.
Qed.
End S.

(** ** Mappings of nodes to ranks along a history *)
(** Every one of N nodes is on one of n ranks, and [ord] enumerates the ranks
    other than the master that have nodes. *)
Definition mapping_ok (n master N : Z) (addr ord : list Z) : Prop :=
  Forall (fun r => 0 <= r < n) addr /\ (NoDup ord /\ forall s, In s ord <-> In s addr /\ s <> master) /\ Z.of_nat (length addr) = N.
(** Whenever a mapping differs from the previous one, some rank's node count
    differs too. *)
Fixpoint moves_change_counts (n : Z) (a : list Z) (l : list (list Z)) : Prop :=
  match l with
  | [] => True
  | a' :: l' => ((forall r, 0 <= r < n -> node_count a' r = node_count a r) -> a' = a) /\ moves_change_counts n a' l'
  end.

(** ** The exact history, for arbitrary moves *)
(** Place of node j in a list of nodes. *)
Fixpoint place_in (j : Z) (l : list Z) : nat := match l with [] => 0%nat | x :: l' => if x =? j then 0%nat else S (place_in j l') end.
(** The node that, under mapping a, was stored at the place (rank and slot)
    where mapping a' stores node j. *)
Definition occupant_before (a a' : list Z) (j : Z) : Z :=
  let r := nth (Z.to_nat j) a' (-1) in nth (place_in j (nodes_of a' r)) (nodes_of a r) (-1).
Definition same_counts (n : Z) (a a' : list Z) : bool := forallb (fun r => node_count a' r =? node_count a r) (zrange 0 n).
(** Whose accumulated mismatch node j continues with when the mapping becomes
    a': its own, unless every rank's count is unchanged. *)
Definition continues (n : Z) (a a' : list Z) (j : Z) : Z := if same_counts n a a' then occupant_before a a' j else j.

Section M.
Context {T : Type}.
Variables (add sub mul : T -> T -> T) (z stiff damp : T) (n : Z).
Inductive mevent := MInteract (a' : list Z) (body flow : Z -> Z -> T) | MAdvance (dt : T).
Definition mev1 (p : list Z * @node_state T) (e : mevent) : list Z * @node_state T :=
  let (a, s) := p in
  match e with
  | MInteract a' body flow =>
      (a', ev1 add sub mul stiff damp {| pm := fun c j => pm s c (continues n a a' j); vm := vm s; fo := fo s |} (Interact body flow))
  | MAdvance dt => (a, ev1 add sub mul stiff damp s (Advance dt))
  end.
Definition mapped_history (a0 : list Z) (es : list mevent) : list Z * @node_state T := fold_left mev1 es (a0, at_rest z).
End M.
