(** Where a Lagrangian node ends up, inside the domain or not. *)
From Coq Require Import QArith.
From Verif Require Import Base SpecGrid SpecLag.
Open Scope Z_scope.

(** One axis with P blocks of length L; x is the distance from the lower end of the domain.
    [axis_lands L P x k]: a node there is given to block k. *)
Inductive axis_lands (L : Q) (P : Z) (x : Q) : Z -> Prop :=
| al_inside k : 0 <= k < P -> (inject_Z k * L <= x)%Q -> (x < inject_Z (k + 1) * L)%Q -> axis_lands L P x k
  (* less than one block below the domain: the first block *)
| al_near : (- L < x)%Q -> (x < 0)%Q -> axis_lands L P x 0
  (* k blocks below it: the k-th block from the upper end *)
| al_below k : 1 <= k <= P -> (inject_Z (- (k + 1)) * L < x)%Q -> (x <= inject_Z (- k) * L)%Q -> axis_lands L P x (P - k).
Definition too_high (L : Q) (P : Z) (x : Q) : Prop := (inject_Z P * L <= x)%Q.
Definition too_low (L : Q) (P : Z) (x : Q) : Prop := (x <= inject_Z (- (P + 1)) * L)%Q.

Section S.
Variables (dims loc : list Z) (dx shift : Q).
(** On some axis, the node's coordinate satisfies R. *)
Definition on_some_axis (R : Q -> Z -> Q -> Prop) (pos : list Q) : Prop :=
  exists a P n x, nth_error dims a = Some P /\ nth_error loc a = Some n /\ nth_error (rel shift pos) a = Some x /\ R (dx * inject_Z n)%Q P x.
(** The node is given to rank r. *)
Definition lands_on (pos : list Q) (r : Z) : Prop :=
  exists cs, length cs = length dims /\ r = ravel dims cs /\
    forall a P n x c, nth_error dims a = Some P -> nth_error loc a = Some n -> nth_error (rel shift pos) a = Some x -> nth_error cs a = Some c ->
      axis_lands (dx * inject_Z n)%Q P x c.
End S.
