(** A body that stays where it is, inside the domain. *)
From Coq Require Import QArith.
From Verif Require Import Base SpecGrid SpecStep SpecLag SpecIB.
Open Scope Z_scope.

(** Nodes X with a kernel of the given width, in a domain of N cells: every node lies in the domain, and the cells it reaches
    are cells of the domain off its outermost layer. *)
Definition stays_inside (dx shift : Q) (N : list Z) (width : Z) (X : list (list Q)) : Prop :=
  Forall (fun x => in_cells dx (map (fun _ => 0) N) N (rel shift x)) X /\
  Forall (fun x => Forall (fun P => inb N P /\ edgeb false N P = false) (support_points (q_cell dx shift) width x)) X.
