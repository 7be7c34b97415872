(** Specification of MPI reductions: the result of reducing one value per rank
    combines all of them, in any order and with any bracketing. *)
From Coq Require Import Permutation.
From Verif Require Import Base.

Inductive combines {T} (op : T -> T -> T) (v : Z -> T) : list Z -> T -> Prop :=
| comb_one r : combines op v [r] (v r)
| comb_two l1 l2 x y : combines op v l1 x -> combines op v l2 y -> combines op v (l1 ++ l2) (op x y)
| comb_perm l1 l2 x : Permutation l1 l2 -> combines op v l1 x -> combines op v l2 x.

(** reduce / allreduce over ranks 0 .. n-1: MPI chooses order and bracketing. *)
Definition reduces {T} (op : T -> T -> T) (n : Z) (v : Z -> T) (x : T) : Prop := combines op v (zrange 0 n) x.
