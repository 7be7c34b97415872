(** What a reader of a program expects of its loggers, from the list of calls
    alone. *)
From Verif Require Import Base Logger.
Open Scope Z_scope.

(** The k-th logger object created by the calls: its level and echo list. *)
Definition created (es : list event) : list (Z * list Z) :=
  flat_map (fun e => match e with ENew lev ech => [(lev, ech)] | _ => [] end) es.
(** The level given to the logger object created last (0 if there is none). *)
Definition latest_level (es : list event) : Z := last (map fst (created es)) 0.
(** The elements at positions 1, 3, 5, ... of a list. *)
Fixpoint odd_positions {A} (l : list A) : list A := match l with _ :: y :: l' => y :: odd_positions l' | _ => [] end.
(** Handlers removed by a clean-up that works: all of them. *)
Definition emits_nothing_after_removal (rank : Z) (es : list event) : Prop :=
  handlers (reg (history rank (es ++ [ERemove]))) = [].
