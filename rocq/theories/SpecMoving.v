(** Where the bodies of a coupled driver are, in the serial run, whenever they act on the flow or are acted upon. *)
From Coq Require Import QArith.
From Verif Require Import Base SpecGrid SpecStep SpecLag SpecIB SpecVbf SpecCoupled SpecLoop SpecAdaptive SpecDriver.
Open Scope Z_scope.

(** The serial calls at which the forces of a body are computed: which body, and where its nodes are. *)
Section S.
Context {T F B L V W : Type}.
Variables (nc : Z) (N : list Z) (Fs : list nat) (bodies : nat -> vbody T) (rules : nat -> body_rules T B L) (look : list (list T) -> V).
Variables (num : nat -> W -> W -> nat) (script : nat -> W -> W -> list V -> action T F).
Variables (add sub mul : T -> T -> T) (z : T) (scale : T -> T) (sum : list T -> T) (dx shift : Q) (vels : list nat).
Variable flow_step : (Z -> list Z -> T) -> (nat -> list Z -> T) -> F -> nat -> list Z -> T.
Definition acting (o : action T F) (x : nat -> B) : list (nat * list (list Q)) :=
  match o with OFull b | OLag b => [(b, b_nodes (rules b) (x b))] | _ => [] end.
(** Those of iteration k, at time t with time step d, from flow and bodies x. *)
Definition acts (k : nat) (t d : W) (x : cstate T * (nat -> B)) : list (nat * list (list Q)) :=
  flat_map (fun j => let y := serial_loop nc N Fs bodies rules (script k t d) look add sub mul z scale sum dx shift vels flow_step j (entering x) in
                     acting (script k t d (l_seen y)) (l_body y)) (seq 0 (num k t d)).
(** Those of a run of the driver, in order. *)
Variable step : sconfig W (cstate T * (nat -> B)) -> happening W (cstate T * (nat -> B)) -> sconfig W (cstate T * (nat -> B)) -> Prop.
Inductive acted (s0 : sconfig W (cstate T * (nat -> B))) : list (happening W (cstate T * (nat -> B))) -> sconfig W (cstate T * (nat -> B)) -> list (nat * list (list Q)) -> Prop :=
| at_nil : acted s0 [] s0 []
| at_snoc hs s l h s' : acted s0 hs s l -> step s h s' -> acted s0 (hs ++ [h]) s' (l ++ acts (s_count s) (s_time s) (h_dt h) (s_state s)).
End S.
(** The successive positions of body b. *)
Definition of_body (b : nat) (l : list (nat * list (list Q))) : list (list (list Q)) := map snd (filter (fun p => Nat.eqb (fst p) b) l).

(** Nodes X lie in the blocks of the ranks a. *)
Definition in_blocks (dx shift : Q) (dims loc : list Z) (X : list (list Q)) (a : list Z) : Prop :=
  Forall2 (fun pos r => 0 <= r < zprod dims /\ in_block dx shift dims loc r pos) X a.
(** If no block's number of nodes changes from X to Y, no node has changed its block. *)
Definition counts_tell (dx shift : Q) (dims loc : list Z) (X Y : list (list Q)) : Prop :=
  forall a a', in_blocks dx shift dims loc X a -> in_blocks dx shift dims loc Y a' -> (forall r, 0 <= r < zprod dims -> node_count a' r = node_count a r) -> a' = a.
Fixpoint tell_along (dx shift : Q) (dims loc : list Z) (X : list (list Q)) (l : list (list (list Q))) : Prop :=
  match l with [] => True | Y :: l' => counts_tell dx shift dims loc X Y /\ tell_along dx shift dims loc Y l' end.
(** From X to Y the nodes that change their block all go from the block of p to the block of q. *)
Definition one_way (dx shift : Q) (dims loc : list Z) (X Y : list (list Q)) : Prop :=
  exists p q, forall j x y, nth_error X j = Some x -> nth_error Y j = Some y ->
    forall r r', 0 <= r < zprod dims -> 0 <= r' < zprod dims -> in_block dx shift dims loc r x -> in_block dx shift dims loc r' y -> r' = r \/ (r = p /\ r' = q).
