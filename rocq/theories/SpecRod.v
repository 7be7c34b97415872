(** The drivers with a rod: what they call, and what an iteration does serially. *)
From Coq Require Import QArith.
From Verif Require Import Base SpecGrid SpecVbf SpecCoupled SpecLoop SpecAdaptive SpecDriver SpecMoving.
Open Scope Z_scope.

(** One call with body 0 at x, from the coupled simulation s (SpecCoupled): the coupled simulation and the bodies afterwards. *)
Section S.
Context {T F B L : Type}.
Variables (bodies : nat -> vbody T) (rules : nat -> body_rules T B L).
Variables (add sub mul : T -> T -> T) (z : T) (scale : T -> T) (sum : list T -> T) (dx shift : Q) (vels : list nat).
Variable flow_step : (Z -> list Z -> T) -> (nat -> list Z -> T) -> F -> nat -> list Z -> T.
Variable nc : Z.
Definition do_call (o : action T F) (y : cstate T * (nat -> B)) : cstate T * (nat -> B) :=
  let s' := serial_coupled add sub mul z scale sum dx shift vels flow_step bodies (fun _ _ j => j) (fst y) (call_of rules o (snd y)) in
  (s', moved rules o (fun b => b_loads (rules b) (snd y b) (listed nc (v_count (bodies b)) (fo (cs_st s' b)))) (snd y)).
Definition do_calls (l : list (action T F)) (y : cstate T * (nat -> B)) : cstate T * (nat -> B) := fold_left (fun y o => do_call o y) l y.
(** The rod's own step of length h: some calls that move the rod and compute its loads.  An iteration at time t with time step d: the flow's step in
    [steps d] substeps of the rod, of length [part d] each, after each of which the interactor is advanced by as much; then the rod acts on the
    flow; then the flow moves on, with the free stream of time t. *)
Context {W : Type}.
Variables (steps : W -> nat) (part : W -> T) (stages : T -> list (action T F)) (flow : W -> W -> F).
Definition rod_substep (h : T) (y : cstate T * (nat -> B)) : cstate T * (nat -> B) := do_call (OAdvance 0 h) (do_calls (stages h) y).
Definition rod_advance (t d : W) (y : cstate T * (nat -> B)) : cstate T * (nat -> B) :=
  do_call (OFlow (flow t d)) (do_call (OFull 0) (Nat.iter (steps d) (rod_substep (part d)) y)).
(** Where the rod is whenever it gets loads or acts on the flow: during some calls; during an iteration. *)
Fixpoint calls_where (l : list (action T F)) (y : cstate T * (nat -> B)) : list (nat * list (list Q)) :=
  match l with [] => [] | o :: l' => acting rules o (snd y) ++ calls_where l' (do_call o y) end.
Definition rod_where (t d : W) (y : cstate T * (nat -> B)) : list (nat * list (list Q)) :=
  let after i := Nat.iter i (rod_substep (part d)) y in
  flat_map (fun i => calls_where (stages (part d)) (after i)) (seq 0 (steps d)) ++ [(0%nat, b_nodes (rules 0%nat) (snd (after (steps d)) 0%nat))].
(** Those of a run, in order. *)
Variable step : sconfig W (cstate T * (nat -> B)) -> happening W (cstate T * (nat -> B)) -> sconfig W (cstate T * (nat -> B)) -> Prop.
Inductive rod_acted (s0 : sconfig W (cstate T * (nat -> B))) : list (happening W (cstate T * (nat -> B))) -> sconfig W (cstate T * (nat -> B)) -> list (nat * list (list Q)) -> Prop :=
| ra_nil : rod_acted s0 [] s0 []
| ra_snoc hs s l h s' : rod_acted s0 hs s l -> step s h s' -> rod_acted s0 (hs ++ [h]) s' (l ++ rod_where (s_time s) (h_dt h) (s_state s)).
End S.
(** The stages of the rod's step are calls of body 0: loads, or motion. *)
Definition rod_stages {T F} (stages : T -> list (action T F)) : Prop :=
  forall h, Forall (fun o => o = OLag 0 \/ exists dt, o = OMove 0 dt) (stages h).
