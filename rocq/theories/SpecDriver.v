(** One iteration of a driver that couples a flow with bodies, serially. *)
From Coq Require Import QArith.
From Verif Require Import Base SpecGrid SpecVbf SpecCoupled SpecLoop.
Open Scope Z_scope.

Section S.
Context {T F B L V W : Type}.
Variables (nc : Z) (N : list Z) (Fs : list nat) (bodies : nat -> vbody T) (rules : nat -> body_rules T B L) (look : list (list T) -> V).
(** The calls of iteration k, at time t with time step d: how many, and which (they may depend on what has been seen in
    the iteration). *)
Variables (num : nat -> W -> W -> nat) (script : nat -> W -> W -> list V -> action T F).
Variables (add sub mul : T -> T -> T) (z : T) (scale : T -> T) (sum : list T -> T) (dx shift : Q) (vels : list nat).
Variable flow_step : (Z -> list Z -> T) -> (nat -> list Z -> T) -> F -> nat -> list Z -> T.
(** The coupled simulation and the bodies, at the start of an iteration. *)
Definition entering (x : cstate T * (nat -> B)) : lstate T B V := {| l_sim := fst x; l_body := snd x; l_seen := [] |}.
Definition driven (k : nat) (t d : W) (x : cstate T * (nat -> B)) : cstate T * (nat -> B) :=
  let y := serial_loop nc N Fs bodies rules (script k t d) look add sub mul z scale sum dx shift vels flow_step (num k t d) (entering x) in (l_sim y, l_body y).
End S.
(** The ranks the bodies' nodes are mapped to, after some calls. *)
Definition places_after {T F} (a : nat -> list Z) (es : list (event T F)) : nat -> list Z :=
  fold_left (fun a e => match e with EFull b p | ELag b p => set_at a b (p_address p) | _ => a end) es a.
