(** The drag history of a driver with an immersed body, serially: whenever the data timer is due, the time and the drag, computed
    from the force on the nodes along the first direction. *)
From Coq Require Import QArith.
From Verif Require Import Base SpecGrid SpecVbf SpecCoupled SpecLoop SpecAdaptive.
Open Scope Z_scope.

Section S.
Context {T F B L V W TI D : Type}.
(** the data timer; the body and its number of nodes; the sum over an array of forces; time and drag coefficient (output units) *)
Variables (plus : W -> W -> W) (timer : nat) (b : nat) (count : Z) (np_sum : list T -> T) (scaled : W -> TI) (coeff : T -> D).
(** The sum of the first components of the forces on the nodes of body b. *)
Definition total_force (x : cstate T * (nat -> B)) : T := np_sum (map (fo (cs_st (fst x) b) 0) (zrange 0 count)).
(** The rows of the history of a run that starts at time t. *)
Fixpoint drag_history (t : W) (hs : list (happening W (cstate T * (nat -> B)))) : list (TI * D) :=
  match hs with
  | [] => []
  | h :: hs' => (if nth timer (h_due h) false then [(scaled t, coeff (total_force (h_state h)))] else []) ++ drag_history (plus t (h_dt h)) hs'
  end.

(** The calls of an iteration of a driver with one body that stays where it is: advance its interactor by the time step,
    let it act on the flow, advance the flow. *)
Definition fixed_calls (value : W -> T) (step : nat -> W -> W -> F) (k : nat) (t d : W) (seen : list V) : action T F :=
  match seen with [] => OAdvance b (value d) | [_] => OFull b | _ => OFlow (step k t d) end.
Definition three (k : nat) (t d : W) : nat := 3%nat.

(** The force law for node j of body b: stiffness times accumulated mismatch plus damping times the velocity of flow u relative to the body. *)
Variables (bodies : nat -> vbody T) (rules : nat -> body_rules T B L).
Variables (add sub mul : T -> T -> T) (scale : T -> T) (sum : list T -> T) (dx shift : Q) (vels : list nat).
Definition force_law (mismatch : Z -> Z -> T) (u : nat -> list Z -> T) (x : B) (c j : Z) : T :=
  add (mul (v_stiff (bodies b)) (mismatch c j))
      (mul (v_damp (bodies b)) (sub (flow_at mul scale sum dx shift vels bodies b (pose_of rules b x) u c j) (b_vel (rules b) x c j))).
End S.
