(** Serial specification of a simulation that couples a flow with immersed bodies. *)
From Coq Require Import QArith.
From Verif Require Import Base SpecGrid SpecGhostSum SpecStep SpecLag SpecIB SpecVbf SpecNS Lagrangian.
Open Scope Z_scope.

Section S.
Context {T F : Type}.
(** A body: stiffness and damping coefficient, half width of the delta function, the delta function itself,
    whether its interactor clears the forcing field first, number of nodes. *)
Record vbody := { v_stiff : T; v_damp : T; v_width : Z; v_weight : list Q -> T; v_reset : bool; v_count : Z }.
(** Where a body is at a call: node positions (also as stored numbers, component c of node j), velocity of component
    c of node j; the ranks the nodes are mapped to and the order in which the master talks to them. *)
Record pose := { p_nodes : list (list Q); p_pos : Z -> Z -> T; p_vel : Z -> Z -> T; p_address : list Z; p_order : list Z }.
(** What the user does: let body b act on the flow (interactor()); compute the forces on it
    (compute_flow_forces_and_torques); advance its interactor by dt; advance the flow; exchange the ghosts of the
    velocity (needed before an interactor built with auto_ghosting = False). *)
Inductive event := EFull (b : nat) (p : pose) | ELag (b : nat) (p : pose) | EAdvance (b : nat) (dt : T) | EFlow (s : F) | EGhost.

(** Flow arrays, accumulated forcing field (component, position), and each body's mapping and node state. *)
Record cstate := { cs_u : nat -> list Z -> T; cs_f : Z -> list Z -> T; cs_map : nat -> list Z; cs_st : nat -> @node_state T }.

Variables (add sub mul : T -> T -> T) (z : T) (scale : T -> T) (sum : list T -> T) (dx shift : Q).
Variable vels : list nat.                      (* velocity arrays, by component *)
Variable flow_step : (Z -> list Z -> T) -> (nat -> list Z -> T) -> F -> nat -> list Z -> T.
Variable bodies : nat -> vbody.
(** Whose accumulated mismatch node j continues with when the mapping changes from a to a' (SpecVbf: [continues]);
    ideally its own. *)
Variable carry : list Z -> list Z -> Z -> Z.

Definition set_at {A} (f : nat -> A) (b : nat) (v : A) : nat -> A := fun x => if Nat.eqb x b then v else f x.
(** Velocity of the flow at node j. *)
Definition flow_at (b : nat) (p : pose) (u : nat -> list Z -> T) (c j : Z) : T :=
  interpolated (q_cell dx shift) (q_dist dx shift) (v_width (bodies b)) scale sum mul (v_weight (bodies b)) (u (nth (Z.to_nat c) vels 0%nat)) (node_at (p_nodes p) j).
(** Node state of body b after an interaction. *)
Definition met (b : nat) (p : pose) (s : cstate) : @node_state T :=
  ev1 add sub mul (v_stiff (bodies b)) (v_damp (bodies b))
    {| pm := fun c j => pm (cs_st s b) c (carry (cs_map s b) (p_address p) j); vm := vm (cs_st s b); fo := fo (cs_st s b) |}
    (Interact (p_vel p) (flow_at b p (cs_u s))).
(** Forcing field after the forces [force] of body b's nodes have been spread. *)
Definition spread_onto (b : nat) (p : pose) (force : Z -> Z -> T) (f : Z -> list Z -> T) (c : Z) (P : list Z) : T :=
  add (if v_reset (bodies b) then z else f c P)
    (total add z (map (fun j => contribution (q_cell dx shift) (q_dist dx shift) (v_width (bodies b)) z mul (v_weight (bodies b)) (node_at (p_nodes p) j) (force c j) P)
      (zrange 0 (v_count (bodies b))))).
Definition serial_event (s : cstate) (e : event) : cstate :=
  match e with
  | EFull b p => {| cs_u := cs_u s; cs_f := spread_onto b p (fo (met b p s)) (cs_f s);
                    cs_map := set_at (cs_map s) b (p_address p); cs_st := set_at (cs_st s) b (met b p s) |}
  | ELag b p => {| cs_u := cs_u s; cs_f := cs_f s; cs_map := set_at (cs_map s) b (p_address p); cs_st := set_at (cs_st s) b (met b p s) |}
  | EAdvance b dt => {| cs_u := cs_u s; cs_f := cs_f s; cs_map := cs_map s;
                        cs_st := set_at (cs_st s) b (ev1 add sub mul (v_stiff (bodies b)) (v_damp (bodies b)) (cs_st s b) (Advance dt)) |}
  | EFlow x => {| cs_u := flow_step (cs_f s) (cs_u s) x; cs_f := fun _ _ => z; cs_map := cs_map s; cs_st := cs_st s |}
  | EGhost => s
  end.
Definition serial_coupled (s : cstate) (es : list event) : cstate := fold_left serial_event es s.
End S.
Arguments vbody : clear implicits. Arguments pose : clear implicits. Arguments event : clear implicits. Arguments cstate : clear implicits.

(** The accumulated forcing as the forcing of a time step. *)
Fixpoint component_of (f : nat) (l : list nat) : Z := match l with [] => 0 | x :: l' => if (x =? f)%nat then 0 else 1 + component_of f l' end.
Definition with_forcing2 {T} (fs : list nat) (frc : Z -> list Z -> T) (s : @ns2_step T) : @ns2_step T :=
  {| n2_adv := n2_adv s; n2_dif := n2_dif s; n2_frc := option_map (fun Kf => (fst Kf, fun f => frc (component_of f fs))) (n2_frc s); n2_free := n2_free s |}.
Definition with_forcing3 {T} (fs : list nat) (frc : Z -> list Z -> T) (s : @ns3_step T) : @ns3_step T :=
  {| n3_crs := n3_crs s; n3_upd := n3_upd s; n3_dif := n3_dif s; n3_frc := option_map (fun Kf => (fst Kf, fun f => frc (component_of f fs))) (n3_frc s); n3_free := n3_free s |}.

(** A legal pose: the nodes are in the domain, their supports inside it and off its outermost layer; the mapping is the
    one the nodes' positions give. *)
Record pose_ok {T} (dims loc : list Z) (dx shift : Q) (master : Z) (B : vbody T) (p : pose T) : Prop := {
  po_nodes : Forall (in_domain dx shift dims loc) (p_nodes p);
  po_count : Z.of_nat (length (p_nodes p)) = v_count B;
  po_support : Forall (fun x => Forall (fun P => inb (global_size dims loc) P /\ edgeb false (global_size dims loc) P = false)
                 (support_points (q_cell dx shift) (v_width B) x)) (p_nodes p);
  po_map : map_nodes false dims loc dx shift (Z.of_nat (length dims)) (p_nodes p) = Mapped (p_address p);
  po_order : mapping_ok (zprod dims) master (v_count B) (p_address p) (p_order p) }.
(** Along a history, whenever a body's mapping changes, some rank's node count changes too. *)
Fixpoint moves_ok {T F} (n : Z) (a : nat -> list Z) (es : list (event T F)) : Prop :=
  match es with
  | [] => True
  | EFull b p :: es' | ELag b p :: es' => moves_change_counts n (a b) [p_address p] /\ moves_ok n (set_at a b (p_address p)) es'
  | _ :: es' => moves_ok n a es'
  end.

(** Legal steps of the simulators with forcing (SpecNS), the forcing itself being what the bodies deposited. *)
Definition flow2_ok {T} (z : T) (w vx vy fx fy : nat) (s : @ns2_step T) : Prop :=
  ns2_shapes w vx vy fx fy s /\ match n2_frc s with Some (K, _) => quiet z 2 [fx; fy] 1 K | None => False end.
Definition flow3_ok {T} (z : T) (ws vs bs fs : list nat) (s : @ns3_step T) : Prop :=
  ns3_shapes ws vs bs fs s /\ match n3_frc s with Some (K, _) => forall K', in3 K' K -> quiet z 3 fs 1 K' | None => False end.

(** The same call, whatever the decomposition it runs on. *)
Inductive same_event {T F F'} (same_flow : F -> F' -> Prop) : event T F -> event T F' -> Prop :=
| same_full b p p' : p_nodes p = p_nodes p' -> p_vel p = p_vel p' -> same_event same_flow (EFull b p) (EFull b p')
| same_lag b p p' : p_nodes p = p_nodes p' -> p_vel p = p_vel p' -> same_event same_flow (ELag b p) (ELag b p')
| same_advance b dt : same_event same_flow (EAdvance b dt) (EAdvance b dt)
| same_eflow s s' : same_flow s s' -> same_event same_flow (EFlow s) (EFlow s')
| same_ghost : same_event same_flow EGhost EGhost.
(** A history without its ghost exchanges. *)
Definition calls {T F} (es : list (event T F)) : list (event T F) := filter (fun e => match e with EGhost => false | _ => true end) es.
(** States with the same flow, forcing and node states (the mappings belong to the decomposition). *)
Definition same_state {T} (s s' : cstate T) : Prop := cs_u s = cs_u s' /\ cs_f s = cs_f s' /\ cs_st s = cs_st s'.
