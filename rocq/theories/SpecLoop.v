(** Serial specification of a two-way coupled simulation: the bodies move under the forces of the flow, and the next
    call depends on what has happened so far. *)
From Coq Require Import QArith.
From Verif Require Import Base SpecGrid SpecVbf SpecCoupled.
Open Scope Z_scope.

Section S.
Context {T F B L W : Type}.
(** What the user's script does next: let body b act on the flow; compute the loads on body b, with which the body then
    moves on; move body b by itself; advance its interactor; advance the flow; exchange the velocity ghosts. *)
Inductive action := OFull (b : nat) | OLag (b : nat) | OMove (b : nat) (dt : T) | OAdvance (b : nat) (dt : T) | OFlow (s : F) | OGhost.
(** A body: positions of its nodes (also as stored numbers), velocities; loads from the forces on the nodes (listed
    by component, then node); its motion under loads, and by itself. *)
Record body_rules := { b_nodes : B -> list (list Q); b_pos : B -> Z -> Z -> T; b_vel : B -> Z -> Z -> T;
                       b_loads : B -> list T -> L; b_kick : B -> L -> B; b_drift : B -> T -> B }.

Variables (nc : Z) (N : list Z) (Fs : list nat) (bodies : nat -> vbody T) (rules : nat -> body_rules).
(** The script: the next call, from what it has seen after each call so far; what it sees is some function of the flow. *)
Variables (script : list W -> action) (look : list (list T) -> W).
(** All positions of the domain; values of the flow arrays there. *)
Definition positions : list (list Z) := map (unravel N) (zrange 0 (zprod N)).
Definition whole (u : nat -> list Z -> T) : list (list T) := map (fun f => map (u f) positions) Fs.
(** The forces on the nodes of a body, listed. *)
Definition listed (count : Z) (f : Z -> Z -> T) : list T := flat_map (fun c => map (f c) (zrange 0 count)) (zrange 0 nc).

(** The pose of a body, and the call to the coupled simulation (none, if a body just moves). *)
Definition pose_of (b : nat) (x : B) : pose T := {| p_nodes := b_nodes (rules b) x; p_pos := b_pos (rules b) x; p_vel := b_vel (rules b) x; p_address := []; p_order := [] |}.
Definition call_of (o : action) (x : nat -> B) : list (event T F) :=
  match o with
  | OFull b => [EFull b (pose_of b (x b))] | OLag b => [ELag b (pose_of b (x b))] | OMove _ _ => []
  | OAdvance b dt => [EAdvance b dt] | OFlow s => [EFlow s] | OGhost => [EGhost]
  end.
(** The bodies after a call: [load b] are the loads just computed. *)
Definition moved (o : action) (load : nat -> L) (x : nat -> B) : nat -> B :=
  match o with OLag b => set_at x b (b_kick (rules b) (x b) (load b)) | OMove b dt => set_at x b (b_drift (rules b) (x b) dt) | _ => x end.

(** Coupled simulation, bodies, what the script has seen. *)
Record lstate := { l_sim : cstate T; l_body : nat -> B; l_seen : list W }.
Variables (add sub mul : T -> T -> T) (z : T) (scale : T -> T) (sum : list T -> T) (dx shift : Q) (vels : list nat).
Variable flow_step : (Z -> list Z -> T) -> (nat -> list Z -> T) -> F -> nat -> list Z -> T.
Definition serial_loop1 (x : lstate) : lstate :=
  let o := script (l_seen x) in
  let s' := serial_coupled add sub mul z scale sum dx shift vels flow_step bodies (fun _ _ j => j) (l_sim x) (call_of o (l_body x)) in
  {| l_sim := s';
     l_body := moved o (fun b => b_loads (rules b) (l_body x b) (listed (v_count (bodies b)) (fo (cs_st s' b)))) (l_body x);
     l_seen := l_seen x ++ [look (whole (cs_u s'))] |}.
Fixpoint serial_loop (k : nat) (x : lstate) : lstate := match k with O => x | S k' => serial_loop1 (serial_loop k' x) end.
End S.
Arguments action : clear implicits. Arguments body_rules : clear implicits. Arguments lstate : clear implicits.

(** A body on a rank that is not its master's: it never gets loads ([none]). *)
Definition unloaded {T F B L} (rules : nat -> body_rules T B L) (none : L) (b : nat) (x : B) (o : action T F) : B :=
  match o with
  | OLag b' => if Nat.eqb b' b then b_kick (rules b) x none else x
  | OMove b' dt => if Nat.eqb b' b then b_drift (rules b) x dt else x
  | _ => x
  end.
