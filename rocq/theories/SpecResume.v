(** Specification vocabulary for restarting a coupled simulation (C57). *)
From Coq Require Import QArith Permutation.
From Verif Require Import Base SpecGrid SpecVbf SpecCoupled Comm IoLag.
Open Scope Z_scope.

(** What a body's interactor has collected on its master: position mismatch, velocity mismatch, positions, of component c of node j. *)
Record collected (T : Type) := { co_pm : Z -> Z -> T; co_vm : Z -> Z -> T; co_pos : Z -> Z -> T }.
Arguments co_pm {T}. Arguments co_vm {T}. Arguments co_pos {T}.

Section H.
Context {T F : Type}.
(** The last pose in which body b met the flow. *)
Definition last_pose (b : nat) (es : list (event T F)) : option (pose T) :=
  fold_left (fun a e => match e with EFull b' p | ELag b' p => if Nat.eqb b' b then Some p else a | _ => a end) es None.
(** Body b has met the flow, and its interactor has not been advanced since. *)
Definition settled (b : nat) (es : list (event T F)) : bool :=
  fold_left (fun a e => match e with EFull b' _ | ELag b' _ => Nat.eqb b' b || a | EAdvance b' _ => negb (Nat.eqb b' b) && a | _ => a end) es false.
(** The flow has been advanced since a body last acted on it. *)
Definition cleared (es : list (event T F)) : bool :=
  fold_left (fun a e => match e with EFlow _ => true | EFull _ _ => false | _ => a end) es false.
(** In what follows body b meets the flow before its interactor is advanced. *)
Fixpoint meets_first (b : nat) (es : list (event T F)) : bool :=
  match es with
  | [] => true
  | EFull b' _ :: es' | ELag b' _ :: es' => Nat.eqb b' b || meets_first b es'
  | EAdvance b' _ :: es' => negb (Nat.eqb b' b) && meets_first b es'
  | _ :: es' => meets_first b es'
  end.
(** Body b meets the flow in es; the flow is advanced in es. *)
Definition meets (b : nat) (es : list (event T F)) : bool := existsb (fun e => match e with EFull b' _ | ELag b' _ => Nat.eqb b' b | _ => false end) es.
Definition flows (es : list (event T F)) : bool := existsb (fun e => match e with EFlow _ => true | _ => false end) es.

Variables (add sub mul : T -> T -> T) (z : T) (scale : T -> T) (sum : list T -> T) (dx shift : Q) (vels : list nat).
Variable flow_step : (Z -> list Z -> T) -> (nat -> list Z -> T) -> F -> nat -> list Z -> T.
Variables (bodies : nat -> vbody T) (carry : list Z -> list Z -> Z -> Z).
(** At the start of each meeting of a body with the flow its mismatches are collected; so they are those the body had before. *)
Fixpoint collects (s : cstate T) (x : nat -> option (collected T)) (es : list (event T F)) : nat -> option (collected T) :=
  match es with
  | [] => x
  | e :: es' =>
      collects (serial_event add sub mul z scale sum dx shift vels flow_step bodies carry s e)
        (match e with EFull b p | ELag b p => set_at x b (Some {| co_pm := pm (cs_st s b); co_vm := vm (cs_st s b); co_pos := p_pos p |}) | _ => x end) es'
  end.
End H.

(** The positions in a pose are the values of the stored numbers ([val]: the rational number a stored number is). *)
Definition readable {T} (val : T -> Q) (nc count : Z) (p : pose T) : Prop :=
  p_nodes p = map (fun j => map (fun c => val (p_pos p c j)) (zrange 0 nc)) (zrange 0 count).

(** Saving and loading Lagrangian fields: F is a file left by save; m' the memory after every rank has loaded F. *)
Section L.
Context {T : Type}.
Definition lag_saved_as (dim : Z) (adds : list ladd) (m : mem T) (F : lfile T) : Prop :=
  exists st es ws time, add_all dim adds lio_init = Some st /\ entries dim st = Some es /\ Permutation ws (lag_writes dim es m) /\ F = lag_saved st es time ws.
Definition lag_loaded_as (fill : T) (dim : Z) (adds : list ladd) (F : lfile T) (m m' : mem T) : Prop :=
  exists st, add_all dim adds lio_init = Some st /\ forall r, lag_load fill dim st F r (fun a => m (r, a)) = Some (fun a => m' (r, a)).
End L.
(** When a coupled simulation that has made the calls es can be saved: every body has met the flow; it was, when it last met the
    flow, where its stored positions say; no body has nc nodes (nc: number of components; mpi_io.py takes its fields for scalars,
    C33). *)
Record saveable {T F} (val : T -> Q) (nc : Z) (nb : nat) (bodies : nat -> vbody T) (es : list (event T F)) : Prop := {
  sv_met : forall b, (b < nb)%nat -> meets b es = true;
  sv_readable : forall b p, (b < nb)%nat -> last_pose b es = Some p -> readable val nc (v_count (bodies b)) p;
  sv_count : forall b, (b < nb)%nat -> v_count (bodies b) <> nc }.
(** When it can be saved between the calls es and the calls es1 without loss: no body's interactor has been advanced since the body
    last met the flow, and each body meets it again before its interactor is advanced; the flow has been advanced since a body last
    acted on it. *)
Record restartable {T F} (val : T -> Q) (nc : Z) (nb : nat) (bodies : nat -> vbody T) (es es1 : list (event T F)) : Prop := {
  rs_save : saveable val nc nb bodies es;
  rs_settled : forall b, (b < nb)%nat -> settled b es = true;
  rs_meets : forall b, (b < nb)%nat -> meets_first b es1 = true;
  rs_cleared : cleared es = true }.
(** What a restart gives back of the state s, if k has been collected: the flow; no accumulated forcing; the mismatches that were
    collected.  f0: whatever the forces are then. *)
Definition given_back {T} (z : T) (k : nat -> option (collected T)) (f0 : nat -> Z -> Z -> T) (s : cstate T) : cstate T :=
  {| cs_u := cs_u s; cs_f := fun _ _ => z; cs_map := cs_map s;
     cs_st := fun b => match k b with Some k => {| pm := co_pm k; vm := co_vm k; fo := f0 b |} | None => cs_st s b end |}.
(** The set of a body's slave ranks may be enumerated in any order. *)
Definition orders_ok (nb : nat) (master : nat -> Z) (ord : nat -> list Z -> list Z) : Prop :=
  forall b addr, (b < nb)%nat -> NoDup (ord b addr) /\ forall s, In s (ord b addr) <-> In s addr /\ s <> master b.
