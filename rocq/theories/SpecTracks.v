(** What it means for a distributed memory to show the state of a serial coupled simulation. *)
From Coq Require Import QArith.
From Verif Require Import Base SpecGrid SpecStep SpecIB SpecVbf SpecBodies SpecCoupled Comm Blocking Vbf Coupled.
Open Scope Z_scope.

Section T.
Context {T : Type}.
Variables (z : T) (dims loc : list Z) (g : Z) (Fs fs : list nat) (nb : nat) (actors : nat -> actor T) (bufsz : list (list Z)).
(** Flow arrays Fs and forcing arrays fs show the serial values; each of the nb interactors has a legal mapping, the
    serial position and velocity mismatch of every node on the node's rank, and the serial forces on its master; the
    ghost-sum buffers are clear; with assume_data_locality the nodes are on the master. *)
Record tracks (ss : nat -> vb) (m : mem T) (s : cstate T) : Prop := {
  tr_flow : represents_ext false dims loc g Fs m (cs_u s);
  tr_forc : forc z dims loc g fs (cs_f s) (by_rank m);
  tr_node : forall b, (b < nb)%nat -> fstate (zprod dims) (Z.of_nat (length fs)) (a_master (actors b)) (a_arrays (actors b)) (v_count (a_body (actors b))) (ss b) (by_rank m) (cs_st s b);
  tr_map : forall b, (b < nb)%nat -> address (ss b) = cs_map s b;
  tr_bufs : forall b, (b < nb)%nat -> Forall2 (fun f sz => zero_buf z (zprod dims) f sz (by_rank m)) (a_bufs (actors b)) bufsz;
  tr_local : forall b, (b < nb)%nat -> a_local (actors b) = true -> address (ss b) = repeat (a_master (actors b)) (Z.to_nat (v_count (a_body (actors b)))) }.
(** No forcing on the outermost layer of the domain. *)
Definition off_edge (s : cstate T) : Prop := forall c P, inb (global_size dims loc) P -> edgeb false (global_size dims loc) P = true -> cs_f s c P = z.

(** Legal interactors: distinct arrays, all different from the simulator's arrays W; master ranks exist; the delta
    function fits in the ghost layer. *)
Definition actors_ok (W : list nat) : Prop :=
  NoDup (W ++ flat_map (fun b => actor_ids (actors b)) (seq 0 nb)) /\
  forall b, (b < nb)%nat -> 0 <= a_master (actors b) < zprod dims /\ 1 <= v_width (a_body (actors b)) <= g.
(** Legal events; [flow_ok] says which flow steps are.  With assume_data_locality the body is in its master's block. *)
Definition event_ok {F} (dx shift : Q) (flow_ok : F -> Prop) (e : event T F) : Prop :=
  match e with
  | EFull b p | ELag b p => (b < nb)%nat /\ pose_ok dims loc dx shift (a_master (actors b)) (a_body (actors b)) p /\
      (a_local (actors b) = true -> p_address p = repeat (a_master (actors b)) (Z.to_nat (v_count (a_body (actors b)))))
  | EAdvance b _ => (b < nb)%nat
  | EFlow s => flow_ok s
  | EGhost => True
  end.
(** Are the ghosts of the velocity up to date after an event?  A flow step makes them stale; an exchange, or an interactor
    with auto_ghosting, refreshes them. *)
Definition fresh_after {F} (fresh : bool) (e : event T F) : bool :=
  match e with EFull b _ | ELag b _ => a_auto (actors b) || fresh | EAdvance _ _ => fresh | EFlow _ => false | EGhost => true end.
(** Interactors without auto_ghosting are only called with ghosts that are up to date. *)
Fixpoint ghosts_ok {F} (fresh : bool) (es : list (event T F)) : Prop :=
  match es with
  | [] => True
  | e :: es' => match e with EFull b _ | ELag b _ => a_auto (actors b) || fresh = true | _ => True end /\ ghosts_ok (fresh_after fresh e) es'
  end.
End T.
