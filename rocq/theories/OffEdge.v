(** Legal calls keep the forcing off the outermost layer of the domain. *)
From Coq Require Import QArith.
From Verif Require Import Base SpecGrid SpecGhostSum SpecStep SpecIB SpecVbf SpecBodies SpecCoupled Comm Blocking Vbf Coupled SpecTracks.
From Verif Require CoupledProofs.
Open Scope Z_scope.
Lemma off_kept {T F} (add sub mul : T -> T -> T) (z : T) scale sum dx shift dims loc vels nb (actors : nat -> actor T) (flow_ok : F -> Prop) step carry :
  comm_monoid add z -> forall es st, Forall (event_ok dims loc nb actors dx shift flow_ok) es -> off_edge z dims loc st ->
  off_edge z dims loc (serial_coupled add sub mul z scale sum dx shift vels step (fun b => a_body (actors b)) carry st es).
Proof.
  intros Hm. induction es as [|e es IH]; intros st He Ho; [exact Ho|]. inversion He as [|? ? H1 H2]; subst. cbn [serial_coupled fold_left]. apply IH; [exact H2|].
  destruct e as [b p|b p|b dt|x|]; cbn [serial_event]; auto; [|intros c P _ _; reflexivity].
  destruct H1 as (Hb & Hp & _). intros c P HP HE. cbn [cs_f]. exact (@CoupledProofs.off_spread T add mul z dx shift dims loc [] [] nb actors Hm eq_refl st b p _ Ho Hb Hp c P HP HE).
Qed.
