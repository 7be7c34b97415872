(** compute_velocity_from_vorticity called by itself, as the Lamb-Oseen case does after its loop. *)
From Verif Require Import Base SpecGrid SpecGhost SpecStencil SpecStep SpecPenalise SpecDouble SpecNS Comm Spmd Stencil HaloThms StepHistory PyNum Penalise PenaliseProofs Doubling NavierStokes NSBase NSSteps NS2D KernelProofs.
Open Scope Z_scope.

Section V.
Context {T C : Type}.
Variables (add : T -> T -> T) (z : T) (damp : C -> C -> T -> T) (coord : nat -> Z -> C) (width : Z)
          (conv : (list Z -> T) -> list Z -> T) (Kcx Kcy : @kfun T).
Variables (py px ny nx g : Z) (full : bool) (dd : nat) (xg : Z -> nat -> Z -> C).
Variables (w psi vx vy fx fy buf D S : nat).
Notation dims := [py; px].
Notation loc := [ny; nx].
Notation N := (global_size dims loc).
Notation n := (zprod dims).
Hypothesis HS : ns2_setting py px ny nx g width dd xg coord w psi vx vy fx fy buf D S Kcx Kcy.

Lemma velocity_good :
  good_step false dims loc g [w; psi; vx; vy] (compute_velocity_from_vorticity_2d z damp conv py px ny nx g full dd width xg w psi vx vy D S Kcx Kcy)
   (fun u => overwrite_interior z N [(vx, Kcx); (vy, Kcy)] (solve_effect conv z N (on_fields [w] (sponge damp coord N width false [1; 0]%nat) u) (psi, w))).
Proof.
  destruct HS as [G Hg2 H4 Hw Hdd Hxg Hnd HKx HKy].
  assert (ND : ~ In D [w; psi; vx; vy] /\ ~ In S [w; psi; vx; vy]).
  { clear - Hnd. repeat match goal with H : NoDup (_ :: _) |- _ => inversion H; clear H; subst end. simpl in *. intuition congruence. }
  assert (P : good_step false dims loc g [w; psi; vx; vy] (penalise_2d damp false py px ny nx g width xg w) (on_fields [w] (sponge damp coord N width false [1; 0]%nat))).
  { split; [apply penalise_2d_local|]. intros m u He. pose proof (g2_ok _ _ _ _ _ G) as Hok. apply rep_ext in He.
    apply (penalise_2d_rep damp coord false _ py px ny nx g width xg w) in He; try assumption; try (clear - Hg2 Hw; lia); try (now apply tracked_ext). }
  pose proof (solve_good add z width conv Kcx Kcy py px ny nx g dd w psi vx vy fx fy buf D S G Hg2 H4 Hw Hdd Hnd HKx HKy [w; psi; vx; vy] ltac:(intros f; clear; simpl; tauto) (proj1 ND) (proj2 ND)) as Q.
  pose proof (curl_good add z width conv Kcx Kcy py px ny nx g full w psi vx vy fx fy buf D S G Hg2 H4 Hw Hnd HKx HKy [w; psi; vx; vy] ltac:(intros f; clear; simpl; tauto)) as R.
  exact (good_step_app _ _ _ _ _ _ _ _ _ P (good_step_app _ _ _ _ _ _ _ _ _ Q R)).
Qed.
Lemma velocity_ends (m : mem T) u : represents_ext false dims loc g [w; psi; vx; vy] m u ->
  (exists m', spmd_ends n (compute_velocity_from_vorticity_2d z damp conv py px ny nx g full dd width xg w psi vx vy D S Kcx Kcy) m m') /\
  forall m', spmd_ends n (compute_velocity_from_vorticity_2d z damp conv py px ny nx g full dd width xg w psi vx vy D S Kcx Kcy) m m' ->
    represents_ext false dims loc g [w; psi; vx; vy] m' (overwrite_interior z N [(vx, Kcx); (vy, Kcy)] (solve_effect conv z N (on_fields [w] (sponge damp coord N width false [1; 0]%nat) u) (psi, w))).
Proof.
  intros Hu. destruct velocity_good as [O H]. split; [eexists; exact (spmd_safe _ _ m O)|]. intros m' E.
  rewrite <- (spmd_ends_det _ _ _ _ _ (spmd_safe _ _ m O) E). now apply H.
Qed.
End V.
