(** Advection histories with more than two ghost layers. *)
From Verif Require Import Base SpecGrid SpecGhost SpecStencil SpecStep Cart Comm Spmd Stencil StencilProofs HaloProofs HaloKernels HaloThms KernelList KernelProofs TimeStep StepProofs.

(** Upwind difference of array 1. *)
Definition up (rd : nat -> list Z -> Z) (old : Z) : Z := old + rd 1%nat [-1; 0].
Lemma up_local : star_local 2 [1%nat; 2%nat; 3%nat] 2 up.
Proof.
  intros rd rd' o E. unfold up. f_equal. apply E; simpl; auto. exists 0%nat, (-1). split; [lia|]. split; [simpl; lia|reflexivity].
Qed.

Definition ones : mem Z := fun _ => 1.
Definition prog px nx := flat_map (tstep_2d Z.add 0 false 1 px 4 nx 3 false 0 1 1) [Adv 1 up; Adv 1 up].

Lemma prog_ok px nx : grid2 1 px 4 nx 3 -> 4 <= nx -> Forall (phase_ok (zprod [1; px])) (prog px nx).
Proof.
  intros G H.
  assert (A : adding_kernel false [1; px] [4; nx] 3 2 [1%nat; 1%nat; 1%nat] [(0%nat, up)] (advection_flux_2d false 1 px 4 nx 3 false 0 1 1 1 up)).
  { constructor; auto; try lia; [simpl; intuition lia|]. intros rd rd' o E. unfold up. f_equal. apply E; simpl; auto.
    exists 0%nat, (-1). split; [lia|]. split; [simpl; lia|reflexivity]. }
  apply (adding_kernel_good 0) in A as (_ & _ & A). specialize (A ltac:(repeat constructor; lia)). destruct A as [A _].
  unfold prog. cbn [flat_map tstep_2d]. unfold advection_timestep_2d. rewrite app_nil_r, !Forall_app.
  assert (L : forall u : Z -> list (@lop Z), Forall (phase_ok (zprod [1; px])) [PLoc u]) by (intros; constructor; [exact I|constructor]).
  exact (conj (conj (L _) (conj A (L _))) (conj (L _) (conj A (L _)))).
Qed.

Lemma wide_ghost_refuted :
  ~ (forall per py px ny nx py' px' ny' nx' g full buf vx vy Fs fld (K : @kfun Z) (k : nat) (m m' : mem Z) u,
      grid2 py px ny nx g -> grid2 py' px' ny' nx' g -> global_size [py; px] [ny; nx] = global_size [py'; px'] [ny'; nx'] ->
      2 <= g -> Forall (fun n => 4 <= n) [ny; nx; ny'; nx'] ->
      ~ In buf Fs -> incl [fld; vx; vy] Fs -> star_local 2 [fld; vx; vy] 2 K ->
      represents_ext per [py; px] [ny; nx] g Fs m u -> represents_ext per [py'; px'] [ny'; nx'] g Fs m' u ->
      exists e e', spmd_ends (zprod [py; px]) (flat_map (tstep_2d Z.add 0 per py px ny nx g full buf vx vy) (repeat (Adv fld K) k)) m e /\
        spmd_ends (zprod [py'; px']) (flat_map (tstep_2d Z.add 0 per py' px' ny' nx' g full buf vx vy) (repeat (Adv fld K) k)) m' e' /\
        agree [py; px] [ny; nx] [py'; px'] [ny'; nx'] g Fs e e').
Proof.
  intros H.
  destruct (H false 1 1 4 8 1 2 4 4 3 false 0%nat 1%nat 1%nat [1%nat] 1%nat up 2%nat ones ones (fun _ _ => 1)) as (e & e' & E & E' & Hag).
  - unfold grid2; lia.
  - unfold grid2; lia.
  - reflexivity.
  - lia.
  - repeat constructor; lia.
  - simpl. intuition lia.
  - intros f Hf. simpl in *. intuition.
  - intros rd rd' o E. unfold up. f_equal. apply E; simpl; auto. exists 0%nat, (-1). split; [lia|]. split; [simpl; lia|reflexivity].
  - intros r f I _ _ _ _. reflexivity.
  - intros r f I _ _ _ _. reflexivity.
  - assert (e = den (zprod [1; 1]) (prog 1 8) ones).
    { eapply spmd_ends_det; [exact E|]. apply (spmd_safe (zprod [1; 1]) (prog 1 8)). apply prog_ok; [unfold grid2; lia|lia]. }
    assert (e' = den (zprod [1; 2]) (prog 2 4) ones).
    { eapply spmd_ends_det; [exact E'|]. apply (spmd_safe (zprod [1; 2]) (prog 2 4)). apply prog_ok; [unfold grid2; lia|lia]. }
    subst. specialize (Hag 0 [0; 3] 0 [0; 3] 1%nat ltac:(cbn [zprod]; lia) ltac:(repeat constructor; lia) ltac:(cbn [zprod]; lia) ltac:(repeat constructor; lia) (or_introl eq_refl) eq_refl).
    vm_compute in Hag. discriminate.
Qed.
