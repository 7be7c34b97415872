(** auto_ghosting = False without a ghost exchange (C52). *)
From Coq Require Import QArith.
From Verif Require Import Base SpecGrid SpecGhost SpecStep SpecLag SpecIB SpecVbf SpecNS SpecBlocking SpecBodies SpecCoupled Comm Blocking Spmd Lagrangian Vbf NavierStokes Coupled SpecTracks RunsTo.
From Verif Require PropsNS CoupledProofs LagProofs.
Open Scope Z_scope.

(** 2 x 1 ranks, blocks of 4 x 5 cells; one body of one node in the last row of rank 0, both options switched. *)
Definition st_arr : arrays := {| gpm := 10; gvm := 11; gfo := 12; gpos := 13; gvel := 14; lpm := 15; lvm := 16; lfo := 17; lpos := 18; lvel := 19; lflow := 20 |}.
Definition st_actor (b : nat) : actor Z := {| a_arrays := st_arr; a_master := 0; a_bufs := [21%nat; 22%nat];
  a_body := {| v_stiff := 3; v_damp := 2; v_width := 1; v_weight := fun _ => 1; v_reset := false; v_count := 1 |}; a_local := true; a_auto := false |}.
Definition st_pose : pose Z := {| p_nodes := [[5 # 2; 7 # 2]]%Q; p_pos := fun _ _ => 0; p_vel := fun _ _ => 0; p_address := [0]; p_order := [] |}.
Definition st_events : list (event Z (@ns2_step Z)) := [ELag 0 st_pose].
Definition st_maps (b : nat) : vb := vb_init [0] [].
Definition st_state : cstate Z := {| cs_u := fun _ _ => 0; cs_f := fun _ _ => 0; cs_map := fun _ => [0]; cs_st := fun _ => at_rest 0 |}.
(** The velocity is zero; rank 0's ghosts of the row above its block still show an older value. *)
Definition st_mem : mem Z := fun l => match l with (r, (f, k)) => if (r =? 0) && (f =? 2)%nat && (54 <=? k) && (k <? 63) then 1 else 0 end.
Definition st_program := coupled_segs Z.add Z.sub Z.mul 0 (fun x => x) (fold_right Z.add 0) 1 0 [2; 1] [4; 5] 2 [2; 3]%nat [4; 5]%nat st_actor
  (exch_2d 2 1 4 5 2 false [2; 3]%nat) (spread_2 Z.add Z.mul (fun _ => 0) 1 0 2 1 4 5 2 [4; 5]%nat)
  (time_step_2d Z.add 0 (fun _ _ v => v) (fun v => v) 2 1 4 5 2 false 0 2 PropsNS.e_xg 0 1 2 3 4 5 6 7 8 PropsNS.e_cx PropsNS.e_cy) st_maps st_events.

Lemma stale_run : forall e, segs_end 2 st_program st_mem e -> e (0, (12%nat, 0)) <> 0.
Proof.
  intros e H. set (prog := fun r => interact_local Z.add Z.sub Z.mul 3 2 2 0 st_arr 1 (p_pos st_pose) (p_vel st_pose)
     (interpolate Z.mul (fun x => x) (fold_right Z.add 0) 1 0 [2; 1] [4; 5] 2 [2; 3]%nat (st_actor 0) st_pose) r).
  change (segs_end 2 [SBlk prog] st_mem e) in H.
  set (k := fun r => if r =? 0 then 1 else 0).
  set (f1 := fun r : Z => if r =? 0 then set_body 2 st_arr 1 (p_pos st_pose) (p_vel st_pose) else (fun m : @lmem Z => m)).
  set (f2 := fun r : Z => view (T := Z) 13 18 (2 * k r)). set (f3 := fun r : Z => view (T := Z) 14 19 (2 * k r)).
  set (f4 := fun r => local_forcing Z.add Z.sub Z.mul 3 2 2 st_arr (k r) (interpolate Z.mul (fun x => x) (fold_right Z.add 0) 1 0 [2; 1] [4; 5] 2 [2; 3]%nat (st_actor 0) st_pose r)).
  set (f5 := fun r : Z => view (T := Z) 17 12 (2 * k r)).
  pose proof (runs_to_local 2 f1 (by_rank st_mem)) as R1. set (m1 := local_on 2 f1 _) in R1.
  pose proof (runs_to_local 2 f2 m1) as R2. set (m2 := local_on 2 f2 _) in R2.
  pose proof (runs_to_local 2 f3 m2) as R3. set (m3 := local_on 2 f3 _) in R3.
  pose proof (runs_to_local 2 f4 m3) as R4. set (m4 := local_on 2 f4 _) in R4.
  pose proof (runs_to_local 2 f5 m4) as R5. set (m5 := local_on 2 f5 _) in R5.
  pose proof (runs_to_app _ _ _ _ _ _ R1 (runs_to_app _ _ _ _ _ _ R2 (runs_to_app _ _ _ _ _ _ R3 (runs_to_app _ _ _ _ _ _ R4 R5)))) as R.
  change (runs_to 2 prog (by_rank st_mem) m5) in R.
  assert (E : segs_end 2 [SBlk prog] st_mem (at_place m5)) by (econstructor; [exact R|constructor]).
  rewrite (CoupledProofs.segs_det _ _ _ _ _ H E). vm_compute. discriminate.
Qed.
Ltac qle := unfold Qle, Qlt; cbn; lia.
Lemma stale_legal : actors_ok [2; 1] 2 1 st_actor [0; 1; 2; 3; 4; 5; 6; 7; 8]%nat /\
  Forall (event_ok [2; 1] [4; 5] 1 st_actor 1 0 (flow2_ok 0 0 2 3 4 5)) st_events /\ moves_ok 2 (cs_map st_state) st_events /\
  tracks 0 [2; 1] [4; 5] 2 [0; 1; 2; 3]%nat [4; 5]%nat 1 st_actor [[2; 9]; [8; 2]] st_maps st_mem st_state /\ off_edge 0 [2; 1] [4; 5] st_state.
Proof.
  assert (P0 : mapping_ok 2 0 1 [0] []) by (split; [repeat constructor; cbn; lia|split; [split; [repeat constructor; cbn; tauto|intros s; cbn; lia]|reflexivity]]).
  split; [split; [cbn; repeat constructor; cbn; intuition discriminate|intros b Hb; cbn; lia]|].
  split; [|split; [cbn; auto|split; [|intros c P _ _; reflexivity]]].
  - constructor; [|constructor]. cbn [event_ok]. split; [lia|]. split; [|reflexivity].
    split; [repeat constructor; qle|reflexivity|repeat constructor; vm_compute; intuition discriminate|vm_compute; reflexivity|exact P0].
  - assert (Z0 : forall r f k, f <> 2%nat -> st_mem (r, (f, k)) = 0).
    { intros r f k Hf. unfold st_mem. replace (f =? 2)%nat with false by (symmetry; now apply Nat.eqb_neq). now rewrite andb_false_r. }
    split.
    + intros r f I Hr Hf HI HQ. cbn [cs_u st_state]. unfold field. destruct (Nat.eq_dec f 2) as [-> |Hne]; [|now apply Z0]. unfold st_mem.
      destruct (Z.eqb_spec r 0) as [-> |]; [|reflexivity]. cbn [andb Nat.eqb].
      destruct I as [|i [|j [|? ?]]]; try (apply inb_length in HI; discriminate HI).
      change (ghosted 2 [4; 5]) with [8; 9] in *. inversion HI as [|? ? ? ? Hi HI']; subst. inversion HI' as [|? ? ? ? Hj _]; subst. clear HI HI'.
      replace (ravel [8; 9] [i; j]) with (9 * i + j) by (cbn [ravel]; change (zprod [9]) with 9; change (zprod []) with 1; lia).
      destruct (Z.leb_spec 54 (9 * i + j)); [|reflexivity]. destruct (Z.ltb_spec (9 * i + j) 63); [|reflexivity]. exfalso.
      assert (i = 6) by lia. subst i. destruct HQ as [HQ|[HQ HO]]; [inversion HQ; lia|].
      assert (C : j = 0 \/ j = 1 \/ j = 2 \/ j = 3 \/ j = 4 \/ j = 5 \/ j = 6 \/ j = 7 \/ j = 8) by lia.
      decompose [or] C; subst j; first [vm_compute in HO; discriminate HO | vm_compute in HQ; lia].
    + split; intros; apply Z0; intros ->; [|cbn in *; lia]. match goal with H : nth_error _ _ = Some _ |- _ => apply nth_error_In in H; cbn in H; lia end.
    + intros b Hb. split; [|intros; now apply Z0]. split; [exact P0|]. split; [intros; apply LagProofs.count_eq|]. split; intros ? ? ? ? _ _ _; apply Z0; discriminate.
    + reflexivity.
    + intros b Hb. repeat constructor; intros r K _ _; apply Z0; discriminate.
    + intros b Hb _. reflexivity.
Qed.
