(** Counterexample: two nodes exchange their ranks. *)
From Verif Require Import Base SpecGrid SpecLag SpecVbf Comm Blocking SpecBlocking Lagrangian RunsTo Vbf VbfProofs VbfThms.

Definition r5A : arrays := {| gpm := 0; gvm := 1; gfo := 2; gpos := 3; gvel := 4; lpm := 5; lvm := 6; lfo := 7; lpos := 8; lvel := 9; lflow := 10 |}.
Definition r5flow (c j : Z) : Z := j + 1.
Definition r5zero (c j : Z) : Z := 0.
Definition r5cs : list (@call Z) := [CInteract [0; 1] [1] r5zero r5zero r5flow; CAdvance 1].
Definition r5last : @call Z := CInteract [1; 0] [1] r5zero r5zero r5flow.
Lemma r5_nodup : NoDup (all_arrays r5A).
Proof. repeat constructor; cbn; intuition discriminate. Qed.
Lemma r5_map a : a = [0; 1] \/ a = [1; 0] -> mapping_ok 2 0 2 a [1].
Proof. intros [-> | -> ]; (split; [repeat constructor; lia|split; [|reflexivity]]); (split; [repeat constructor; cbn; tauto|]); intros s; cbn; lia. Qed.
Lemma r5_mv : moves_change_counts 2 [0; 1] (flat_map mapping_of r5cs).
Proof. cbn [r5cs flat_map mapping_of app moves_change_counts]. auto. Qed.
Lemma r5_ith r i j : 0 <= r < 2 -> ith_node [1; 0] r i j -> ith_node [0; 1] r i (1 - j).
Proof.
  intros Hr H. destruct H as [Hi H]. split; auto. assert (r = 0 \/ r = 1) as [-> | -> ] by lia.
  - change (nodes_of [1; 0] 0) with [1] in H. change (nodes_of [0; 1] 0) with [0]. destruct (Z.to_nat i) as [|[|k]]; cbn in *; try discriminate. injection H as <-. reflexivity.
  - change (nodes_of [1; 0] 1) with [0] in H. change (nodes_of [0; 1] 1) with [1]. destruct (Z.to_nat i) as [|[|k]]; cbn in *; try discriminate. injection H as <-. reflexivity.
Qed.

Lemma exchange_refuted :
  ~ (forall (add sub mul : Z -> Z -> Z) (z stiff damp : Z) n nc master A N a0 o0 cs (m : Z -> @lmem Z),
      NoDup (all_arrays A) -> 0 <= nc -> 0 <= master < n -> mapping_ok n master N a0 o0 -> zero_start z n master A m -> Forall (call_ok n master N) cs ->
      exists m', runs_to n (calls_prog add sub mul z stiff damp n nc master A (vb_init a0 o0) cs) m m' /\
        (forall c j, 0 <= c < nc -> 0 <= j < N -> m' master (gfo A, c * N + j) = fo (history add sub mul z stiff damp (map event_of cs)) c j)).
Proof.
  intros H.
  assert (Hz : zero_start 0 2 0 r5A (fun _ _ => 0)) by (split; reflexivity).
  assert (Hok : Forall (call_ok 2 0 2) r5cs). { constructor; [apply r5_map; auto|]. constructor; [exact I|constructor]. }
  destruct (H Z.add Z.sub Z.mul 0 1 0 2 1 0 r5A 2 [0; 1] [1] (r5cs ++ [r5last]) (fun _ _ => 0) r5_nodup ltac:(lia) ltac:(lia) (r5_map _ (or_introl eq_refl)) Hz) as (m1 & R1 & V1).
  { apply Forall_app. split; [exact Hok|]. constructor; [|constructor]. cbn [call_ok r5last]. apply r5_map. auto. }
  destruct (exchange_stale Z.add Z.sub Z.mul 0 1 0 2 1 0 r5A 2 r5_nodup ltac:(lia) ltac:(lia) [0; 1] [1] r5cs (fun _ _ => 0) [1; 0] [1] r5zero r5zero r5flow (fun j => 1 - j)
    (r5_map _ (or_introl eq_refl)) Hz Hok r5_mv (r5_map _ (or_intror eq_refl))) as (m2 & R2 & _ & V2).
  { intros r Hr. assert (r = 0 \/ r = 1) as [-> | -> ] by lia; reflexivity. }
  { exact r5_ith. }
  pose proof (runs_to_det _ _ _ _ _ R1 R2) as E. subst m2. specialize (V1 0 0 ltac:(lia) ltac:(lia)). specialize (V2 0 0 ltac:(lia) ltac:(lia)). rewrite V1 in V2. vm_compute in V2. discriminate.
Qed.
