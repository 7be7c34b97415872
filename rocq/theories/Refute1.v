(** Counterexamples (findings) about ghost exchange. *)
From Verif Require Import Base SpecGrid SpecGhost Cart Comm Ghost2D.

(** A memory whose entries are all different. *)
Definition distinct_mem : mem Z := fun p => 1000 * fst p + snd (snd p).

Lemma ghost_wider_than_block :
  let E := all_copies 3 (exchange2 false 3 1 1 2 2 true [0%nat]) in
  ~ full_exchanged false [3; 1] [1; 2] 2 [0%nat] distinct_mem (run_copies E distinct_mem).
Proof.
  intros E H. specialize (H 0 0%nat [4; 2] ltac:(vm_compute; split; congruence)
    ltac:(repeat constructor; vm_compute; congruence)).
  vm_compute in H. discriminate.
Qed.

Lemma ghost_wider_refuted :
  exists per py px ny nx g F E (m : mem Z),
    1 <= py /\ 1 <= px /\ 1 <= ny /\ 1 <= nx /\ 1 <= g /\
    schedule (zprod [py; px]) (exchange2 per py px ny nx g true F) E /\
    ~ full_exchanged per [py; px] [ny; nx] g F m (run_copies E m).
Proof.
  exists false, 3, 1, 1, 2, 2, [0%nat], (all_copies 3 (exchange2 false 3 1 1 2 2 true [0%nat])), distinct_mem.
  repeat (split; [lia|]). split; [apply Permutation_refl | exact ghost_wider_than_block].
Qed.
