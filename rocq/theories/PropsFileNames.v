(** Property C73: the file names of checkpoints. *)
From Coq Require Import Ascii String Reals Lra.
From Flocq Require Import Core.
From Verif Require Import Base SpecRounding SpecFileNames FileNames SpecCheckpoint FileNamesProofs.
From Verif Require Checkpoint PropsCheckpoint.
Open Scope list_scope.

(** C73.  The number in a name: decimal digits that stand for it, at least five, leading zeros only to have five. *)
Theorem C73_number_in_name n : exists d, in_digits 5 n d /\
  flow_name n = lit "flow_" ++ d ++ lit ".h5" /\ rod_name n = lit "rod_" ++ d ++ lit ".h5" /\ forall dir, grid_name dir n = dir ++ lit "/forcing_grid_" ++ d ++ lit ".h5".
Proof. exists (five n). split; [apply five_spec|]. repeat split. Qed.
(** C73.  Different numbers, different names. *)
Theorem C73_names_differ n k : n <> k -> flow_name n <> flow_name k /\ rod_name n <> rod_name k /\ forall dir, grid_name dir n <> grid_name dir k.
Proof.
  intros H. split; [|split; [|intros dir]]; intros E; apply H, five_inj.
  - apply app_inv_head in E. now apply app_inv_tail in E.
  - apply app_inv_head in E. now apply app_inv_tail in E.
  - apply app_inv_head in E. apply app_inv_head in E. now apply app_inv_tail in E.
Qed.
(** C73.  A restart opens the files of the last save.  Saves happened at some times (not negative); the directory has their flow files, in any order, and other files, but none whose name contains
    "flow" and "h5". *)
Theorem C73_restart_opens_last_save dir (saves : list R) (t : R) (files : list text) : In t saves -> (forall s, In s saves -> (0 <= s <= t)%R) ->
  (forall s, In s saves -> In (flow_name (Z.to_nat (number_of_time s))) files) ->
  (forall f, In f files -> contains (lit "flow") f -> contains (lit "h5") f -> exists s, In s saves /\ f = flow_name (Z.to_nat (number_of_time s))) ->
  let n := Z.to_nat (number_of_time t) in opens dir files = Some (flow_name n, rod_name n, grid_name dir n).
Proof.
  intros It Hs Hin Hall. cbv zeta. destruct (latest_is (map (fun s => Z.to_nat (number_of_time s)) saves) files) as (n & E & I & U).
  - destruct saves; [destruct It|discriminate].
  - intros n Hn. apply in_map_iff in Hn as (s & <- & Hn). now apply Hin.
  - intros f Hf W. apply wanted_true in W as [W1 W2]. destruct (Hall f Hf W1 W2) as (s & Hss & ->). exists (Z.to_nat (number_of_time s)). split; [|reflexivity]. exact (in_map (fun s => Z.to_nat (number_of_time s)) _ _ Hss).
  - assert (n = Z.to_nat (number_of_time t)) as ->; [|unfold opens; now rewrite E].
    apply in_map_iff in I as (s & <- & Hss). apply Nat.le_antisymm; [|apply U; exact (in_map (fun s => Z.to_nat (number_of_time s)) _ _ It)].
    apply Z2Nat.inj_le; [apply number_ge0; exact (proj1 (Hs s Hss))|apply number_ge0; exact (proj1 (Hs t It))|apply number_mono; exact (proj2 (Hs s Hss))].
Qed.
(** C73.  The other files a save writes are not taken for flow files (those in the restart directory are not listed). *)
Theorem C73_other_files_ignored n : ~ contains (lit "flow") (rod_name n) /\ ~ contains (lit "h5") (flow_xmf_name n).
Proof. split; [apply rod_other|apply xmf_other]. Qed.
(** C73.  So the listing finds what C63 says it finds, in any directory with the files of the numbers [names]; and times in double precision are as C63 assumes. *)
Theorem C73_listing_as_in_checkpoints (names : list Z) files : Forall (fun k => (0 <= k)%Z) names -> (forall k, In k names -> In (flow_name (Z.to_nat k)) files) ->
  (forall f, In f files -> contains (lit "flow") f -> contains (lit "h5") f -> exists k, In k names /\ f = flow_name (Z.to_nat k)) -> option_map Z.of_nat (latest files) = Checkpoint.latest names.
Proof. intros H0 Hin Hall. apply latest_checkpoint; [exact H0|exact Hin|]. intros f Hf W. apply wanted_true in W as [W1 W2]. now apply Hall. Qed.
Theorem C73_times_as_in_checkpoints : clock Req_bool Rlt number_of_time.
Proof. exact clock_64. Qed.
(** C73.  Saves more than 1/100 apart (and a little more, for the rounding) have files of their own. *)
Theorem C73_saves_apart s t : (0 <= s -> s + / 100 + bpow radix2 (-51) * t <= t -> flow_name (Z.to_nat (number_of_time s)) <> flow_name (Z.to_nat (number_of_time t)))%R.
Proof.
  intros Hs H. pose proof (numbers_apart s t Hs H) as L. assert (S0 : (0 <= number_of_time s)%Z) by (now apply number_ge0). clear H. apply C73_names_differ. intros E. apply Z2Nat.inj in E; lia.
Qed.
(** Finding: saves at the times 0.28 and 0.29 (doubles nearest to them) have the same files: the second overwrites the first. *)
Theorem C73_hundredths_refuted : exists s t, (is_double s /\ is_double t /\ Rabs (s - 28 / 100) <= bpow radix2 (-54) /\ Rabs (t - 29 / 100) <= bpow radix2 (-54))%R /\
  flow_name (Z.to_nat (number_of_time s)) = flow_name (Z.to_nat (number_of_time t)).
Proof.
  exists t28, t29. split; [|now rewrite number28, number29]. split; [exact t28_double|]. split; [exact t29_double|]. change (bpow radix2 (-54)) with (/ 18014398509481984)%R.
  unfold t28, t29. split; apply Rabs_le; lra.
Qed.
(** Finding: a file whose name contains "flow" and "h5" but no number makes every restart raise. *)
Theorem C73_stray_file_refuted : exists f, forall dir files, In f files -> opens dir files = None.
Proof. exists (lit "flow_old.h5"). intros dir files I. unfold opens. now rewrite (bad_file _ _ I eq_refl eq_refl). Qed.

Example C73_nonvacuous : let files := map lit ["rod_00028.h5"; "flow_00028.h5"; "snap_00001.png"; "flow_123456.h5"; "flow_00028_eulerian.xmf"; "restart_data"; "flow_00100.h5"]%string in
  flow_name 28 = lit "flow_00028.h5" /\ flow_name 123456 = lit "flow_123456.h5" /\
  (forall f, In f files -> contains (lit "flow") f -> contains (lit "h5") f -> exists k, In k [28; 100; 123456]%Z /\ f = flow_name (Z.to_nat k)) /\
  opens (lit "restart_data") files = Some (lit "flow_123456.h5", lit "rod_123456.h5", lit "restart_data/forcing_grid_123456.h5") /\ number_of_time t28 = 28%Z.
Proof.
  assert (E : forall n d, five n = d -> flow_name n = lit "flow_" ++ d ++ lit ".h5") by (intros n d <-; reflexivity).
  cbv zeta. split; [reflexivity|]. split; [vm_compute; reflexivity|]. split; [|split; [vm_compute; reflexivity|exact number28]].
  intros f I C1 C2. apply has_true in C1, C2. cbn [map In] in I. decompose [or] I; try contradiction; subst f; try discriminate C1; try discriminate C2.
  - exists 28%Z. split; [cbn; tauto|reflexivity].
  - exists 123456%Z. split; [cbn; tauto|vm_compute; reflexivity].
  - exists 100%Z. split; [cbn; tauto|reflexivity].
Qed.
Print Assumptions C73_number_in_name.
Print Assumptions C73_names_differ.
Print Assumptions C73_restart_opens_last_save.
Print Assumptions C73_other_files_ignored.
Print Assumptions C73_listing_as_in_checkpoints.
Print Assumptions C73_times_as_in_checkpoints.
Print Assumptions C73_saves_apart.
Print Assumptions C73_hundredths_refuted.
Print Assumptions C73_stray_file_refuted.
