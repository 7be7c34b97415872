(** The real weights at rational positions. *)
From Coq Require Import Reals Lra QArith Qround Qreals.
From Verif Require Import Base SpecGhostSum SpecIB SpecDelta Delta DeltaProofs.
Open Scope R_scope.

Lemma cell_q2r dx shift x : (0 < dx)%Q -> r_cell (Q2R dx) (Q2R shift) (Q2R x) = q_cell dx shift x.
Proof.
  intros Hd. unfold r_cell, q_cell. assert (Hr : 0 < Q2R dx) by (apply Qlt_Rlt in Hd; now rewrite RMicromega.Q2R_0 in Hd).
  rewrite <- Q2R_minus, <- Q2R_div by (intros E; apply Qeq_eqR in E; rewrite RMicromega.Q2R_0 in E; lra).
  set (q := ((x - shift) / dx)%Q). pose proof (Qfloor_le q) as H1. pose proof (Qlt_floor q) as H2.
  apply Qle_Rle in H1. apply Qlt_Rlt in H2. assert (E : forall k, Q2R (inject_Z k) = IZR k). { intros k. unfold Q2R, inject_Z. cbn. field. }
  rewrite E in *. rewrite plus_IZR in H2. unfold Int_part. rewrite <- (tech_up (Q2R q) (Qfloor q + 1)); [lia| |]; rewrite plus_IZR; lra.
Qed.
Lemma dist_q2r dx shift k x : Q2R (q_dist dx shift k x) = r_dist (Q2R dx) (Q2R shift) k (Q2R x).
Proof.
  unfold q_dist, r_dist, grid_coord. rewrite Q2R_minus, Q2R_plus, Q2R_mult. do 3 f_equal. unfold Q2R, inject_Z. cbn. field.
Qed.
Lemma q_interpolated dx shift (wt : list R -> R) u pos : (0 < dx)%Q ->
  interpolated (q_cell dx shift) (q_dist dx shift) 2 (Rmult (Q2R dx ^ length pos)) (total Rplus 0) Rmult (fun ds => wt (map Q2R ds)) u pos =
  r_interpolated (Q2R dx) (Q2R shift) wt u (map Q2R pos).
Proof.
  intros Hd. unfold r_interpolated, interpolated. rewrite map_length, Rmult_comm. unfold total.
  assert (E : support_points (r_cell (Q2R dx) (Q2R shift)) 2 (map Q2R pos) = support_points (q_cell dx shift) 2 pos).
  { unfold support_points, home. rewrite <- map_rev, !map_map. f_equal. apply map_ext. intros x. now rewrite cell_q2r. }
  rewrite E. apply (f_equal2 Rmult); [|reflexivity]. f_equal. apply map_ext. intros P. f_equal. f_equal. unfold distances.
  generalize (rev P). clear E. induction pos as [|x pos IH]; intros [|k Q]; cbn; auto. rewrite dist_q2r. now rewrite IH.
Qed.
Lemma r_semiring : comm_semiring Rplus Rmult 0 1.
Proof. repeat constructor; intros; ring. Qed.
Lemma q_pos dx : (0 < dx)%Q -> 0 < Q2R dx.
Proof. intros Hd. apply Qlt_Rlt in Hd. now rewrite RMicromega.Q2R_0 in Hd. Qed.

Definition cosine_weight_q (dx : Q) (ds : list Q) : R := cosine_weight (Q2R dx) (map Q2R ds).
Definition peskin_weight_q (dx : Q) (ds : list Q) : R := peskin_weight (Q2R dx) (map Q2R ds).
Lemma cosine_unit_q dx shift pos : (0 < dx)%Q ->
  interpolated (q_cell dx shift) (q_dist dx shift) 2 (Rmult (Q2R dx ^ length pos)) (total Rplus 0) Rmult (cosine_weight_q dx) (fun _ => 1) pos = 1.
Proof. intros Hd. unfold cosine_weight_q. rewrite (q_interpolated dx shift (cosine_weight (Q2R dx))) by auto. apply interp_one; [now apply q_pos|]. intros. apply cosine_one. now apply q_pos. Qed.
Lemma peskin_unit_q dx shift pos : (0 < dx)%Q ->
  interpolated (q_cell dx shift) (q_dist dx shift) 2 (Rmult (Q2R dx ^ length pos)) (total Rplus 0) Rmult (peskin_weight_q dx) (fun _ => 1) pos = 1.
Proof. intros Hd. unfold peskin_weight_q. rewrite (q_interpolated dx shift (peskin_weight (Q2R dx))) by auto. apply interp_one; [now apply q_pos|]. intros. apply peskin_one. now apply q_pos. Qed.
