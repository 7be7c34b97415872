(** C64: the origin that the examples give to the Eulerian description. *)
From Coq Require Import QArith.
From Verif Require Import Base SpecGrid SpecReduce Cart Ghost2D Stencil Coords ConstructProofs GhostGeo NSHalo Origin OriginProofs.
Open Scope Z_scope.

(** Where a description with origin o and spacing dx puts the element with index P of a data set, along axis k. *)
Definition described (o : list Q) (dx : Q) (P : list Z) (k : nat) : Q := (nth k o 0 + inject_Z (nth k P 0%Z) * dx)%Q.

Lemma described_at dims loc dx g t r I k o : grid_ok dims loc -> 1 <= g -> (0 < dx)%Q -> (k < length loc)%nat -> 0 <= r < zprod dims -> inb (ghosted g loc) I ->
  lowest dims loc dx g t (length loc - 1 - k) (nth k o 0%Q) ->
  (described o dx (ghost_pos dims loc g r I) k == position_field dims loc dx g r (length loc - 1 - k) I + (if (k <? t)%nat then 0 else - (inject_Z g * dx)))%Q.
Proof.
  intros Hok Hg Hdx Hk Hr HI L. set (c := (length loc - 1 - k)%nat) in *. assert (Hc : (c < length loc)%nat) by (unfold c; lia). assert (Ek : (length loc - 1 - c)%nat = k) by (unfold c; lia).
  unfold described. rewrite (lowest_is dims loc dx g t Hok Hg Hdx c Hc _ L), (position_eq dims loc dx g r c I) by (auto; lia). unfold low. rewrite Ek. destruct (k <? t)%nat; [ring|]. rewrite inject_Z_opp. ring.
Qed.
(** C64.  The 3D examples that name all three axes: element P of the data sets is put where the simulator has the centre of that cell, by every rank, for every decomposition. *)
Theorem C64_origin_3d : forall dims loc dx g, grid_ok dims loc -> length loc = 3%nat -> 1 <= g -> (0 < dx)%Q ->
  (exists o, origin_3d dims loc dx g o) /\
  (forall o, origin_3d dims loc dx g o -> length o = 3%nat /\
     forall r I k, 0 <= r < zprod dims -> inner g loc I -> (k < 3)%nat -> (described o dx (ghost_pos dims loc g r I) k == position_field dims loc dx g r (2 - k) I)%Q).
Proof.
  intros dims loc dx g Hok Hl Hg Hdx. split.
  - destruct (lowest_exists dims loc dx g 3 Hok Hg 2 ltac:(lia)) as [z Hz], (lowest_exists dims loc dx g 3 Hok Hg 1 ltac:(lia)) as [y Hy], (lowest_exists dims loc dx g 3 Hok Hg 0 ltac:(lia)) as [x Hx].
    exists [z; y; x], z, y, x. auto.
  - intros o (z & y & x & Hz & Hy & Hx & ->). split; [reflexivity|]. intros r I k Hr HI Hk.
    assert (L : lowest dims loc dx g 3 (length loc - 1 - k) (nth k [z; y; x] 0%Q)) by (rewrite Hl; destruct k as [|[|[|k]]]; [exact Hz|exact Hy|exact Hx|lia]).
    rewrite (described_at dims loc dx g 3 r I k [z; y; x] Hok Hg Hdx ltac:(lia) Hr (inner_inb g loc I ltac:(lia) HI) L). rewrite Hl. replace (3 - 1 - k)%nat with (2 - k)%nat by lia. destruct (Nat.ltb_spec k 3); [ring|lia].
Qed.
(** The 2D example likewise. *)
Theorem C64_origin_2d : forall dims loc dx g, grid_ok dims loc -> length loc = 2%nat -> 1 <= g -> (0 < dx)%Q ->
  (exists o, origin_2d dims loc dx g o) /\
  (forall o, origin_2d dims loc dx g o -> length o = 2%nat /\
     forall r I k, 0 <= r < zprod dims -> inner g loc I -> (k < 2)%nat -> (described o dx (ghost_pos dims loc g r I) k == position_field dims loc dx g r (1 - k) I)%Q).
Proof.
  intros dims loc dx g Hok Hl Hg Hdx. split.
  - destruct (lowest_exists dims loc dx g 2 Hok Hg 1 ltac:(lia)) as [y Hy], (lowest_exists dims loc dx g 2 Hok Hg 0 ltac:(lia)) as [x Hx]. exists [y; x], y, x. auto.
  - intros o (y & x & Hy & Hx & ->). split; [reflexivity|]. intros r I k Hr HI Hk.
    assert (L : lowest dims loc dx g 2 (length loc - 1 - k) (nth k [y; x] 0%Q)) by (rewrite Hl; destruct k as [|[|k]]; [exact Hy|exact Hx|lia]).
    rewrite (described_at dims loc dx g 2 r I k [y; x] Hok Hg Hdx ltac:(lia) Hr (inner_inb g loc I ltac:(lia) HI) L). rewrite Hl. replace (2 - 1 - k)%nat with (1 - k)%nat by lia. destruct (Nat.ltb_spec k 2); [ring|lia].
Qed.
(** Finding: the 3D rod examples name only two axes for the origin along x and y; along x the minimum is taken over ghost cells too, so the
    description puts every element ghost_size cells too low along x (and right along y and z). *)
Theorem C64_origin_rod_3d_refuted : forall dims loc dx g, grid_ok dims loc -> length loc = 3%nat -> 1 <= g -> (0 < dx)%Q ->
  (exists o, origin_3d_rod dims loc dx g o) /\
  (forall o, origin_3d_rod dims loc dx g o -> forall r I, 0 <= r < zprod dims -> inner g loc I ->
     let P := ghost_pos dims loc g r I in
     (described o dx P 0 == position_field dims loc dx g r 2 I)%Q /\ (described o dx P 1 == position_field dims loc dx g r 1 I)%Q /\
     (described o dx P 2 == position_field dims loc dx g r 0 I - inject_Z g * dx)%Q /\ (described o dx P 2 < position_field dims loc dx g r 0 I)%Q).
Proof.
  intros dims loc dx g Hok Hl Hg Hdx. split.
  - destruct (lowest_exists dims loc dx g 3 Hok Hg 2 ltac:(lia)) as [z Hz], (lowest_exists dims loc dx g 2 Hok Hg 1 ltac:(lia)) as [y Hy], (lowest_exists dims loc dx g 2 Hok Hg 0 ltac:(lia)) as [x Hx].
    exists [z; y; x], z, y, x. auto.
  - intros o (z & y & x & Hz & Hy & Hx & ->) r I Hr HI. cbv zeta. pose proof (inner_inb g loc I ltac:(lia) HI) as Hi.
    assert (E0 : (described [z; y; x] dx (ghost_pos dims loc g r I) 0 == position_field dims loc dx g r 2 I)%Q).
    { rewrite (described_at dims loc dx g 3 r I 0 [z; y; x] Hok Hg Hdx ltac:(lia) Hr Hi) by (rewrite Hl; exact Hz). rewrite Hl. cbn [Nat.ltb Nat.leb Nat.sub]. ring. }
    assert (E1 : (described [z; y; x] dx (ghost_pos dims loc g r I) 1 == position_field dims loc dx g r 1 I)%Q).
    { rewrite (described_at dims loc dx g 2 r I 1 [z; y; x] Hok Hg Hdx ltac:(lia) Hr Hi) by (rewrite Hl; exact Hy). rewrite Hl. cbn [Nat.ltb Nat.leb Nat.sub]. ring. }
    assert (E2 : (described [z; y; x] dx (ghost_pos dims loc g r I) 2 == position_field dims loc dx g r 0 I - inject_Z g * dx)%Q).
    { rewrite (described_at dims loc dx g 2 r I 2 [z; y; x] Hok Hg Hdx ltac:(lia) Hr Hi) by (rewrite Hl; exact Hx). rewrite Hl. cbn [Nat.ltb Nat.leb Nat.sub]. ring. }
    split; [exact E0|]. split; [exact E1|]. split; [exact E2|]. rewrite E2. assert (0 < inject_Z g * dx)%Q.
    { apply (Qlt_le_trans _ (1 * dx)); [now rewrite Qmult_1_l|]. apply Qmult_le_compat_r; [change 1%Q with (inject_Z 1); now rewrite <- Zle_Qle|now apply Qlt_le_weak]. }
    setoid_replace (position_field dims loc dx g r 0 I) with (position_field dims loc dx g r 0 I - 0)%Q at 2 by ring. apply Qplus_lt_r. now apply Qopp_lt_compat.
Qed.

(** Two ranks along z, 16 x 8 x 4 cells, ghost size 2: the x origin is dx/2 with three slices, dx/2 - 2 dx with two. *)
Example C64_nonvacuous : grid_ok [2; 1; 1] [8; 8; 4] /\ inner 2 [8; 8; 4] [2; 2; 2] /\ ghost_pos [2; 1; 1] [8; 8; 4] 2 1 [2; 2; 2] = [8; 0; 0] /\
  (forall x, lowest [2; 1; 1] [8; 8; 4] (1 # 10) 2 3 0 x -> (x == 1 # 20)%Q) /\ (forall x, lowest [2; 1; 1] [8; 8; 4] (1 # 10) 2 2 0 x -> (x == - 3 # 20)%Q).
Proof.
  assert (G : grid_ok [2; 1; 1] [8; 8; 4]) by (split; [reflexivity|unfold positive; repeat (apply Forall_cons; [lia|]); apply Forall_nil|unfold positive; repeat (apply Forall_cons; [lia|]); apply Forall_nil]).
  split; [exact G|]. split; [repeat constructor; lia|]. split; [reflexivity|].
  split; intros x Hx; apply lowest_is in Hx; try exact G; try lia; try reflexivity; try (cbn; lia); rewrite Hx; reflexivity.
Qed.

Print Assumptions C64_origin_3d.
Print Assumptions C64_origin_2d.
Print Assumptions C64_origin_rod_3d_refuted.
