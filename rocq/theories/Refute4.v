(** Counterexample: interpolation after a face-only ghost exchange. *)
From Coq Require Import QArith Qround.
From Verif Require Import Base SpecGrid SpecGhost SpecStencil SpecIB SpecLag Comm Spmd Stencil StencilProofs HaloThms KernelList EulLag Lagrangian IBThms.
Open Scope Z_scope.

(** 2 x 2 ranks, blocks 2 x 2, ghost size and width 1; the array is 1 on inner
    cells, 0 on ghost cells; one node at (1.5, 1.5) next to all four blocks. *)
Definition r4m : mem Z := fun l => if (fst (snd l) =? 0)%nat then (if (existsb (Z.eqb (snd (snd l))) [5; 6; 9; 10]) then 1 else 0) else 0.
Definition r4nodes : list (list Q) := [[(3 # 2)%Q; (3 # 2)%Q]].
Lemma r4_rep : represents [2; 2] [2; 2] 1 [0%nat] r4m (fun _ _ => 1).
Proof.
  intros r f x _ [<- |[]] Hx. inversion Hx as [|? ? x0 X Hx0 HX]; subst. inversion HX as [|? ? x1 X' Hx1 HX']; subst. inversion HX'; subst.
  assert (x0 = 0 \/ x0 = 1) as [-> | -> ] by lia; assert (x1 = 0 \/ x1 = 1) as [-> | -> ] by lia; reflexivity.
Qed.
Lemma r4_dom : Forall (in_domain 1 0 [2; 2] [2; 2]) r4nodes.
Proof. repeat constructor; cbn; unfold Qle, Qlt; cbn; lia. Qed.

Lemma interp_face_refuted :
  ~ (forall (wt : list Q -> Z) py px ny nx g w dx shift comps lagf nodes address (m : mem Z) u,
      grid2 py px ny nx g -> 1 <= w <= g -> (0 < dx)%Q -> ~ In lagf comps -> represents [py; px] [ny; nx] g comps m u ->
      Forall (in_domain dx shift [py; px] [ny; nx]) nodes -> map_nodes false [py; px] [ny; nx] dx shift 2 nodes = Mapped address ->
      exists m', spmd_ends (zprod [py; px]) (ghosted_interp2 (q_cell dx shift) (q_dist dx shift) wt (fun x => x) (fold_right Z.add 0) Z.mul false py px ny nx g w false comps lagf (local_positions nodes address)) m m' /\
        forall c f r i j, 0 <= c -> nth_error comps (Z.to_nat c) = Some f -> 0 <= r < zprod [py; px] -> ith_node address r i j ->
          Forall (inb (global_size [py; px] [ny; nx])) (support_points (q_cell dx shift) w (node_at nodes j)) ->
          m' (r, lag_local address lagf r c i) = interpolated (q_cell dx shift) (q_dist dx shift) w (fun x => x) (fold_right Z.add 0) Z.mul wt (u f) (node_at nodes j)).
Proof.
  intros H. destruct (H (fun _ => 1) 2 2 2 2 1 1 1%Q 0%Q [0%nat] 1%nat r4nodes [0] r4m (fun _ _ => 1)) as (m' & R & V).
  - unfold grid2. lia.
  - lia.
  - reflexivity.
  - cbn. intuition lia.
  - exact r4_rep.
  - exact r4_dom.
  - vm_compute. reflexivity.
  - pose proof (fun S => spmd_ends_det _ _ _ _ _ R (spmd_safe _ _ r4m S)) as R'. lapply R'; clear R'; [intros R'|].
    2:{ constructor; [|constructor; [exact Logic.I|constructor]]. pose proof (exch2_facts false 2 2 2 2 1 false [0%nat] ltac:(lia) ltac:(lia) ltac:(lia)) as HC.
        split; [apply (ef_nrw _ _ _ _ _ _ HC)|]. split; [apply (ef_ss _ _ _ _ _ _ HC)|]. split; [apply (ef_rng _ _ _ _ _ _ HC)|]. intros; constructor. }
    specialize (V 0 0%nat 0 0 0 ltac:(lia) eq_refl ltac:(cbn; lia)).
    assert (E : m' (0, lag_local [0] 1 0 0 0) = 3) by (rewrite R'; vm_compute; reflexivity). rewrite E in V.
    assert (F : ith_node [0] 0 0 0) by (split; [lia|reflexivity]). specialize (V F).
    assert (G : Forall (inb (global_size [2; 2] [2; 2])) (support_points (q_cell 1 0) 1 (node_at r4nodes 0))).
    { vm_compute support_points. vm_compute global_size. repeat constructor; lia. }
    specialize (V G). vm_compute in V. discriminate.
Qed.
