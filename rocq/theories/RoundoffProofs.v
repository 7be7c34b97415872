(** Proofs for C61: the spreading program in rounded arithmetic next to the same program on triples (exact sum, sum of
    magnitudes, number of terms), which form a commutative monoid. *)
From Coq Require Import Reals QArith Lra FunctionalExtensionality.
From Verif Require Import Base SpecGrid SpecGhostSum SpecLag SpecIB SpecRoundoff Cart Comm Blocking SpecBlocking Spmd Stencil Ghost2D Ghost3D GhostSum Lagrangian EulLag KernelList SpreadProofs Simulate.
Open Scope R_scope.
Arguments run_lops : simpl never.

(** The spreading program over two element types: [nr] relates elements of the arrays, [ex] the Lagrangian forces, [ew] the weights. *)
Section Spread.
Context {T1 T2 : Type}.
Variables (nr ex ew : T1 -> T2 -> Prop) (add1 mul1 : T1 -> T1 -> T1) (add2 mul2 : T2 -> T2 -> T2) (t1 : T1 -> T1) (t2 : T2 -> T2).
Hypothesis nr_add : forall x y x' y', nr x y -> nr x' y' -> nr (add1 x x') (add2 y y').
Hypothesis nr_mul : forall x y x' y', ex x y -> ew x' y' -> nr (mul1 x x') (mul2 y y').
Hypothesis nr_clear : forall x y, nr (t1 x) (t2 y).
Variable lagf : nat.
Definition rho (a : addr) (x : T1) (t : T2) : Prop := if Nat.eqb (fst a) lagf then ex x t else nr x t.
Definition moved (a : addr) : Prop := fst a <> lagf.
Lemma rho_other a x t : moved a -> nr x t -> rho a x t.
Proof. intros H N. unfold rho. now rewrite (proj2 (Nat.eqb_neq _ _) H). Qed.
Lemma rho_near a x t : moved a -> rho a x t -> nr x t.
Proof. intros H. unfold rho. now rewrite (proj2 (Nat.eqb_neq _ _) H). Qed.
Lemma rho_moved a b x t : moved a -> moved b -> rho a x t -> rho b x t.
Proof. intros Ha Hb H. apply rho_other; auto. now apply (rho_near a). Qed.

Lemma add_buffer_rel sizes f v buf : f <> lagf -> buf <> lagf -> Forall2 (lrel rho) (add_buffer add1 sizes f v buf) (add_buffer add2 sizes f v buf).
Proof.
  intros Hf Hb. unfold add_buffer. apply Forall2_same. intros I _. split; [reflexivity|]. intros m1 m2 Hm. cbn [la lf]. apply rho_other; [exact Hf|]. apply nr_add; eapply rho_near; try apply Hm; assumption.
Qed.
Lemma clear_rel sizes f v : f <> lagf -> Forall2 (lrel rho) (clear t1 sizes f v) (clear t2 sizes f v).
Proof. intros Hf. unfold clear. apply Forall2_same. intros I _. split; [reflexivity|]. intros m1 m2 Hm. cbn [la lf]. apply rho_other; [exact Hf|apply nr_clear]. Qed.
Lemma moved_map f ty : f <> lagf -> Forall moved (map (fun o => (f, o)) ty).
Proof. intros H. apply Forall_forall. intros a Ha. apply in_map_iff in Ha as (o & <- & _). exact H. Qed.
Lemma moved_map2 {A} f (h : A -> Z) ty : f <> lagf -> Forall moved (map (fun o => (f, h o)) ty).
Proof. intros H. apply Forall_forall. intros a Ha. apply in_map_iff in Ha as (o & <- & _). exact H. Qed.
Lemma lops_br l1 l2 : Forall2 (lrel rho) l1 l2 -> brel rho moved (BLocal (run_lops l1)) (BLocal (run_lops l2)).
Proof. intros H. constructor. now apply lops_rel. Qed.
Ltac lists := repeat apply Forall2_app; first [apply add_buffer_rel; assumption|apply clear_rel; assumption].
Ltac one := first [apply br_send; first [apply moved_map; assumption|apply moved_map2; assumption]|apply br_recv; first [apply moved_map; assumption|apply moved_map2; assumption]|apply lops_br; lists].
Lemma sum2_rel per py px ny nx g f rb cb r : f <> lagf -> rb <> lagf -> cb <> lagf ->
  Forall2 (brel rho moved) (ghost_sum2 add1 t1 per py px ny nx g f rb cb r) (ghost_sum2 add2 t2 per py px ny nx g f rb cb r).
Proof.
  intros Hf Hr Hc. unfold ghost_sum2, from_row, from_offset, whole, clear_ghost_cells2.
  repeat (apply Forall2_cons; [one|]). apply Forall2_nil.
Qed.
Lemma sum3_rel per pz py px n0 n1 n2 g f bz by_ bx r : f <> lagf -> bz <> lagf -> by_ <> lagf -> bx <> lagf ->
  Forall2 (brel rho moved) (ghost_sum3 add1 t1 per pz py px n0 n1 n2 g f bz by_ bx r) (ghost_sum3 add2 t2 per pz py px n0 n1 n2 g f bz by_ bx r).
Proof.
  intros Hf Hz Hy Hx. unfold ghost_sum3, buf3, whole, clear_ghost_cells3.
  repeat (apply Forall2_cons; [one|]). apply Forall2_nil.
Qed.
Lemma zip_rel {A B1 B2 C1 C2} (Q : C1 -> C2 -> Prop) (P : B1 -> B2 -> Prop) (f : A -> B1 -> C1) (h : A -> B2 -> C2) l l1 l2 :
  Forall2 P l1 l2 -> (forall a b1 b2, P b1 b2 -> Q (f a b1) (h a b2)) -> Forall2 Q (zip f l l1) (zip h l l2).
Proof. intros HP H. revert l. induction HP as [|b1 b2 l1 l2 Hb _ IH]; intros [|a l]; cbn; try constructor; auto. Qed.
Section W.
Context {C D : Type} (fdiv : C -> Z) (gdist : Z -> C -> D) (wt1 : list D -> T1) (wt2 : list D -> T2).
Hypothesis wt_rel : forall d, ew (wt1 d) (wt2 d).
Lemma l2e_rel topo loc g w r comps nodes : (forall f, In f comps -> f <> lagf) ->
  Forall2 (lrel rho) (l2e_lops fdiv gdist wt1 mul1 add1 topo loc g w r comps lagf nodes) (l2e_lops fdiv gdist wt2 mul2 add2 topo loc g w r comps lagf nodes).
Proof.
  intros Hc. unfold l2e_lops. apply Forall2_flat. intros [i p] _. apply Forall2_flat. intros [c f] Hcf. apply in_combine_r in Hcf. specialize (Hc f Hcf).
  apply (zip_rel _ ew).
  - unfold weights. apply Forall2_same. auto.
  - intros I x t Hx. split; [reflexivity|]. intros m1 m2 Hm. cbn [la lf snd fst]. apply rho_other; [exact Hc|]. apply nr_add; [eapply rho_near; [|apply Hm]; exact Hc|].
    pose proof (Hm (lagf, (c * Z.of_nat (length nodes) + i)%Z)) as HL. unfold rho in HL. cbn [fst] in HL. rewrite Nat.eqb_refl in HL. auto.
Qed.
Lemma spread2_rel per py px ny nx g w comps rb cb lpos r : (forall f, In f comps -> f <> lagf) -> rb <> lagf -> cb <> lagf ->
  Forall2 (brel rho moved) (spread2 fdiv gdist wt1 mul1 add1 t1 per py px ny nx g w comps lagf rb cb lpos r) (spread2 fdiv gdist wt2 mul2 add2 t2 per py px ny nx g w comps lagf rb cb lpos r).
Proof. intros Hc Hr Hcb. apply Forall2_cons; [apply lops_br; now apply l2e_rel|]. apply Forall2_flat. intros f Hf. apply sum2_rel; auto. Qed.
Lemma spread3_rel per pz py px n0 n1 n2 g w comps bz by_ bx lpos r : (forall f, In f comps -> f <> lagf) -> bz <> lagf -> by_ <> lagf -> bx <> lagf ->
  Forall2 (brel rho moved) (spread3 fdiv gdist wt1 mul1 add1 t1 per pz py px n0 n1 n2 g w comps lagf bz by_ bx lpos r)
    (spread3 fdiv gdist wt2 mul2 add2 t2 per pz py px n0 n1 n2 g w comps lagf bz by_ bx lpos r).
Proof. intros Hc Hz Hy Hx. apply Forall2_cons; [apply lops_br; now apply l2e_rel|]. apply Forall2_flat. intros f Hf. apply sum3_rel; auto. Qed.
End W.
End Spread.

Section R.
Variables (F : R -> Prop) (rnd : R -> R) (eps : R).
Hypothesis HF : rounded_sums F rnd eps.
Variable mul : R -> R -> R.
Hypothesis mul_F : forall a b, F (mul a b).

Definition tri : Type := (R * R * nat)%type.
Definition tz : tri := (0, 0, O).
Definition leaf (x : R) : tri := (x, Rabs x, 1%nat).
Definition tadd (x y : tri) : tri := (fst (fst x) + fst (fst y), snd (fst x) + snd (fst y), (snd x + snd y)%nat).
Definition tmul (x y : tri) : tri := leaf (mul (fst (fst x)) (fst (fst y))).
Definition fadd (a b : R) : R := rnd (a + b).
Definition near (x : R) (t : tri) : Prop :=
  F x /\ match snd t with O => x = 0 /\ fst (fst t) = 0 /\ snd (fst t) = 0 | S j => Rabs (x - fst (fst t)) <= ((1 + eps) ^ j - 1) * snd (fst t) /\ Rabs (fst (fst t)) <= snd (fst t) end.

Lemma tri_monoid : comm_monoid tadd tz.
Proof.
  split; intros; unfold tadd, tz; cbn.
  - f_equal; [f_equal; ring|lia].
  - f_equal; [f_equal; ring|lia].
  - destruct a as [[v a] k]. cbn. f_equal; [f_equal; ring|lia].
Qed.
Lemma pow_ge1 j : 1 <= (1 + eps) ^ j.
Proof. apply pow_R1_Rle. destruct HF. lra. Qed.
Lemma near_leaf x : F x -> near x (leaf x).
Proof. intros H. split; [exact H|]. cbn. split; [|lra]. rewrite Rminus_diag_eq, Rabs_R0 by reflexivity. lra. Qed.
Lemma near_zero : near 0 tz.
Proof. split; [apply (rs_zero _ _ _ HF)|]. cbn. auto. Qed.
Lemma near_add x1 t1 x2 t2 : near x1 t1 -> near x2 t2 -> near (fadd x1 x2) (tadd t1 t2).
Proof.
  intros [F1 H1] [F2 H2]. split; [apply (rs_closed _ _ _ HF)|]. unfold fadd, tadd. destruct t1 as [[v1 a1] [|i]], t2 as [[v2 a2] [|j]]; cbn [fst snd Nat.add] in *.
  - destruct H1 as (-> & -> & ->), H2 as (-> & -> & ->). rewrite Rplus_0_r. repeat split. apply (rs_exact _ _ _ HF). exact F1.
  - destruct H1 as (-> & -> & ->). rewrite !Rplus_0_l. rewrite (rs_exact _ _ _ HF) by exact F2. exact H2.
  - destruct H2 as (-> & -> & ->). rewrite !Rplus_0_r. rewrite Nat.add_0_r. rewrite (rs_exact _ _ _ HF) by exact F1. exact H1.
  - destruct H1 as [E1 B1], H2 as [E2 B2]. pose proof (rs_error _ _ _ HF x1 x2 F1 F2) as E. pose proof (rs_eps _ _ _ HF) as Ee. rewrite Nat.add_succ_r. cbn [pow].
    pose proof (pow_ge1 i) as Pi. pose proof (pow_ge1 j) as Pj. rewrite pow_add. set (p := (1 + eps) ^ i) in *. set (q := (1 + eps) ^ j) in *.
    pose proof (Rabs_pos v1) as N1. pose proof (Rabs_pos v2) as N2. set (s := x1 + x2) in *. set (v := v1 + v2). set (A := a1 + a2).
    assert (B : Rabs v <= A) by (unfold v, A; pose proof (Rabs_triang v1 v2); lra).
    assert (D : Rabs (s - v) <= (p * q - 1) * A).
    { replace (s - v) with ((x1 - v1) + (x2 - v2)) by (unfold s, v; ring). pose proof (Rabs_triang (x1 - v1) (x2 - v2)) as Tr.
      assert ((p - 1) * a1 <= (p * q - 1) * a1) by (apply Rmult_le_compat_r; [lra|nra]). assert ((q - 1) * a2 <= (p * q - 1) * a2) by (apply Rmult_le_compat_r; [lra|nra]). unfold A. lra. }
    assert (G : Rabs s <= p * q * A). { replace s with ((s - v) + v) by ring. pose proof (Rabs_triang (s - v) v). lra. }
    split; [|exact B]. replace (rnd s - v) with ((rnd s - s) + (s - v)) by ring. pose proof (Rabs_triang (rnd s - s) (s - v)) as Tr.
    assert (eps * Rabs s <= eps * (p * q * A)) by (apply Rmult_le_compat_l; lra). lra.
Qed.
Lemma near_value x t : near x t -> Rabs (x - fst (fst t)) <= ((1 + eps) ^ (pred (snd t)) - 1) * snd (fst t).
Proof. intros [_ H]. destruct t as [[v a] [|j]]; cbn in *; [destruct H as (-> & -> & ->); rewrite Rminus_diag_eq, Rabs_R0 by reflexivity; lra|apply H]. Qed.

Definition is_leaf (x : R) (t : tri) : Prop := t = leaf x.
Lemma near_mul x t x' t' : is_leaf x t -> is_leaf x' t' -> near (mul x x') (tmul t t').
Proof. intros -> ->. apply near_leaf. apply mul_F. Qed.
End R.

Section Thm.
Variables (F : R -> Prop) (rnd : R -> R) (eps : R).
Hypothesis HF : rounded_sums F rnd eps.
Variable mul : R -> R -> R.
Hypothesis mul_F : forall a b, F (mul a b).
Definition conv (x : R) : tri := if Req_EM_T x 0 then tz else leaf x.
Lemma conv_near x : F x -> near F eps x (conv x).
Proof. intros H. unfold conv. destruct (Req_EM_T x 0) as [->|_]; [apply (near_zero F rnd eps HF)|now apply near_leaf]. Qed.
Lemma conv_zero : conv 0 = tz.
Proof. unfold conv. destruct (Req_EM_T 0 0); congruence. Qed.
Lemma near_tz x : near F eps x tz -> x = 0.
Proof. intros [_ H]. apply H. Qed.
Lemma near_conv x y : near F eps x (conv y) -> x = y.
Proof.
  unfold conv. destruct (Req_EM_T y 0) as [->|_]; [apply near_tz|]. intros [_ [H _]]. cbn in H. replace ((1 - 1) * Rabs y) with 0 in H by ring.
  pose proof (Rabs_pos (x - y)). assert (E : Rabs (x - y) = 0) by lra. destruct (Req_dec (x - y) 0) as [Z|Z]; [lra|]. now apply Rabs_no_R0 in Z.
Qed.
Lemma total_terms (b : Z -> bool) (c : Z -> R) js :
  total tadd tz (map (fun j => if b j then leaf (c j) else tz) js) =
  (exact_sum (map (fun j => if b j then c j else 0) js), magnitude (map (fun j => if b j then c j else 0) js), length (filter b js)).
Proof.
  induction js as [|j js IH]; [reflexivity|]. cbn [map total fold_right filter]. unfold total in IH. rewrite IH. unfold exact_sum, magnitude. cbn [map total fold_right]. unfold total, tadd.
  destruct (b j); cbn; [reflexivity|]. rewrite Rabs_R0. reflexivity.
Qed.
Lemma magnitude_pos l : 0 <= magnitude l.
Proof. induction l as [|x l IH]; [cbn; lra|]. change (magnitude (x :: l)) with (Rabs x + magnitude l). pose proof (Rabs_pos x). lra. Qed.
Lemma near_sums x u (b : Z -> bool) (c : Z -> R) js : near F eps x (tadd (conv u) (total tadd tz (map (fun j => if b j then leaf (c j) else tz) js))) ->
  sums_to eps (length (filter b js)) u (map (fun j => if b j then c j else 0) js) x.
Proof.
  intros N. apply near_value in N. rewrite total_terms in N. unfold sums_to. set (l := map _ js) in *. pose proof (magnitude_pos l) as Pl. pose proof (pow_ge1 F rnd eps HF (length (filter b js))) as P1.
  unfold conv in N. destruct (Req_EM_T u 0) as [->|_]; cbn [tadd tz leaf fst snd Nat.add] in N.
  - rewrite Rabs_R0. rewrite !Rplus_0_l in *. destruct (length (filter b js)) as [|n]; cbn [Nat.pred] in *; [exact N|]. eapply Rle_trans; [exact N|]. apply Rmult_le_compat_r; [exact Pl|].
    cbn [pow]. pose proof (pow_ge1 F rnd eps HF n). pose proof (rs_eps _ _ _ HF). nra.
  - exact N.
Qed.
End Thm.
