(** Proof for the finding of C61: double precision spreading depends on the process grid in the last bit. *)
From Coq Require Import Reals QArith Lra Lia Psatz.
From Flocq Require Import Core Relative Plus_error.
From Verif Require Import Base SpecGrid SpecGhostSum SpecLag SpecIB SpecRounding SpecRoundoff SpecReady Comm Blocking SpecBlocking Spmd Ghost2D Lagrangian EulLag.
From Verif Require Import RoundingProofs Simulate RoundoffProofs Exec.
Open Scope Z_scope.

#[local] Instance p53 : Prec_gt_0 53. Proof. reflexivity. Qed.
(** Binary64. *)
Lemma b64_sums : rounded_sums is_double b64 (bpow radix2 (-53)).
Proof.
  split.
  - apply bpow_ge_0.
  - apply generic_format_0.
  - intros x. apply b64_double.
  - intros x H. unfold b64. apply round_generic; auto with typeclass_instances.
  - intros a b Ha Hb. destruct (FLT_plus_error_N_ex radix2 (-1074) 53 (fun x => negb (Z.even x)) a b Ha Hb) as (e & He & E). unfold b64. unfold Znearest in *. rewrite E.
    replace ((a + b) * (1 + e) - (a + b))%R with (e * (a + b))%R by ring. rewrite Rabs_mult. apply Rmult_le_compat_r; [apply Rabs_pos|]. eapply Rle_trans; [exact He|].
    assert (U : u_ro radix2 53 = bpow radix2 (-53)).
    { unfold u_ro. change (- (53) + 1)%Z with (1 + -53)%Z. rewrite bpow_plus. change (bpow radix2 1) with 2%R. set (x := bpow radix2 (-53)). field. }
    rewrite U. pose proof (bpow_gt_0 radix2 (-53)) as P. set (x := bpow radix2 (-53)) in *.
    apply Rmult_le_reg_r with (1 + x)%R; [lra|]. replace (x / (1 + x) * (1 + x))%R with x by (field; lra). nra.
Qed.

(** 2^53 + 1 is not a double and rounds to 2^53; 2^53 + 2 is one. *)
Definition big : Z := 9007199254740992.
Arguments big : simpl never.
Lemma mag54 x : (bpow radix2 53 <= x < bpow radix2 54)%R -> mag radix2 x = 54%Z :> Z.
Proof. intros H. apply mag_unique. rewrite Rabs_pos_eq; [exact H|]. pose proof (bpow_ge_0 radix2 53). lra. Qed.
Lemma b64_tie : b64 (IZR (big + 1)) = IZR big.
Proof.
  unfold b64, round, scaled_mantissa, cexp. rewrite mag54 by (change (bpow radix2 53) with (IZR big); change (bpow radix2 54) with (IZR (2 * big)); split; [apply IZR_le|apply IZR_lt]; reflexivity || (unfold big; lia)).
  change (FLT_exp (-1074) 53 54) with 1%Z. change (bpow radix2 (- (1))) with (/ 2)%R.
  replace (ZnearestE (IZR (big + 1) * / 2)) with (2 ^ 52)%Z; [unfold F2R; cbn [Fnum Fexp]; change (bpow radix2 1) with 2%R; rewrite <- mult_IZR; f_equal|].
  symmetry. unfold Znearest. assert (Fl : Zfloor (IZR (big + 1) * / 2) = (2 ^ 52)%Z).
  { apply Zfloor_imp. replace big with (2 * 2 ^ 52)%Z by reflexivity. rewrite plus_IZR, mult_IZR. rewrite plus_IZR. lra. }
  rewrite Fl. rewrite Rcompare_Eq; [reflexivity|]. replace big with (2 * 2 ^ 52)%Z by reflexivity. rewrite plus_IZR, mult_IZR. lra.
Qed.
Lemma b64_next : b64 (IZR (big + 2)) = IZR (big + 2).
Proof.
  unfold b64. apply round_generic; auto with typeclass_instances. apply generic_format_FLT. exists (Float radix2 (2 ^ 52 + 1) 1); [|reflexivity|cbn; lia].
  unfold F2R. cbn [Fnum Fexp]. change (bpow radix2 1) with 2%R. rewrite <- mult_IZR. f_equal.
Qed.

(** Integers standing for doubles; None: unknown. *)
Definition addO (a b : option Z) : option Z :=
  match a, b with Some x, Some y => let s := x + y in if (0 <=? s) && (s <=? big) then Some s else if s =? big + 1 then Some big else if s =? big + 2 then Some (big + 2) else None | _, _ => None end.
Definition mulO (a b : option Z) : option Z :=
  match a, b with Some x, Some y => let s := x * y in if (0 <=? s) && (s <=? big) then Some s else None | _, _ => None end.
Definition is (x : R) (y : option Z) : Prop := match y with Some z => x = IZR z | None => True end.
Lemma is_add x y x' y' : is x y -> is x' y' -> is (b64 (x + x')) (addO y y').
Proof.
  destruct y as [y|], y' as [y'|]; try (intros; exact I). unfold is at 1 2. intros -> ->. rewrite <- plus_IZR. unfold addO. set (s := y + y'). cbv zeta.
  destruct ((0 <=? s) && (s <=? big)) eqn:E0; [apply andb_prop in E0 as [E1 E2]; apply Z.leb_le in E1, E2; apply b64_int; split; [exact E1|exact E2]|].
  destruct (Z.eqb_spec s (big + 1)) as [E|_]; [rewrite E; exact b64_tie|]. destruct (Z.eqb_spec s (big + 2)) as [E|_]; [rewrite E; exact b64_next|]. exact I.
Qed.
Lemma is_mul x y x' y' : is x y -> is x' y' -> is (b64 (x * x')) (mulO y y').
Proof.
  destruct y as [y|], y' as [y'|]; try (intros; exact I). unfold is at 1 2. intros -> ->. rewrite <- mult_IZR. unfold mulO. set (s := y * y'). cbv zeta.
  destruct ((0 <=? s) && (s <=? big)) eqn:E0; [|exact I]. apply andb_prop in E0 as [E1 E2]. apply Z.leb_le in E1, E2. apply b64_int. split; [exact E1|exact E2].
Qed.

(** One row of nodes: the first in row 2, two more in row 1; forces 2^53, 1, 1, all weights 1. *)
Definition ex_nodes : list (list Q) := [[0; 2]; [0; 1]; [0; 1]]%Q.
Definition ex_force (j : Z) : Z := if j =? 0 then big else 1.
(** The local force array of rank r. *)
Definition ex_mem (address : list Z) (r : Z) (a : addr) : Z :=
  if Nat.eqb (fst a) 0 then match nth_error (nodes_of address r) (Z.to_nat (snd a)) with Some j => if 0 <=? snd a then ex_force j else 0 | None => 0 end else 0.
Definition progR (py px ny nx : Z) (address : list Z) : Z -> list (@bop R) :=
  spread2 (q_cell 1 0) (q_dist 1 0) (fun _ => 1%R) (fun a b => b64 (a * b)) (fun a b => b64 (a + b)) (fun _ => 0%R) false py px ny nx 1 1 [1%nat] 0%nat 2%nat 3%nat (local_positions ex_nodes address).
Definition progO (py px ny nx : Z) (address : list Z) : Z -> list (@bop (option Z)) :=
  spread2 (q_cell 1 0) (q_dist 1 0) (fun _ => Some 1) mulO addO (fun _ => Some 0) false py px ny nx 1 1 [1%nat] 0%nat 2%nat 3%nat (local_positions ex_nodes address).
Lemma example_runs py px ny nx address fuel :
  let ranks := zrange 0 (py * px) in
  let p := fun r => if (0 <=? r) && (r <? py * px) then progO py px ny nx address r else [] in
  let res := exec fuel ranks p (fun r a => Some (ex_mem address r a)) in
  done_by (py * px) (fst res) = true ->
  exists m', runs_to (py * px) (progR py px ny nx address) (fun r a => IZR (ex_mem address r a)) m' /\ forall r a, is (m' r a) (snd res r a).
Proof.
  intros ranks p res D. pose proof (exec_runs _ _ _ _ D) as R2.
  destruct (runs_rel (rho is is 0) (moved 0) (rho_moved is is 0) (py * px) (progR py px ny nx address) _ (fun r a => IZR (ex_mem address r a)) _ _ R2) as (m' & R1 & Rel).
  - intros r Hr. apply (spread2_rel is is is); auto.
    + exact is_add.
    + exact is_mul.
    + reflexivity.
    + reflexivity.
    + intros f [<-|[]]. discriminate.
  - intros r a. unfold rho. destruct (Nat.eqb _ _); reflexivity.
  - exists m'. split; [exact R1|]. intros r a. specialize (Rel r a). unfold rho in Rel. now destruct (Nat.eqb _ _).
Qed.
Lemma one_rank : exists m', runs_to 1 (progR 1 1 4 2 [0; 0; 0]) (fun r a => IZR (ex_mem [0; 0; 0] r a)) m' /\ m' 0 (1%nat, ravel [6; 4] [3; 1]) = IZR big.
Proof.
  destruct (example_runs 1 1 4 2 [0; 0; 0] 100) as (m' & R1 & H); [vm_compute; reflexivity|]. exists m'. split; [exact R1|]. exact (H 0 (1%nat, ravel [6; 4] [3; 1])).
Qed.
Lemma two_ranks : exists m', runs_to 2 (progR 2 1 2 2 [1; 0; 0]) (fun r a => IZR (ex_mem [1; 0; 0] r a)) m' /\ m' 1 (1%nat, ravel [4; 4] [1; 1]) = IZR (big + 2).
Proof.
  destruct (example_runs 2 1 2 2 [1; 0; 0] 100) as (m' & R1 & H); [vm_compute; reflexivity|]. exists m'. split; [exact R1|]. exact (H 1 (1%nat, ravel [4; 4] [1; 1])).
Qed.
(** Both process grids are ready. *)
Lemma double_int k : 0 <= k <= big -> is_double (IZR k).
Proof. intros H. rewrite <- (b64_int k) by exact H. apply b64_double. Qed.
Lemma ex_mem_range ad r a : 0 <= ex_mem ad r a <= big.
Proof. unfold ex_mem, ex_force, big. destruct (Nat.eqb _ _); [|lia]. destruct (nth_error _ _) as [j|]; [|lia]. destruct (0 <=? snd a); [|lia]. destruct (j =? 0); lia. Qed.
Lemma ex_other ad r b k : b <> O -> IZR (ex_mem ad r (b, k)) = 0%R.
Proof. intros H. unfold ex_mem. cbn [fst]. now rewrite (proj2 (Nat.eqb_neq b 0) H). Qed.
Lemma ready_gen nodes dims loc bufs ad : map_nodes false dims loc 1 0 (Z.of_nat (length dims)) nodes = Mapped ad -> Forall (in_domain 1 0 dims loc) nodes -> NoDup (0%nat :: [1%nat] ++ map fst bufs) ->
  ready is_double dims loc 1 1 0 nodes ad [1%nat] 0%nat bufs (fun _ j => IZR (ex_force j)) (fun _ _ => 0%R) (fun r a => IZR (ex_mem ad r a)).
Proof.
  intros Hm Hi Hn. split; auto.
  - intros r a. apply double_int, ex_mem_range.
  - intros b sz Hb r K Hr HK. apply ex_other. inversion Hn as [|x l Hx _]; subst. intros ->. apply Hx. right. apply (in_map fst) in Hb. exact Hb.
  - intros r c f i j Hr Hc Hf [Hi0 Hj]. assert (Ec : c = 0). { destruct (Z.to_nat c) eqn:E; [lia|]. cbn in Hf. destruct n; discriminate. } subst c.
    unfold lag_local, ex_mem. cbn [fst snd Nat.eqb]. rewrite Z.mul_0_l, Z.add_0_l, Hj. now rewrite (proj2 (Z.leb_le 0 i) Hi0).
  - intros f r I [<-|[]] _ _. now apply ex_other.
  - intros f r I [<-|[]] _ _ _. now apply ex_other.
Qed.
Lemma ready_one : ready is_double [1; 1] [4; 2] 1 1 0 ex_nodes [0; 0; 0] [1%nat] 0%nat (buffers_2d 4 2 1 2 3) (fun _ j => IZR (ex_force j)) (fun _ _ => 0%R) (fun r a => IZR (ex_mem [0; 0; 0] r a)).
Proof.
  apply ready_gen.
  - vm_compute. reflexivity.
  - repeat (apply Forall_cons || apply Forall_nil); repeat (apply ic_cons || apply ic_nil); vm_compute; congruence.
  - repeat (constructor; [cbn; lia|]). constructor.
Qed.
Lemma ready_two : ready is_double [2; 1] [2; 2] 1 1 0 ex_nodes [1; 0; 0] [1%nat] 0%nat (buffers_2d 2 2 1 2 3) (fun _ j => IZR (ex_force j)) (fun _ _ => 0%R) (fun r a => IZR (ex_mem [1; 0; 0] r a)).
Proof.
  apply ready_gen.
  - vm_compute. reflexivity.
  - repeat (apply Forall_cons || apply Forall_nil); repeat (apply ic_cons || apply ic_nil); vm_compute; congruence.
  - repeat (constructor; [cbn; lia|]). constructor.
Qed.
Definition ex_nodes_3d : list (list Q) := [[0; 1; 2]; [0; 1; 1]; [1; 1; 1]]%Q.
Lemma ready_3d pz n0 ad : (pz, n0, ad) = (1, 4, [0; 0; 0]) \/ (pz, n0, ad) = (2, 2, [1; 0; 0]) ->
  ready is_double [pz; 1; 1] [n0; 2; 2] 1 1 0 ex_nodes_3d ad [1%nat] 0%nat (buffers_3d n0 2 2 1 2 3 4) (fun _ j => IZR (ex_force j)) (fun _ _ => 0%R) (fun r a => IZR (ex_mem ad r a)).
Proof.
  intros [H|H]; injection H as -> -> ->; apply ready_gen.
  1,4: vm_compute; reflexivity.
  1,3: repeat (apply Forall_cons || apply Forall_nil); repeat (apply ic_cons || apply ic_nil); vm_compute; congruence.
  all: repeat (constructor; [cbn; lia|]); constructor.
Qed.
