From Coq Require Import String Permutation.
From Verif Require Import Base SpecGrid SpecIO Comm IoEul IoEulProofs IoLag SpecIOLag IoLagProofs IoRod.
Open Scope Z_scope.
Open Scope list_scope.

Section R.
Context {T : Type}.
Variables (add : T -> T -> T) (half : T -> T).
Variables (dim n master : Z) (pos rad elt : nat).
Hypothesis Hpe : pos <> elt.
Hypothesis Hre : rad <> elt.

(** the rod's own arrays after a history: what the last move put there *)
Definition rod_arrays (m : mem T) (es : list (@rod_event T)) : Z -> nat * Z -> T :=
  fold_left (fun p e => match e with RMove q => q | _ => p end) es (fun r a => m (r, a)).

Notation moved := (fun (p : Z -> nat * Z -> T) e => match e with RMove q => q | _ => p end).
Lemma saves_gen t m1 pre post : forall (m : mem T) (p0 : Z -> nat * Z -> T), (forall r a, fst a <> elt -> m (r, a) = p0 r a) ->
  nth_error (saves add half dim n pos elt m (pre ++ RSave t :: post)) (length (filter (fun e => match e with RSave _ => true | _ => false end) pre)) = Some (t, m1) ->
  (forall r o, m1 (r, (rad, o)) = fold_left moved pre p0 r (rad, o)) /\
  (forall r c i, 0 <= c < dim -> 0 <= i < n -> m1 (r, (elt, c * n + i)) =
     half (add (fold_left moved pre p0 r (pos, c * (n + 1) + (i + 1))) (fold_left moved pre p0 r (pos, c * (n + 1) + i)))).
Proof.
  induction pre as [|e pre IH]; intros m p0 Hm.
  - cbn [app filter length saves nth_error]. intros [= <-]. split.
    + intros r o. cbn [rod_step]. unfold update_elements. destruct (Nat.eqb_spec rad elt); [contradiction|]. cbn [andb fold_left]. now apply Hm.
    + intros r c i Hc Hi. cbn [rod_step]. unfold update_elements. rewrite Nat.eqb_refl. cbn [andb fold_left]. unfold in_elt.
      assert (0 <= c * n + i) by nia. assert (c * n + i < dim * n) by nia. 
      replace ((0 <=? c * n + i) && (c * n + i <? dim * n)) with true by (symmetry; apply andb_true_iff; lia).
      assert (Ed : (c * n + i) / n = c). { rewrite Z.div_add_l by lia. rewrite Z.div_small by lia. lia. }
      assert (Em : (c * n + i) mod n = i). { rewrite Z.add_comm, Z.mod_add by lia. apply Z.mod_small. lia. }
      rewrite Ed, Em. f_equal. f_equal; now apply Hm.
  - destruct e as [q|e|t']; cbn [app filter length saves fold_left].
    + apply IH. intros r [a o] Ha. cbn [rod_step fst] in *. destruct (Nat.eqb_spec a elt); [contradiction|reflexivity].
    + apply IH. intros r [a o] Ha. cbn [rod_step fst] in *. destruct (Nat.eqb_spec a elt); [contradiction|now apply Hm].
    + cbn [nth_error]. apply IH. intros r [a o] Ha. cbn [fst] in Ha. cbn [rod_step]. unfold update_elements. destruct (Nat.eqb_spec a elt); [contradiction|]. cbn [andb]. now apply Hm.
Qed.

Lemma saves_split (m : mem T) t m1 pre post :
  nth_error (saves add half dim n pos elt m (pre ++ RSave t :: post)) (length (filter (fun e => match e with RSave _ => true | _ => false end) pre)) = Some (t, m1) ->
  (forall r o, m1 (r, (rad, o)) = rod_arrays m pre r (rad, o)) /\
  (forall r c i, 0 <= c < dim -> 0 <= i < n -> m1 (r, (elt, c * n + i)) =
     half (add (rod_arrays m pre r (pos, c * (n + 1) + (i + 1))) (rod_arrays m pre r (pos, c * (n + 1) + i)))).
Proof. apply saves_gen. reflexivity. Qed.

Lemma saves_count (m : mem T) es : length (saves add half dim n pos elt m es) = length (filter (fun e => match e with RSave _ => true | _ => false end) es).
Proof. revert m. induction es as [|[q|e|t] es IH]; intros m; cbn [saves filter length]; auto. Qed.

Lemma rod_entries : exists st, rod_io dim n master rad elt = Some st /\ entries dim st = Some (expected 0 [rod_add n master rad elt]) /\ lag_fresh (expected 0 [rod_add n master rad elt]).
Proof.
  destruct (entries_ok dim [rod_add n master rad elt]) as (st & H1 & H2 & _).
  - repeat constructor. 
  - cbn. repeat constructor. intros [].
  - cbn. repeat constructor. intros [].
  - exists st. repeat split; auto. apply expected_keys_fresh; cbn; repeat constructor; intros [].
Qed.
Lemma rod_file (m1 : mem T) t st ws : Permutation ws (lag_writes dim (expected 0 [rod_add n master rad elt]) m1) ->
  let F := lag_saved st (expected 0 [rod_add n master rad elt]) t ws in
  (forall i c, 0 <= i < n -> 0 <= c < dim -> l_data F (KGrid "rod", [i; c]) = Some (m1 (master, (elt, c * n + i)))) /\
  (forall i, 0 <= i < n -> l_data F (KScalar "rod" "scalar_3d", [i]) = Some (m1 (master, (rad, i)))).
Proof.
  intros Hp F. destruct rod_entries as (_ & _ & _ & Hfr).
  assert (He : expected 0 [rod_add n master rad elt] = [gentry "rod" (rod_add n master rad elt); fentry "rod" (rod_add n master rad elt) ("scalar_3d"%string, (rad, [n]))]) by reflexivity.
  split.
  - intros i c Hi Hc. apply (lag_saved_data dim st _ m1 t ws (gentry "rod" (rod_add n master rad elt)) [i; c] (c * n + i) Hfr Hp).
    + rewrite He. now left.
    + apply elements_vec; [reflexivity|]. exists i, c. auto.
  - intros i Hi. assert (Ef : fentry "rod" (rod_add n master rad elt) ("scalar_3d"%string, (rad, [n])) = {| le_rank := master; le_key := KScalar "rod" "scalar_3d"; le_arr := rad; le_vec := false; le_n := n |}).
    { unfold fentry. cbn [snd fst rod_add la_n la_master]. destruct (list_eq_dec Z.eq_dec [n] [n]); [reflexivity|congruence]. }
    pose proof (lag_saved_data dim st _ m1 t ws (fentry "rod" (rod_add n master rad elt) ("scalar_3d"%string, (rad, [n]))) [i] i Hfr Hp) as K. rewrite Ef in K. apply K.
    + rewrite He, Ef. right. now left.
    + apply elements_sc; [reflexivity|]. exists i. auto.
Qed.
End R.

Lemma saves_at {T} (add : T -> T -> T) (half : T -> T) dim n pos elt (m : mem T) t pre post :
  exists m1, nth_error (saves add half dim n pos elt m (pre ++ RSave t :: post)) (length (filter (fun e => match e with RSave _ => true | _ => false end) pre)) = Some (t, m1).
Proof. revert m. induction pre as [|[q|e|t'] pre IH]; intros m; cbn [app saves filter length nth_error]; eauto. Qed.
