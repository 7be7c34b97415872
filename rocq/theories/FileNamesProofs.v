(** Proofs about the file names of checkpoints (C73). *)
From Coq Require Import Ascii String DecimalNat DecimalFacts DecimalString Reals Lra.
From Flocq Require Import Core.
From Verif Require Import Base SpecRounding Rounding RoundingProofs SpecFileNames IoLag FileNames SpecCheckpoint.
From Verif Require Checkpoint IoLagProofs.
Open Scope list_scope.

(** *** Digits *)
Lemma decimal_digits n : Forall is_digit (lit (decimal n)).
Proof. unfold decimal. generalize (Nat.to_uint n). intros u. unfold lit, is_digit. induction u; cbn [NilEmpty.string_of_uint list_ascii_of_string]; constructor; try exact IHu; cbn; lia. Qed.
Lemma value_uint u : forall a, fold_left (fun a c => (10 * a + (nat_of_ascii c - 48))%nat) (lit (NilEmpty.string_of_uint u)) a = Nat.of_uint_acc u a.
Proof.
  induction u; intros a; cbn [NilEmpty.string_of_uint lit list_ascii_of_string fold_left Nat.of_uint_acc]; [reflexivity| ..]; unfold lit in IHu; rewrite IHu; f_equal; rewrite Nat.tail_mul_spec; cbn [nat_of_ascii Nat.sub]; match goal with |- context [nat_of_ascii ?c] => change (nat_of_ascii c) with (Nat.of_num_uint (Nat.to_num_uint (nat_of_ascii c))); vm_compute (Nat.of_num_uint _) | _ => idtac end; cbn; lia.
Qed.
Lemma value_decimal n : value (lit (decimal n)) = n.
Proof. unfold value, decimal. rewrite value_uint. exact (Unsigned.of_to n). Qed.
Lemma value_zeros k t : value (repeat "0"%char k ++ t) = value t.
Proof. unfold value. induction k as [|k IH]; [reflexivity|]. cbn [repeat app fold_left]. exact IH. Qed.
Lemma five_value n : value (five n) = n.
Proof. unfold five. rewrite value_zeros. apply value_decimal. Qed.
Lemma five_digits n : Forall is_digit (five n).
Proof. unfold five. apply Forall_app. split; [|apply decimal_digits]. apply Forall_forall. intros c Hc. apply repeat_spec in Hc. subst c. unfold is_digit. cbn. lia. Qed.
Lemma five_length n : (5 <= length (five n))%nat.
Proof. unfold five. rewrite app_length, repeat_length. lia. Qed.
Lemma decimal_head n u : Nat.to_uint n = Decimal.D0 u -> u = Decimal.Nil.
Proof.
  intros E. pose proof (Unsigned.to_of (Nat.to_uint n)) as U. rewrite Unsigned.of_to, E in U. unfold Decimal.unorm in U. cbn [Decimal.nzhead] in U.
  destruct (Decimal.nzhead u) eqn:Eh; try discriminate U; [now injection U|]. exfalso. exact (nzhead_nonzero _ _ Eh).
Qed.
Lemma five_spec n : in_digits 5 n (five n).
Proof.
  split; [apply five_digits|]. split; [apply five_value|]. split; [apply five_length|]. unfold five. intros H H0. rewrite app_length, repeat_length in H.
  replace (5 - length (lit (decimal n)))%nat with 0%nat in H0 by (clear H0; lia). cbn [repeat app] in H0.
  unfold decimal in *. destruct (Nat.to_uint n) as [|u|u|u|u|u|u|u|u|u|u] eqn:Eu; try discriminate H0. apply decimal_head in Eu. subst u. cbn in H. clear -H. lia.
Qed.
Lemma five_inj n k : five n = five k -> n = k.
Proof. intros E. rewrite <- (five_value n), <- (five_value k). now rewrite E. Qed.

(** *** Parsing *)
Lemma split_none c s : ~ In c s -> split c s = [s].
Proof. induction s as [|x s IH]; intros H; [reflexivity|]. cbn [split]. destruct (Ascii.eqb_spec x c) as [->|_]; [exfalso; apply H; now left|]. rewrite IH; [reflexivity|]. intros I. apply H. now right. Qed.
Lemma split_some c a b : ~ In c a -> split c (a ++ c :: b) = a :: split c b.
Proof. induction a as [|x a IH]; intros H; cbn [app split]; [now rewrite Ascii.eqb_refl|]. destruct (Ascii.eqb_spec x c) as [->|_]; [exfalso; apply H; now left|]. rewrite IH; [reflexivity|]. intros I. apply H. now right. Qed.
Lemma not_digit c t : ~ is_digit c -> Forall is_digit t -> ~ In c t.
Proof. intros H F I. rewrite Forall_forall in F. exact (H (F c I)). Qed.
Lemma digitb_all t : Forall is_digit t -> forallb digitb t = true.
Proof. intros H. apply forallb_forall. intros c Hc. rewrite Forall_forall in H. destruct (H c Hc) as [H1 H2]. unfold digitb. apply andb_true_intro. split; now apply Nat.leb_le. Qed.
Lemma int_five n : int_of (five n) = Some n.
Proof. pose proof (five_length n) as L. unfold int_of. destruct (five n) as [|c t] eqn:E; [cbn in L; lia|]. rewrite <- E, (digitb_all _ (five_digits n)), five_value. reflexivity. Qed.
Lemma number_flow n : number_of (flow_name n) = Some n.
Proof.
  unfold number_of, flow_name. change (lit "flow_") with (lit "flow" ++ ["_"%char]). rewrite <- !app_assoc. cbn [app].
  rewrite split_some by (cbn; intuition discriminate).
  rewrite (split_none "_" (five n ++ _)).
  2:{ intros I. apply in_app_or in I as [I|I]; [revert I; apply not_digit; [unfold is_digit; cbn; lia|apply five_digits]|]. cbn in I. intuition discriminate. }
  cbn [last]. change (lit ".h5") with ("."%char :: lit "h5"). rewrite split_some by (apply not_digit; [unfold is_digit; cbn; lia|apply five_digits]). cbn [hd]. apply int_five.
Qed.

(** *** Looking for text *)
Lemma starts_true p f : starts p f = true <-> exists b, f = p ++ b.
Proof.
  revert f. induction p as [|c p IH]; intros f; cbn [starts].
  - split; [exists f; reflexivity|reflexivity].
  - destruct f as [|x f]; [split; [discriminate|intros (b & E); discriminate E]|]. rewrite andb_true_iff, IH. destruct (Ascii.eqb_spec c x) as [->|Hn].
    + split; [intros (_ & b & ->); now exists b|intros (b & E)]. split; [reflexivity|]. injection E as E. now exists b.
    + split; [intros [H _]; discriminate H|intros (b & E)]. injection E as E _. congruence.
Qed.
Lemma has_true p f : has p f = true <-> contains p f.
Proof.
  induction f as [|x f IH]; cbn [has].
  - rewrite orb_false_r, starts_true. split.
    + intros (b & E). now exists [], b.
    + intros (a & b & E). symmetry in E. apply app_eq_nil in E as [-> E]. now exists b.
  - rewrite orb_true_iff, starts_true, IH. split.
    + intros [(b & E)|(a & b & E)]; [now exists [], b|]. exists (x :: a), b. now rewrite E.
    + intros (a & b & E). destruct a as [|y a]; [left; now exists b|right]. injection E as _ E. now exists a, b.
Qed.
Lemma wanted_true f : wanted f = true <-> contains (lit "flow") f /\ contains (lit "h5") f.
Proof. unfold wanted. rewrite andb_true_iff, !has_true. reflexivity. Qed.
Lemma contains_in p f c : contains p f -> In c p -> In c f.
Proof. intros (a & b & ->) H. apply in_or_app. right. apply in_or_app. now left. Qed.
Lemma flow_wanted n : wanted (flow_name n) = true.
Proof. apply wanted_true. split; [now exists [], (lit "_" ++ five n ++ lit ".h5")|]. exists (lit "flow_" ++ five n ++ lit "."), []. unfold flow_name. now rewrite <- !app_assoc. Qed.
Lemma not_wanted c p f : In c p -> ~ In c f -> ~ contains p f.
Proof. intros H H' C. exact (H' (contains_in p f c C H)). Qed.
Lemma no_in_name c a n b : ~ In c a -> ~ is_digit c -> ~ In c b -> ~ In c (a ++ five n ++ b).
Proof. intros Ha Hd Hb I. apply in_app_or in I as [I|I]; [tauto|]. apply in_app_or in I as [I|I]; [|tauto]. revert I. apply not_digit; [exact Hd|apply five_digits]. Qed.
Lemma rod_other n : ~ contains (lit "flow") (rod_name n).
Proof. apply (not_wanted "f"); [cbn; tauto|]. apply no_in_name; [cbn; intuition discriminate|unfold is_digit; cbn; lia|cbn; intuition discriminate]. Qed.
Lemma xmf_other n : ~ contains (lit "h5") (flow_xmf_name n).
Proof. apply (not_wanted "h"); [cbn; tauto|]. apply no_in_name; [cbn; intuition discriminate|unfold is_digit; cbn; lia|cbn; intuition discriminate]. Qed.

(** *** The latest *)
Lemma max_from ns : forall n, (In (fold_left Nat.max ns n) (n :: ns)) /\ forall k, In k (n :: ns) -> (k <= fold_left Nat.max ns n)%nat.
Proof.
  induction ns as [|m ns IH]; intros n; cbn [fold_left]; [split; [now left|]; intros k [->|[]]; lia|]. destruct (IH (Nat.max n m)) as [I U]. split.
  - destruct I as [I|I]; [|right; now right]. rewrite <- I. destruct (Nat.max_spec n m) as [[_ ->]|[_ ->]]; [right; now left|now left].
  - intros k [->|[->|Hk]]; [|  |apply U; now right]; (eapply Nat.le_trans; [|apply U; now left]); lia.
Qed.
Lemma numbers_all saved files : (forall f, In f files -> wanted f = true -> exists n, In n saved /\ f = flow_name n) ->
  exists ns, numbers files = Some ns /\ forall n, In n ns <-> In (flow_name n) files.
Proof.
  induction files as [|f files IH]; intros H; cbn [numbers]; [exists []; split; [reflexivity|intros n; split; intros []]|].
  destruct IH as (ns & E & M); [intros g Hg; apply H; now right|]. destruct (wanted f) eqn:W.
  - destruct (H f (or_introl eq_refl) W) as (n & _ & ->). rewrite number_flow, E. exists (n :: ns). split; [reflexivity|]. intros k. cbn [In]. rewrite M. split; (intros [Hk|Hk]; [left|now right]).
    + now rewrite Hk.
    + pose proof (f_equal number_of Hk) as Q. rewrite !number_flow in Q. congruence.
  - exists ns. split; [exact E|]. intros k. cbn [In]. rewrite M. split; [now right|]. intros [Hk|Hk]; [|exact Hk]. rewrite Hk, flow_wanted in W. discriminate W.
Qed.
Lemma latest_is saved files : saved <> [] -> (forall n, In n saved -> In (flow_name n) files) -> (forall f, In f files -> wanted f = true -> exists n, In n saved /\ f = flow_name n) ->
  exists n, latest files = Some n /\ In n saved /\ forall k, In k saved -> (k <= n)%nat.
Proof.
  intros Hne Hin Hall. destruct (numbers_all saved files Hall) as (ns & E & M). unfold latest. rewrite E. destruct ns as [|n ns].
  - destruct saved as [|k saved]; [now destruct Hne|]. exfalso. exact (proj2 (M k) (Hin k (or_introl eq_refl))).
  - destruct (max_from ns n) as [I U]. exists (fold_left Nat.max ns n). split; [reflexivity|]. split.
    + apply M in I. destruct (Hall _ I (flow_wanted _)) as (k & Hk & Ek). pose proof (f_equal number_of Ek) as Q. rewrite !number_flow in Q. injection Q as ->. exact Hk.
    + intros k Hk. apply U, M, Hin, Hk.
Qed.
Lemma bad_file f files : In f files -> wanted f = true -> number_of f = None -> latest files = None.
Proof.
  intros I W N. assert (E : numbers files = None); [|unfold latest; now rewrite E]. induction files as [|g files IH]; [destruct I|]. cbn [numbers]. destruct I as [->|I].
  - now rewrite W, N.
  - rewrite (IH I). destruct (wanted g); [|reflexivity]. now destruct (number_of g).
Qed.
Lemma zmax_from ks : forall k, (In (fold_left Z.max ks k) (k :: ks)) /\ forall j, In j (k :: ks) -> (j <= fold_left Z.max ks k)%Z.
Proof.
  induction ks as [|m ks IH]; intros n; cbn [fold_left]; [split; [now left|]; intros j [->|[]]; lia|]. destruct (IH (Z.max n m)) as [I U]. split.
  - destruct I as [I|I]; [|right; now right]. rewrite <- I. destruct (Z.max_spec n m) as [[_ ->]|[_ ->]]; [right; now left|now left].
  - intros j [->|[->|Hk]]; [|  |apply U; now right]; (eapply Z.le_trans; [|apply U; now left]); lia.
Qed.
Lemma latest_checkpoint (names : list Z) files : Forall (fun k => (0 <= k)%Z) names -> (forall k, In k names -> In (flow_name (Z.to_nat k)) files) ->
  (forall f, In f files -> wanted f = true -> exists k, In k names /\ f = flow_name (Z.to_nat k)) -> option_map Z.of_nat (latest files) = Checkpoint.latest names.
Proof.
  intros H0 Hin Hall. rewrite Forall_forall in H0. destruct names as [|k names].
  - assert (E : numbers files = Some []); [|unfold latest; now rewrite E]. revert Hall. clear. induction files as [|f files IH]; intros H; [reflexivity|]. cbn [numbers]. destruct (wanted f) eqn:W.
    + destruct (H f (or_introl eq_refl) W) as (j & [] & _).
    + apply IH. intros g Hg. apply H. now right.
  - destruct (latest_is (map Z.to_nat (k :: names)) files) as (n & E & I & U).
    + discriminate.
    + intros n Hn. apply in_map_iff in Hn as (j & <- & Hj). now apply Hin.
    + intros f Hf W. destruct (Hall f Hf W) as (j & Hj & ->). exists (Z.to_nat j). split; [now apply in_map|reflexivity].
    + rewrite E. cbn [option_map Checkpoint.latest]. f_equal. destruct (zmax_from names k) as [I' U']. apply in_map_iff in I as (j & <- & Hj).
      rewrite Z2Nat.id by (now apply H0). apply Z.le_antisymm; [now apply U'|]. pose proof (U _ (in_map Z.to_nat _ _ I')) as L. apply Z2Nat.inj_le in L; [exact L|now apply H0|now apply H0].
Qed.

(** *** Times *)
Open Scope R_scope.
Lemma number_mono s t : s <= t -> (number_of_time s <= number_of_time t)%Z.
Proof. intros H. unfold number_of_time. apply Ztrunc_le, b64_mono. lra. Qed.
Lemma number_ge0 t : 0 <= t -> (0 <= number_of_time t)%Z.
Proof. intros H. unfold number_of_time. rewrite <- (Ztrunc_IZR 0). apply Ztrunc_le. apply b64_ge0. lra. Qed.
Lemma clock_64 : clock Req_bool Rlt number_of_time.
Proof.
  split.
  - intros t. lra.
  - intros a b c. lra.
  - intros a b. destruct (Req_bool_spec a b); split; congruence.
  - intros a b H. apply number_mono. lra.
Qed.
Lemma numbers_apart s t : 0 <= s -> s + / 100 + bpow radix2 (-51) * t <= t -> (number_of_time s < number_of_time t)%Z.
Proof.
  intros Hs H. assert (E : bpow radix2 (-51) = 4 * u).
  { rewrite u_val. change (bpow radix2 (-51)) with (/ 2251799813685248). lra. }
  rewrite E in H. destruct tiny_small as [T0 T1].
  assert (U : 0 < u <= / 1000).
  { rewrite u_val. lra. }
  assert (Hp : 0 <= t).
  { destruct (Rle_or_lt 0 t) as [L|L]; [exact L|]. exfalso. assert (4 * u * t >= t) by (clear -U L; nra). lra. }
  assert (Hu : 0 <= u * t) by (apply Rmult_le_pos; lra).
  assert (Ht : / 100 <= t) by lra.
  assert (Hst : s <= t) by lra.
  assert (Hu' : tiny <= 100 * (u * t)) by (apply Rle_trans with (1 := T1); clear -U Ht; nra).
  assert (Hs' : u * s <= u * t) by (apply Rmult_le_compat_l; lra).
  assert (Es : b64 (s * 100) <= s * 100 + (s * 100 * u + tiny)) by (pose proof (b64_abs (s * 100) ltac:(lra)) as B; apply Rabs_le_inv in B; lra).
  assert (Et : t * 100 - (t * 100 * u + tiny) <= b64 (t * 100)) by (pose proof (b64_abs (t * 100) ltac:(lra)) as B; apply Rabs_le_inv in B; lra).
  assert (B0 : 0 <= b64 (s * 100)) by (apply b64_ge0; lra).
  assert (D : b64 (s * 100) + 1 <= b64 (t * 100)) by lra.
  unfold number_of_time. rewrite !Ztrunc_floor by lra. pose proof (Zfloor_lub (Zfloor (b64 (s * 100)) + 1) (b64 (t * 100))) as Z. rewrite plus_IZR in Z. pose proof (Zfloor_lb (b64 (s * 100))). specialize (Z ltac:(lra)). lia.
Qed.
(** 0.28 and 0.29 in double precision. *)
Definition t28 : R := 1261007895663739 / 4503599627370496.
Definition t29 : R := 5224175567749775 / 18014398509481984.
Lemma t28_double : is_double t28.
Proof. apply generic_format_FLT. exists (Float radix2 1261007895663739 (-52)); [|cbn; lia|cbn; lia]. unfold F2R, t28. cbn [Fnum Fexp]. change (bpow radix2 (-52)) with (/ 4503599627370496). lra. Qed.
Lemma t29_double : is_double t29.
Proof. apply generic_format_FLT. exists (Float radix2 5224175567749775 (-54)); [|cbn; lia|cbn; lia]. unfold F2R, t29. cbn [Fnum Fexp]. change (bpow radix2 (-54)) with (/ 18014398509481984). lra. Qed.
Lemma below29 : b64 (t29 * 100) <= 29 - bpow radix2 (-48).
Proof.
  set (v := 29 - bpow radix2 (-48)). assert (V : v = 8162774324609023 * / 281474976710656) by (unfold v; change (bpow radix2 (-48)) with (/ 281474976710656); lra).
  assert (D : is_double v).
  { apply generic_format_FLT. exists (Float radix2 8162774324609023 (-48)); [|cbn; lia|cbn; lia]. unfold F2R. cbn [Fnum Fexp]. change (bpow radix2 (-48)) with (/ 281474976710656). lra. }
  assert (P : 0 < v) by (rewrite V; lra).
  assert (M : mag radix2 v = 5%Z :> Z).
  { apply mag_unique. rewrite Rabs_pos_eq by lra. change (bpow radix2 (5 - 1)) with 16. change (bpow radix2 5) with 32. rewrite V. lra. }
  assert (S : succ radix2 (FLT_exp (-1074) 53) v = 29).
  { rewrite succ_eq_pos by lra. rewrite ulp_neq_0 by lra. unfold cexp. rewrite M. change (FLT_exp (-1074) 53 5) with (-48)%Z. unfold v. lra. }
  unfold b64. apply round_N_le_midp; [apply (@FLT_exp_valid (-1074) 53); reflexivity|exact D|]. rewrite S, V. unfold t29. lra.
Qed.
Lemma b64_28 : b64 28 = 28. Proof. exact (b64_int 28 ltac:(lia)). Qed.
Lemma number28 : number_of_time t28 = 28%Z.
Proof.
  unfold number_of_time. assert (L : 28 <= b64 (t28 * 100)) by (rewrite <- b64_28 at 1; apply b64_mono; unfold t28; lra). rewrite Ztrunc_floor by lra. apply Zfloor_imp. split; [exact L|].
  assert (V : 0 <= t28 * 100 <= 285 / 10) by (unfold t28; lra). pose proof (b64_abs (t28 * 100) ltac:(lra)) as B. apply Rabs_le_inv in B. destruct tiny_small as [T0 T1]. rewrite u_val in *. change (IZR (28 + 1)) with 29. lra.
Qed.
Lemma number29 : number_of_time t29 = 28%Z.
Proof.
  unfold number_of_time. assert (L : 28 <= b64 (t29 * 100)) by (rewrite <- b64_28 at 1; apply b64_mono; unfold t29; lra). rewrite Ztrunc_floor by lra. apply Zfloor_imp. split; [exact L|].
  pose proof below29 as B. pose proof (bpow_gt_0 radix2 (-48)). change (IZR (28 + 1)) with 29. lra.
Qed.
