(** Proofs for C63. *)
From Verif Require Import Base Checkpoint SpecCheckpoint.
Open Scope Z_scope.
Section P.
Context {Time F R G E : Type}.
Variables (teq : Time -> Time -> bool) (lt : Time -> Time -> Prop) (num : Time -> Z) (master : Z).
Hypothesis HC : clock teq lt num.
Notation sim := (sim Time F R G E).
Notation disk := (disk Time F R G E).
Notation restores := (@restores Time F R G E teq master).
Notation refuses := (@refuses Time F R G E teq master).

Lemma fold_max l : forall a, (fold_left Z.max l a = a \/ In (fold_left Z.max l a) l) /\ a <= fold_left Z.max l a /\ (forall j, In j l -> j <= fold_left Z.max l a).
Proof.
  induction l as [|b l IH]; intros a; cbn [fold_left]; [repeat split; [now left|lia|intros j []]|]. destruct (IH (Z.max a b)) as (H1 & H2 & H3). split; [|split].
  - destruct H1 as [H1|H1]; [|right; now right]. rewrite H1. destruct (Z.max_spec a b) as [[_ ->]|[_ ->]]; [right; now left|now left].
  - lia.
  - intros j [<-|Hj]; [lia|now apply H3].
Qed.
Lemma latest_is l k : In k l -> (forall j, In j l -> j <= k) -> latest l = Some k.
Proof.
  destruct l as [|a l]; [intros []|]. intros Hk Hm. cbn. f_equal. destruct (fold_max l a) as (H1 & H2 & H3).
  assert (fold_left Z.max l a <= k) by (apply Hm; destruct H1 as [->|H1]; [now left|now right]). assert (k <= fold_left Z.max l a) by (destruct Hk as [<-|Hk]; [exact H2|now apply H3]). lia.
Qed.
Lemma put_same {X} (f : Z -> X) k x : put f k x k = x.
Proof. unfold put. now rewrite Z.eqb_refl. Qed.
Lemma teq_refl t : teq t t = true.
Proof. now apply (cl_eq _ _ _ HC). Qed.
Lemma teq_lt a b : lt a b -> teq b a = false.
Proof. intros H. destruct (teq b a) eqn:T; [|reflexivity]. apply (cl_eq _ _ _ HC) in T. subst. now apply (cl_irrefl _ _ _ HC) in H. Qed.

(** The last checkpoint on the disk is the one of s, complete. *)
Record clean (d : disk) (s : sim) : Prop := {
  c_in : In (num (now s)) (names d);
  c_max : forall j, In j (names d) -> j <= num (now s);
  c_flow : d_flow d (num (now s)) = Whole (now s, flow s);
  c_rod : d_rod d (num (now s)) = Whole (now s, rod s);
  c_grid : d_grid d (num (now s)) = Whole (now s, grid s);
  c_ela : d_ela d = Whole (now s, ela s) }.
Lemma clean_restores d s : clean d s -> restores d s.
Proof.
  intros [H1 H2 H3 H4 H5 H6]. unfold Checkpoint.restores, restart. rewrite (latest_is _ _ H1 H2), H3, H4, H5, Z.eqb_refl, H6, teq_refl. reflexivity.
Qed.
Lemma restores_det d s s' : restores d s -> restores d s' -> s = s'.
Proof. unfold Checkpoint.restores. intros H1 H2. rewrite H1 in H2. injection H2 as A B C D E0. destruct s, s'; cbn in *. subst. reflexivity. Qed.
Lemma refuses_not d s : refuses d -> restores d s -> False.
Proof. unfold Checkpoint.refuses, Checkpoint.restores. intros H1 H2. rewrite H1 in H2. discriminate. Qed.

Definition good (d : disk) (cur : option sim) (dn : list sim) : Prop :=
  (dn = [] /\ names d = [] /\ d_ela d = Absent) \/ exists s0 rest, dn = s0 :: rest /\ clean d s0 /\ forall s, cur = Some s -> s = s0 \/ lt (now s0) (now s).
Definition inv (d : disk) (cur : option sim) (dn : list sim) : Prop := (cur = None /\ refuses d) \/ good d cur dn.

Lemma refuse_at d k : In k (names d) -> (forall j, In j (names d) -> j <= k) ->
  (d_flow d k = Broken \/ d_rod d k = Broken \/ d_grid d k = Broken \/ (exists t f, d_flow d k = Whole (t, f) /\ match d_ela d with Whole (te, _) => teq t te = false | _ => True end)) -> refuses d.
Proof.
  intros H1 H2 H. unfold Checkpoint.refuses, restart. rewrite (latest_is _ _ H1 H2). destruct (d_flow d k) as [| |[t f]] eqn:Ef; try reflexivity. destruct (d_rod d k) as [| |[? ?]] eqn:Er; try reflexivity. destruct (d_grid d k) as [| |[? ?]] eqn:Eg; try reflexivity.
  destruct H as [H|[H|[H|(t' & f' & H & He)]]]; try discriminate. injection H as <- <-. rewrite Z.eqb_refl. destruct (d_ela d) as [| |[te e]]; try reflexivity. now rewrite He.
Qed.
Ltac steps := cbn [run_steps firstn save_steps fold_left].
Ltac disk := cbn [names d_flow d_rod d_grid d_ela open_flow close_flow open_rod close_rod open_grid close_grid open_ela close_ela].
(** Dying during a save, when the file number is (or becomes) the greatest. *)
Lemma die_refuses d s j : (forall i, In i (names d) -> i <= num (now s)) -> (1 <= j < 8)%nat -> match d_ela d with Whole (te, _) => teq (now s) te = false | _ => True end ->
  refuses (run_steps (firstn j (save_steps num s)) d).
Proof.
  intros Hm Hj He. assert (N : forall i, In i (num (now s) :: names d) -> i <= num (now s)) by (intros i [<-|Hi]; [lia|auto]).
  assert (D : j = 1%nat \/ j = 2%nat \/ j = 3%nat \/ j = 4%nat \/ j = 5%nat \/ j = 6%nat \/ j = 7%nat) by lia.
  destruct D as [-> | [-> | [-> | [-> | [-> | [-> | -> ]]]]]]; steps; apply (refuse_at _ (num (now s))); disk; try (now left); try exact N; rewrite ?put_same; try (left; reflexivity).
  all: right; try (left; reflexivity); right; try (left; reflexivity); right; eexists _, _; (split; [reflexivity|]); first [exact He|exact I].
Qed.
(** Saving again what the last checkpoint holds. *)
Lemma die_again_odd d s j : clean d s -> (j = 1 \/ j = 3 \/ j = 5 \/ j = 7)%nat -> refuses (run_steps (firstn j (save_steps num s)) d).
Proof.
  intros [H1 H2 H3 H4 H5 H6] Hj. assert (N : forall i, In i (num (now s) :: names d) -> i <= num (now s)) by (intros i [<-|Hi]; [lia|auto]).
  destruct Hj as [-> | [-> | [-> | -> ]]]; steps; apply (refuse_at _ (num (now s))); disk; try (now left); try exact N; rewrite ?put_same; try (left; reflexivity); right; try (left; reflexivity); right; try (left; reflexivity); right; eexists _, _; (split; [reflexivity|exact I]).
Qed.
Lemma again_even d s j : clean d s -> (j = 0 \/ j = 2 \/ j = 4 \/ j = 6)%nat -> clean (run_steps (firstn j (save_steps num s)) d) s.
Proof.
  intros C Hj. pose proof C as [H1 H2 H3 H4 H5 H6]. assert (N : forall i, In i (num (now s) :: names d) -> i <= num (now s)) by (intros i [<-|Hi]; [lia|auto]).
  destruct Hj as [-> | [-> | [-> | -> ]]]; steps; [exact C| | |]; split; disk; rewrite ?put_same; auto; now left.
Qed.
Lemma save_clean d s : (forall i, In i (names d) -> i <= num (now s)) -> clean (save num s d) s.
Proof.
  intros H2. assert (N : forall i, In i (num (now s) :: names d) -> i <= num (now s)) by (intros i [<-|Hi]; [lia|auto]).
  unfold save. split; cbn [run_steps save_steps fold_left]; disk; rewrite ?put_same; auto. now left.
Qed.
Lemma good_below d s dn : good d (Some s) dn -> forall i, In i (names d) -> i <= num (now s).
Proof.
  intros [(_ & H & _)|(s0 & rest & _ & C & H)] i Hi; [rewrite H in Hi; contradiction|]. pose proof (c_max _ _ C i Hi) as L. destruct (H s eq_refl) as [->|L']; [exact L|]. apply (cl_num _ _ _ HC) in L'. lia.
Qed.
Lemma good_ela d s dn : good d (Some s) dn -> (forall s0 rest, dn = s0 :: rest -> lt (now s0) (now s)) -> match d_ela d with Whole (te, _) => teq (now s) te = false | _ => True end.
Proof. intros [(_ & _ & ->)|(s0 & rest & Hd & C & _)] H; [exact I|]. rewrite (c_ela _ _ C). apply teq_lt. exact (H s0 rest Hd). Qed.

Theorem history_inv d cur dn : history teq lt num master d cur dn -> inv d cur dn.
Proof.
  induction 1 as [s|d s s' dn H IH L|d s dn H IH|d s dn j H IH Hj|d s dn H IH Hr].
  - right. left. auto.
  - right. destruct IH as [[X _]|[IH|(s0 & rest & Hd & C & K)]]; [discriminate|now left|]. right. exists s0, rest. split; [exact Hd|]. split; [exact C|]. intros s1 [= <-]. right. destruct (K s eq_refl) as [->|L']; [exact L|]. exact (cl_trans _ _ _ HC _ _ _ L' L).
  - right. destruct IH as [[X _]|IH]; [discriminate|]. right. exists s, dn. split; [reflexivity|]. split; [apply save_clean, (good_below d s dn IH)|]. intros s1 [= <-]. now left.
  - destruct IH as [[X _]|IH]; [discriminate|]. destruct (Nat.eq_dec j 0) as [->|Nj].
    + right. destruct IH as [IH|(s0 & rest & Hd & C & K)]; [now left|]. right. exists s0, rest. repeat split; auto; try apply C. discriminate.
    + destruct IH as [IH|(s0 & rest & Hd & C & K)].
      * left. split; [reflexivity|]. apply die_refuses; [intros i Hi; destruct IH as (_ & X & _); rewrite X in Hi; contradiction|lia|]. destruct IH as (_ & _ & ->). exact I.
      * destruct (K s eq_refl) as [->|L].
        -- assert (D : (j = 1 \/ j = 3 \/ j = 5 \/ j = 7)%nat \/ (j = 0 \/ j = 2 \/ j = 4 \/ j = 6)%nat) by lia. destruct D as [D|D].
           ++ left. split; [reflexivity|]. now apply die_again_odd.
           ++ right. right. exists s0, rest. split; [exact Hd|]. split; [now apply again_even|]. discriminate.
        -- left. split; [reflexivity|]. apply die_refuses; [|lia|rewrite (c_ela _ _ C); now apply teq_lt]. intros i Hi. pose proof (c_max _ _ C i Hi). apply (cl_num _ _ _ HC) in L. lia.
  - destruct IH as [[_ X]|[(_ & X & _)|(s0 & rest & Hd & C & _)]].
    + destruct (refuses_not _ _ X Hr).
    + exfalso. unfold Checkpoint.restores, restart in Hr. rewrite X in Hr. discriminate.
    + right. right. exists s0, rest. split; [exact Hd|]. split; [exact C|]. intros s1 [= <-]. left. exact (restores_det d _ _ Hr (clean_restores d s0 C)).
Qed.
End P.
