(** Executing a blocking program synchronously: used to exhibit runs of concrete programs. *)
From Coq Require Import FunctionalExtensionality.
From Verif Require Import Base Comm Blocking SpecBlocking BlockFacts.
Open Scope Z_scope.

Section E.
Context {T : Type}.
(** One step of the first rank of the list that can make one. *)
Fixpoint step_of (ranks : list Z) (p : Z -> list (@bop T)) (m : Z -> @lmem T) : option ((Z -> list (@bop T)) * (Z -> @lmem T)) :=
  match ranks with
  | [] => None
  | a :: ranks' =>
      match p a with
      | BLocal f :: q => Some (upd p a q, upd m a (f (m a)))
      | BSend None _ :: q | BRecv None _ :: q => Some (upd p a q, m)
      | BSend (Some b) s :: q =>
          match p b with
          | BRecv (Some a') d :: q' => if (a =? a') && negb (a =? b) && (length s =? length d)%nat then Some (upd (upd p a q) b q', upd m b (write d (map (m a) s) (m b))) else step_of ranks' p m
          | _ => step_of ranks' p m
          end
      | _ => step_of ranks' p m
      end
  end.
Fixpoint exec (fuel : nat) (ranks : list Z) (p : Z -> list (@bop T)) (m : Z -> @lmem T) : (Z -> list (@bop T)) * (Z -> @lmem T) :=
  match fuel with O => (p, m) | S k => match step_of ranks p m with Some (p', m') => exec k ranks p' m' | None => (p, m) end end.
Lemma step_of_ok ranks p m p' m' : step_of ranks p m = Some (p', m') -> bstep false {| pr := p; mm := m; ch := fun _ _ => [] |} {| pr := p'; mm := m'; ch := fun _ _ => [] |}.
Proof.
  induction ranks as [|a ranks IH]; intros H; [discriminate|]. cbn in H. destruct (p a) as [|[[b|] s|[b|] s|f] q] eqn:E; auto.
  - destruct (p b) as [|[x d|[a'|] d|f] q'] eqn:E'; auto. destruct (Z.eqb_spec a a') as [<-|]; auto. destruct (Z.eqb_spec a b) as [|N]; auto. destruct (Nat.eqb_spec (length s) (length d)) as [L|]; auto.
    injection H as <- <-. exact (st_rdv false a b s d q q' {| pr := p; mm := m; ch := fun _ _ => [] |} N E E' eq_refl L).
  - injection H as <- <-. exact (st_snull false a s q {| pr := p; mm := m; ch := fun _ _ => [] |} E).
  - injection H as <- <-. exact (st_rnull false a s q {| pr := p; mm := m; ch := fun _ _ => [] |} E).
  - injection H as <- <-. exact (st_local false a f q {| pr := p; mm := m; ch := fun _ _ => [] |} E).
Qed.
Lemma exec_ok fuel ranks : forall p m, bsteps false {| pr := p; mm := m; ch := fun _ _ => [] |} {| pr := fst (exec fuel ranks p m); mm := snd (exec fuel ranks p m); ch := fun _ _ => [] |}.
Proof.
  induction fuel as [|k IH]; intros p m; [constructor|]. cbn. destruct (step_of ranks p m) as [[p' m']|] eqn:E; [|constructor]. econstructor; [exact (step_of_ok ranks _ _ _ _ E)|apply IH].
Qed.
Lemma upd_empty (p : Z -> list (@bop T)) a x q r : p a = x :: q -> p r = [] -> upd p a q r = [].
Proof. intros H H0. unfold upd. destruct (Z.eqb_spec r a); [subst; congruence|exact H0]. Qed.
Lemma empty_stays (c c' : @config T) r : bstep false c c' -> pr c r = [] -> pr c' r = [].
Proof.
  intros St H. inversion St as [a f p c0 Ep|a d p c0 Ep|a d p c0 Ep|a b d p c0 Ee Ep|b a d p v q c0 Ep Ec El|a b s d p q c0 Na Ep Eq Ec El]; subst; cbn [pr]; try (eapply upd_empty; eauto; fail).
  unfold upd at 1. destruct (Z.eqb_spec r b); [subst; congruence|]. eapply upd_empty; eauto.
Qed.
Lemma empty_stays_all (c c' : @config T) r : bsteps false c c' -> pr c r = [] -> pr c' r = [].
Proof. induction 1; auto. intros E. apply IHbsteps. eapply empty_stays; eauto. Qed.
Definition done_by (n : Z) (p : Z -> list (@bop T)) : bool := forallb (fun r => match p r with [] => true | _ => false end) (zrange 0 n).
Theorem exec_runs n prog m fuel : let p := fun r => if (0 <=? r) && (r <? n) then prog r else [] in
  done_by n (fst (exec fuel (zrange 0 n) p m)) = true -> runs_to n prog m (snd (exec fuel (zrange 0 n) p m)).
Proof.
  intros p H. apply runs_to_intro. pose proof (exec_ok fuel (zrange 0 n) p m) as S. replace (stop (snd (exec fuel (zrange 0 n) p m))) with {| pr := fst (exec fuel (zrange 0 n) p m); mm := snd (exec fuel (zrange 0 n) p m); ch := fun _ _ => [] |}; [exact S|].
  unfold stop. f_equal. apply functional_extensionality. intros r. destruct (Z.leb_spec 0 r) as [H0|H0].
  - destruct (Z.ltb_spec r n) as [H1|H1].
    + unfold done_by in H. rewrite forallb_forall in H. specialize (H r ltac:(apply zrange_In; lia)). now destruct (fst _ r).
    + apply (empty_stays_all _ _ r S). cbn. unfold p. destruct (Z.leb_spec 0 r), (Z.ltb_spec r n); try lia; reflexivity.
  - apply (empty_stays_all _ _ r S). cbn. unfold p. destruct (Z.leb_spec 0 r); [lia|reflexivity].
Qed.
End E.
