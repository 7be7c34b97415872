(** Counterexamples for Lagrangian IO. *)
From Coq Require Import String Permutation.
From Verif Require Import Base SpecGrid SpecIO Comm IoEul IoLag SpecIOLag IoLagProofs.
Open Scope Z_scope.
Open Scope list_scope.

Definition two_grids : list ladd :=
  [ {| la_name := Some "a"%string; la_master := 0; la_grid := 0%nat; la_n := 1; la_connect := false; la_fields := [("f"%string, (1%nat, [1]))] |};
    {| la_name := Some "b"%string; la_master := 0; la_grid := 2%nat; la_n := 1; la_connect := false; la_fields := [("f"%string, (3%nat, [1]))] |} ].
Definition two_mem : mem Z := fun p => let '(_, (a, _)) := p in if (a =? 1)%nat then 10 else if (a =? 3)%nat then 30 else 0.

Lemma shared_name_refuted :
  ~ (forall (dim : Z) adds adds' (m m0 : mem Z) time ws st es st',
      0 <= dim -> shapes_ok dim adds -> NoDup (labels 0 adds) -> Forall2 same_add adds adds' -> NoDup (arrays adds') ->
      (exists a, In a adds /\ la_fields a <> []) ->
      add_all dim adds lio_init = Some st -> entries dim st = Some es -> Permutation ws (lag_writes dim es m) ->
      add_all dim adds' lio_init = Some st' ->
      exists m', (forall r, lag_load 0 dim st' (lag_saved st es time ws) r (fun a => m0 (r, a)) = Some (fun a => m' (r, a))) /\
        lag_restored dim adds m adds' m0 m').
Proof.
  intros H.
  destruct (add_all 2 two_grids lio_init) as [st|] eqn:E1; [|vm_compute in E1; discriminate].
  destruct (entries 2 st) as [es|] eqn:E2; [|vm_compute in E1; injection E1 as <-; vm_compute in E2; discriminate].
  destruct (H 2 two_grids two_grids two_mem (fun _ => 0) 0 (lag_writes 2 es two_mem) st es st) as (m' & L & R); auto.
  - lia.
  - repeat constructor.
  - cbn. repeat constructor; cbn; intuition discriminate.
  - repeat constructor.
  - cbn. repeat constructor; cbn; intuition discriminate.
  - eexists. split; [left; reflexivity|discriminate].
  - destruct R as [R _]. destruct (R _ _ (or_introl eq_refl)) as [_ R1]. specialize (R1 "f"%string 1%nat 1%nat [1] 0 (or_introl eq_refl) (or_introl eq_refl) ltac:(cbn; lia)).
    specialize (L 0). assert (V : match lag_load 0 2 st (lag_saved st es 0 (lag_writes 2 es two_mem)) 0 (fun _ => 0) with Some f => f (1%nat, 0) | None => 7 end = 0).
    { vm_compute in E1. injection E1 as <-. vm_compute in E2. injection E2 as <-. vm_compute. reflexivity. }
    rewrite L in V. cbn [la_master] in R1. unfold two_mem in R1. cbn in R1. rewrite V in R1. discriminate.
Qed.

(** A grid named explicitly like a default name disappears when an unnamed grid is added. *)
Lemma default_label_collides (dim master master' : Z) arr arr' n n' c c' :
  exists st, add_all dim [ {| la_name := Some "Lagrangian_grid_0"%string; la_master := master; la_grid := arr; la_n := n; la_connect := c; la_fields := [] |};
                           {| la_name := None; la_master := master'; la_grid := arr'; la_n := n'; la_connect := c'; la_fields := [] |} ] lio_init = Some st /\
    map (fun g => (fst g, garr (snd g))) (grids st) = [("Lagrangian_grid_0"%string, arr')].
Proof. eexists. split; [reflexivity|]. destruct c, c'; reflexivity. Qed.
