(** Property C58: the pictures saved with the plotter. *)
From Verif Require Import Base SpecGrid Comm Blocking FieldComm SpecPlotter Plotter PlotterProofs.
Open Scope Z_scope.

(** ** C58: the script does not deadlock or fail, under any schedule; every saved file is written by the master alone, and shows what was
    drawn since the figure was last cleared: for every contour and every cell of the domain, the value and the coordinates its owner had
    in that cell when contourf was called. *)
Theorem C58_saved_pictures :
  forall (T D Name : Type) dims loc g master order fio xio yio (none : T) (cs : list (plot_call T D Name)) m,
    grid_ok dims loc -> 0 <= master < zprod dims -> slave_order dims master order -> NoDup [fio; xio; yio] ->
    Forall (user_arrays [fio; xio; yio]) cs -> contour_before_clear cs = true ->
    exists w', plots dims loc g master order fio xio yio (begins m) cs (Some w') /\
      (forall o, plots dims loc g master order fio xio yio (begins m) cs o -> o = Some w') /\
      Forall2 (wanted dims loc master) (w_files w') (should_save dims loc g none m [] cs).
Proof.
  intros T D Name dims loc g master order fio xio yio none cs m Hgrid Hm Ho ND NB CB.
  inversion ND as [|? ? N1 ND2]; subst. inversion ND2 as [|? ? N2 ND3]; subst. cbn [In] in N1, N2.
  destruct (run_all dims loc g master order fio xio yio none Hgrid Hm Ho ltac:(auto) ltac:(auto) ltac:(auto) cs _ _ _ _ _ _ _ (begins_inv dims loc master fio xio yio m) NB ltac:(auto)) as (w' & new & A & B & C & _).
  exists w'. split; [exact A|]. split; [intros o Ho'; eapply runs_det; eassumption|]. cbn in B. rewrite B. exact C.
Qed.
Print Assumptions C58_saved_pictures.

(** ** C58: how many colour bars the saved pictures have *)
Theorem C58_colour_bars :
  forall (T D Name : Type) dims loc g master order fio xio yio (none : T) (cs : list (plot_call T D Name)) m w',
    grid_ok dims loc -> 0 <= master < zprod dims -> slave_order dims master order -> NoDup [fio; xio; yio] ->
    Forall (user_arrays [fio; xio; yio]) cs -> contour_before_clear cs = true ->
    plots dims loc g master order fio xio yio (begins m) cs (Some w') ->
    map (fun file => bars (snd file)) (w_files w') = colour_bars 0 0 cs /\
    (one_contour false cs = true ->
     map (fun file => bars (snd file)) (w_files w') = map (fun want => contours (snd want)) (should_save dims loc g none m [] cs)).
Proof.
  intros T D Name dims loc g master order fio xio yio none cs m w' Hgrid Hm Ho ND NB CB R.
  inversion ND as [|? ? N1 ND2]; subst. inversion ND2 as [|? ? N2 ND3]; subst. cbn [In] in N1, N2.
  destruct (run_all dims loc g master order fio xio yio none Hgrid Hm Ho ltac:(auto) ltac:(auto) ltac:(auto) cs _ _ _ _ _ _ _ (begins_inv dims loc master fio xio yio m) NB ltac:(auto)) as (w1 & new & A & B & _ & C & _).
  pose proof (runs_det _ _ _ _ _ _ _ _ _ _ _ _ R A) as E. injection E as E. subst w1. cbn in B. rewrite B.
  split; [exact C|]. intros O1. rewrite C. apply bars_contours with (drawn := false); [reflexivity| |apply Nat.le_0_l|exact O1].
  split; [discriminate|intros H; inversion H].
Qed.
Print Assumptions C58_colour_bars.

(** ** C58: the title given at construction is in a picture iff the figure had not been cleared *)
Theorem C58_title_lost_after_clearing :
  forall (T D Name : Type) dims loc g master order fio xio yio (cs : list (plot_call T D Name)) m w',
    grid_ok dims loc -> 0 <= master < zprod dims -> slave_order dims master order -> NoDup [fio; xio; yio] ->
    Forall (user_arrays [fio; xio; yio]) cs -> contour_before_clear cs = true ->
    plots dims loc g master order fio xio yio (begins m) cs (Some w') ->
    map (fun file => titled (snd file)) (w_files w') = before_clear true cs.
Proof.
  intros T D Name dims loc g master order fio xio yio cs m w' Hgrid Hm Ho ND NB CB R.
  inversion ND as [|? ? N1 ND2]; subst. inversion ND2 as [|? ? N2 ND3]; subst. cbn [In] in N1, N2.
  destruct (run_all dims loc g master order fio xio yio (m 0 (0%nat, 0)) Hgrid Hm Ho ltac:(auto) ltac:(auto) ltac:(auto) cs _ _ _ _ _ _ _ (begins_inv dims loc master fio xio yio m) NB ltac:(auto)) as (w1 & new & A & B & _ & _ & C).
  pose proof (runs_det _ _ _ _ _ _ _ _ _ _ _ _ R A) as E. injection E as E. subst w1. cbn in B. rewrite B. exact C.
Qed.
Print Assumptions C58_title_lost_after_clearing.

(** ** C58: clearing the figure before any contour was drawn always fails (AttributeError) *)
Theorem C58_clearing_first_fails :
  forall (T D Name : Type) dims loc g master order fio xio yio (cs : list (plot_call T D Name)) m o,
    0 <= master < zprod dims -> contour_before_clear cs = false ->
    plots dims loc g master order fio xio yio (begins m) cs o <-> o = None.
Proof.
  intros T D Name dims loc g master order fio xio yio cs m o Hm CB.
  assert (R : plots (T := T) (D := D) (Name := Name) dims loc g master order fio xio yio (begins m) cs None) by (apply run_fails; [exact Hm|reflexivity|exact CB]).
  split; [intros H; eapply runs_det; [exact H|exact R]|intros ->; exact R].
Qed.
Print Assumptions C58_clearing_first_fails.

(** A case: 2 x 1 ranks of 1 x 2 cells, ghost size 1, master 1; one picture of a field and a body, then another one. *)
Definition ex58 : list (plot_call Z nat nat) :=
  [Contourf 3 4 5; DrawData 7%nat; SaveFig 0%nat; ClearFig; Simulate (fun r ai => r + snd ai); Contourf 3 4 5; SaveFig 1%nat; ClearFig].
Example C58_nonvacuous :
  grid_ok [2; 1] [1; 2] /\ slave_order [2; 1] 1 [0] /\ NoDup [0; 1; 2]%nat /\ Forall (user_arrays [0; 1; 2]%nat) ex58 /\
  contour_before_clear ex58 = true /\ one_contour false ex58 = true /\
  colour_bars 0 0 ex58 = [1; 1]%nat /\ before_clear true ex58 = [true; false] /\
  match should_save [2; 1] [1; 2] 1 (-1) (fun _ _ => 0) [] ex58 with
  | [(0%nat, [Contours _ _ _; Data 7%nat]); (1%nat, [Contours _ _ f])] => map f [[0; 0]; [0; 1]; [1; 0]; [1; 1]] = [5; 6; 6; 7]
  | _ => False
  end.
Proof.
  split; [split; [reflexivity|unfold positive; repeat (apply Forall_cons; [lia|]); apply Forall_nil|unfold positive; repeat (apply Forall_cons; [lia|]); apply Forall_nil]|].
  split; [apply Permutation_refl|].
  split; [repeat constructor; cbn; intuition discriminate|].
  split; [unfold ex58; repeat (apply Forall_cons; [cbn; intuition discriminate|]); apply Forall_nil|].
  repeat split; reflexivity.
Qed.

(** ** C58: refuted: with two contours drawn before the figure is cleared, a colour bar without a contour stays in every later picture *)
Theorem C58_one_bar_per_contour_refuted :
  ~ (forall (cs : list (plot_call Z nat nat)) m w', Forall (user_arrays [0; 1; 2]%nat) cs -> contour_before_clear cs = true ->
       plots [2; 1] [1; 2] 1 0 [1] 0 1 2 (begins m) cs (Some w') ->
       map (fun file => bars (snd file)) (w_files w') = map (fun want => contours (snd want)) (should_save [2; 1] [1; 2] 1 0 m [] cs)).
Proof.
  intros H.
  set (cs := [Contourf 3 4 5; Contourf 3 4 6; ClearFig; Contourf 3 4 5; SaveFig 0%nat] : list (plot_call Z nat nat)).
  assert (U : Forall (user_arrays [0; 1; 2]%nat) cs) by (unfold cs; repeat (apply Forall_cons; [cbn; intuition discriminate|]); apply Forall_nil).
  assert (G : grid_ok [2; 1] [1; 2]) by (split; [reflexivity|unfold positive; repeat (apply Forall_cons; [lia|]); apply Forall_nil|unfold positive; repeat (apply Forall_cons; [lia|]); apply Forall_nil]).
  assert (O1 : slave_order [2; 1] 0 [1]) by apply Permutation_refl.
  assert (ND : NoDup [0; 1; 2]%nat) by (repeat constructor; cbn; intuition discriminate).
  assert (M : 0 <= 0 < zprod [2; 1]) by (cbn; lia).
  destruct (C58_saved_pictures Z nat nat [2; 1] [1; 2] 1 0 [1] 0 1 2 0 cs (fun _ _ => 0) G M O1 ND U eq_refl) as (w' & R & _).
  destruct (C58_colour_bars Z nat nat [2; 1] [1; 2] 1 0 [1] 0 1 2 0 cs (fun _ _ => 0) w' G M O1 ND U eq_refl R) as [B _].
  specialize (H cs (fun _ _ => 0) w' U eq_refl R). rewrite B in H. cbn in H. discriminate H.
Qed.
Print Assumptions C58_one_bar_per_contour_refuted.
