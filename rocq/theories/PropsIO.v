(** C33, C34, C43: files. *)
From Coq Require Import String Permutation.
From Verif Require Import Base SpecGrid SpecGhost SpecStencil SpecIO Comm IoEul IoEulProofs IoLag SpecIOLag IoLagProofs IoRod IoRodProofs Refute6.
Open Scope Z_scope.
Open Scope list_scope.

(** C33. For every sequence of accepted add calls (2D/3D grid), save creates no
    dataset twice; *)
Theorem C33_save_names_distinct loc g adds fs :
  (length loc <= 3)%nat -> Forall (add_consistent loc) adds -> add_eulerian_all loc g [] adds = Some fs -> NoDup (map fst (all_datasets fs)).
Proof.
  intros Hl Hc E. destruct (add_eulerian_all_ok loc g adds Hl Hc [] fs) as [H1 H2]; [constructor|constructor|exact E|]. now apply names_fresh.
Qed.
(** every element of every dataset is written by exactly one rank, once; *)
Theorem C33_every_element_written_once (T : Type) dims loc g fs (m : mem T) :
  grid_ok dims loc -> NoDup (map fst (all_datasets fs)) ->
  Permutation (map fst (all_writes dims loc g fs m)) (list_prod (map fst (all_datasets fs)) (all_cells (global_size dims loc))).
Proof. exact (written_once dims loc g fs m). Qed.
(** a file saved on one decomposition (the ranks' writes happening in any order
    [ws]) and loaded on any other decomposition of the same grid, with any ghost
    size, into fields of the same names: every loaded field is the saved global
    field; ghost cells and other arrays are not touched.  If the parameters do
    not agree every rank raises - but only after it has overwritten the fields
    (FINDING). *)
Theorem C33_restart_round_trip (T P : Type) (fill : T) (close : P -> P -> bool) dims loc g fs (m : mem T) (params : P) ws dims' loc' g' fs' (params' : P) m0 :
  grid_ok dims loc -> grid_ok dims' loc' -> global_size dims loc = global_size dims' loc' -> 0 <= g' ->
  NoDup (map fst (all_datasets fs)) -> NoDup (flat_map arrays_of fs') -> (forall f', In f' fs' -> exists f, In f fs /\ same_field f f') ->
  Permutation ws (all_writes dims loc g fs m) ->
  exists m', 
    (forall r, 0 <= r < zprod dims' ->
      load_rank fill close dims' loc' g' fs' params' (saved fs params ws) r (fun a => m0 (r, a)) =
      if close params' params then Loaded (fun a => m' (r, a)) else Raised (fun a => m' (r, a))) /\
    (forall f f' c a a' u, In f fs -> In f' fs' -> same_field f f' -> nth_error (arrays_of f) c = Some a -> nth_error (arrays_of f') c = Some a' ->
       represents dims loc g [a] m u -> represents dims' loc' g' [a'] m' (fun _ => u a)) /\
    (forall r a I, 0 <= r < zprod dims' -> inb (ghosted g' loc') I -> ~ (In a (flat_map arrays_of fs') /\ inner g' loc' I) ->
       field m' (ghosted g' loc') r a I = field m0 (ghosted g' loc') r a I) /\
    (forall r a i, 0 <= r < zprod dims' -> ~ In a (flat_map arrays_of fs') -> m' (r, (a, i)) = m0 (r, (a, i))).
Proof.
  intros H1 H2 H3 H4 H5 H6 H7 H8. destruct (restart fill close dims loc g fs m params ws dims' loc' g' fs' params' m0 H1 H2 H3 H4 H5 H6 H7 H8) as (m' & (R1 & R2 & R3) & L). exists m'. auto.
Qed.
(** Loading a field that the file does not have raises. *)
Theorem C33_missing_field_raises (T P : Type) (fill : T) (close : P -> P -> bool) dims loc g fs (m : mem T) (params : P) ws dims' loc' g' fs' (params' : P) r (m0 : nat * Z -> T) :
  Permutation ws (all_writes dims loc g fs m) ->
  (exists k a, In (k, a) (all_datasets fs') /\ ~ In k (map fst (all_datasets fs))) ->
  exists m', load_rank fill close dims' loc' g' fs' params' (saved fs params ws) r m0 = Raised m'.
Proof. exact (restart_missing fill close dims loc g fs m params ws dims' loc' g' fs' params' r m0). Qed.

(** Non-vacuity: a scalar and a vector field saved by 2x2 ranks, loaded by 1x4. *)
Example C33_nonvacuous : exists fs fs',
  add_eulerian_all [4; 2] 2 [] [("w"%string, [8; 6], [0%nat]); ("v"%string, [2; 8; 6], [1%nat; 2%nat])] = Some fs /\
  add_eulerian_all [8; 1] 1 [] [("v"%string, [2; 10; 3], [5%nat; 4%nat])] = Some fs' /\
  grid_ok [2; 2] [4; 2] /\ grid_ok [1; 4] [8; 1] /\ global_size [2; 2] [4; 2] = global_size [1; 4] [8; 1] /\
  NoDup (map fst (all_datasets fs)) /\ NoDup (flat_map arrays_of fs') /\ (forall f', In f' fs' -> exists f, In f fs /\ same_field f f') /\
  Forall (add_consistent [4; 2]) [("w"%string, [8; 6], [0%nat]); ("v"%string, [2; 8; 6], [1%nat; 2%nat])].
Proof.
  eexists. eexists. split; [reflexivity|]. split; [reflexivity|]. repeat split; try (repeat constructor; cbn; intuition (lia || discriminate)).
  intros f' [<-|[]]. exists (EVector "v" [1%nat; 2%nat]). split; [right; now left|]. cbn. auto.
Qed.

(** C34. Lagrangian grids with distinct names, fields with distinct names, and
    no vector field on a grid of exactly [dim] nodes: every add is accepted,
    save creates distinct datasets and does not raise, *)
Theorem C34_save_accepts dim adds : shapes_ok dim adds -> NoDup (labels 0 adds) -> NoDup (field_names adds) ->
  exists st es, add_all dim adds lio_init = Some st /\ entries dim st = Some es /\ NoDup (map le_key es).
Proof.
  intros H1 H2 H3. destruct (entries_ok dim adds H1 H2 H3) as (st & E1 & E2 & _). exists st, (expected 0 adds). repeat split; auto. now apply expected_keys_fresh.
Qed.
(** and loading in a program that makes the same add calls (own arrays, any
    master ranks) restores every grid and field on its master, and changes
    nothing else on any rank. *)
Theorem C34_restart_round_trip (T : Type) (fill : T) dim adds adds' (m m0 : mem T) time ws st es st' :
  0 <= dim -> shapes_ok dim adds -> NoDup (labels 0 adds) -> NoDup (field_names adds) -> Forall2 same_add adds adds' -> NoDup (arrays adds') ->
  (exists a, In a adds /\ la_fields a <> []) ->
  add_all dim adds lio_init = Some st -> entries dim st = Some es -> Permutation ws (lag_writes dim es m) ->
  add_all dim adds' lio_init = Some st' ->
  exists m', (forall r, lag_load fill dim st' (lag_saved st es time ws) r (fun a => m0 (r, a)) = Some (fun a => m' (r, a))) /\
    lag_restored dim adds m adds' m0 m'.
Proof. exact (lag_restart fill dim adds adds' m m0 time ws st es st'). Qed.
(** FINDINGS: two grids with a field of the same name: not restored; *)
Theorem C34_shared_field_name_refuted :
  ~ (forall (dim : Z) adds adds' (m m0 : mem Z) time ws st es st',
      0 <= dim -> shapes_ok dim adds -> NoDup (labels 0 adds) -> Forall2 same_add adds adds' -> NoDup (arrays adds') ->
      (exists a, In a adds /\ la_fields a <> []) ->
      add_all dim adds lio_init = Some st -> entries dim st = Some es -> Permutation ws (lag_writes dim es m) ->
      add_all dim adds' lio_init = Some st' ->
      exists m', (forall r, lag_load 0 dim st' (lag_saved st es time ws) r (fun a => m0 (r, a)) = Some (fun a => m' (r, a))) /\
        lag_restored dim adds m adds' m0 m').
Proof. exact shared_name_refuted. Qed.
(** a vector field on a grid with as many nodes as dimensions is accepted but makes save raise; *)
Theorem C34_square_vector_save_raises dim name master grid arr fname connect :
  exists st, add_all dim [ {| la_name := name; la_master := master; la_grid := grid; la_n := dim; la_connect := connect; la_fields := [(fname, (arr, [dim; dim]))] |} ] lio_init = Some st /\
    entries dim st = None.
Proof. exact (square_vector_raises dim name master grid arr fname connect). Qed.
(** grids without any field are saved but never loaded; *)
Theorem C34_grid_without_fields_not_loaded {T} (fill : T) dim adds st (F : lfile T) r m :
  Forall (fun a => la_fields a = []) adds -> add_all dim adds lio_init = Some st -> lag_load fill dim st F r m = Some m.
Proof. exact (gridonly_not_loaded fill dim adds st F r m). Qed.
(** default grid names are distinct from each other but not from explicit names. *)
Theorem C34_default_names_distinct adds : Forall (fun a => la_name a = None) adds -> NoDup (labels 0 adds).
Proof. exact (default_labels_distinct adds). Qed.
Theorem C34_default_name_collision (dim master master' : Z) arr arr' n n' c c' :
  exists st, add_all dim [ {| la_name := Some "Lagrangian_grid_0"%string; la_master := master; la_grid := arr; la_n := n; la_connect := c; la_fields := [] |};
                           {| la_name := None; la_master := master'; la_grid := arr'; la_n := n'; la_connect := c'; la_fields := [] |} ] lio_init = Some st /\
    map (fun g => (fst g, garr (snd g))) (grids st) = [("Lagrangian_grid_0"%string, arr')].
Proof. exact (default_label_collides dim master master' arr arr' n n' c c'). Qed.

(** Non-vacuity: two grids, a scalar and a vector field; other arrays and masters when loading. *)
Example C34_nonvacuous :
  let adds := [ {| la_name := None; la_master := 0; la_grid := 0%nat; la_n := 4; la_connect := true; la_fields := [("s"%string, (1%nat, [4])); ("v"%string, (2%nat, [3; 4]))] |};
                {| la_name := Some "b"%string; la_master := 1; la_grid := 3%nat; la_n := 3; la_connect := false; la_fields := [("t"%string, (4%nat, [3]))] |} ] in
  let adds' := [ {| la_name := None; la_master := 5; la_grid := 10%nat; la_n := 4; la_connect := true; la_fields := [("s"%string, (11%nat, [4])); ("v"%string, (12%nat, [3; 4]))] |};
                {| la_name := Some "b"%string; la_master := 5; la_grid := 13%nat; la_n := 3; la_connect := false; la_fields := [("t"%string, (14%nat, [3]))] |} ] in
  shapes_ok 3 adds /\ NoDup (labels 0 adds) /\ NoDup (field_names adds) /\ Forall2 same_add adds adds' /\ NoDup (arrays adds') /\ (exists a, In a adds /\ la_fields a <> []) /\
  exists st', add_all 3 adds' lio_init = Some st'.
Proof.
  cbv zeta. split.
  - constructor; [constructor; [left; reflexivity|constructor; [right; split; [reflexivity|cbn; lia]|constructor]]|]. constructor; [constructor; [left; reflexivity|constructor]|constructor].
  - split; [vm_compute; repeat constructor; cbn; intuition discriminate|]. split; [vm_compute; repeat constructor; cbn; intuition discriminate|].
    split; [repeat constructor|]. split; [vm_compute; repeat constructor; cbn; intuition discriminate|]. split; [|eexists; reflexivity].
    eexists. split; [left; reflexivity|discriminate].
Qed.

(** C43. For every history of the rod moving, of element positions being
    overwritten (load) and of saves, in the file of each save the "rod" grid
    point i is the midpoint of the rod's current nodes i and i+1 and the scalar
    is the current radius, and the n points of that grid, and of no other, are
    connected in order - whatever was loaded before (so a load never carries
    over into later files: FINDING, the rod's own positions are not restored). *)
Theorem C43_saved_rod_is_current_midpoints (T : Type) (add : T -> T -> T) (half : T -> T) (dim n master : Z) (pos rad elt : nat) (m : mem T) pre t post :
  pos <> elt -> rad <> elt ->
  exists st es m1, rod_io dim n master rad elt = Some st /\ entries dim st = Some es /\
    nth_error (saves add half dim n pos elt m (pre ++ RSave t :: post)) (length (filter (fun e => match e with RSave _ => true | _ => false end) pre)) = Some (t, m1) /\
    forall ws, Permutation ws (lag_writes dim es m1) ->
      let F := lag_saved st es t ws in let now := rod_arrays m pre master in
      (forall i c, 0 <= i < n -> 0 <= c < dim ->
         l_data F (KGrid "rod", [i; c]) = Some (half (add (now (pos, c * (n + 1) + (i + 1))) (now (pos, c * (n + 1) + i))))) /\
      (forall i, 0 <= i < n -> l_data F (KScalar "rod" "scalar_3d", [i]) = Some (now (rad, i))) /\
      l_conns F = [("rod"%string, n)].
Proof.
  intros H1 H2. destruct (rod_entries dim n master rad elt) as (st & E1 & E2 & _). destruct (saves_at add half dim n pos elt m t pre post) as (m1 & E3).
  exists st, (expected 0 [rod_add n master rad elt]), m1. split; [exact E1|]. split; [exact E2|]. split; [exact E3|]. intros ws Hp F now0.
  destruct (saves_split add half dim n pos rad elt H1 H2 m t m1 pre post E3) as [S1 S2]. destruct (rod_file dim n master rad elt m1 t st ws Hp) as [R1 R2]. split; [|split].
  - intros i c Hi Hc. unfold F. rewrite R1 by assumption. now rewrite S2 by assumption.
  - intros i Hi. unfold F. rewrite R2 by assumption. now rewrite S1.
  - unfold F. cbn [lag_saved l_conns]. clear - E1. unfold rod_io, add_all, add_lagrangian in E1. cbn in E1. rewrite Z.eqb_refl in E1. cbn in E1. now injection E1 as <-.
Qed.
Theorem C43_one_file_per_save (T : Type) (add : T -> T -> T) (half : T -> T) (dim n : Z) (pos elt : nat) (m : mem T) es :
  length (saves add half dim n pos elt m es) = length (filter (fun e => match e with RSave _ => true | _ => false end) es).
Proof. exact (saves_count add half dim n pos elt m es). Qed.
(** Non-vacuity: two elements, nodes 0, 2, 4 then moved to 1, 2, 7 (x row). *)
Example C43_nonvacuous : 
  let hist := [RSave 0; RLoad (fun _ _ => 99); RMove (fun _ a => match snd a with 0 => 1 | 1 => 2 | 2 => 7 | o => o end); RSave 1] in
  map (fun tm => (fst tm, map (fun o => snd tm (0, (2%nat, o))) [0; 1])) (saves Z.add (fun x => x / 2) 2 2 0 2 (fun p => 2 * snd (snd p)) hist) = [(0, [1; 3]); (1, [1; 4])].
Proof. reflexivity. Qed.

(** C33. Component i of the vector field "name" is the dataset Vector/name_i (what restart, the descriptions and other readers look for). *)
Theorem C33_component_names name arrs i a : (i < 10)%nat -> nth_error arrs i = Some a ->
  In (DVector (name ++ "_" ++ nth i ["0"; "1"; "2"; "3"; "4"; "5"; "6"; "7"; "8"; "9"] "")%string, a) (components name 0 arrs).
Proof.
  intros Hi Ha. apply (components_In' name arrs 0 i a) in Ha. replace (nth i _ _) with (digit i); [exact Ha|].
  do 10 (destruct i as [|i]; [reflexivity|]). lia.
Qed.
Print Assumptions C33_save_names_distinct.
Print Assumptions C33_component_names.
Print Assumptions C33_every_element_written_once.
Print Assumptions C33_restart_round_trip.
Print Assumptions C33_missing_field_raises.
Print Assumptions C34_save_accepts.
Print Assumptions C34_restart_round_trip.
Print Assumptions C34_shared_field_name_refuted.
Print Assumptions C34_square_vector_save_raises.
Print Assumptions C34_grid_without_fields_not_loaded.
Print Assumptions C34_default_names_distinct.
Print Assumptions C34_default_name_collision.
Print Assumptions C43_saved_rod_is_current_midpoints.
Print Assumptions C43_one_file_per_save.
