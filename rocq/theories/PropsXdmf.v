(** Property C53: the XDMF description files of a save. *)
From Coq Require Import String.
From Verif Require Import Base SpecGrid SpecIO Comm IoEul IoLag SpecIOLag Xdmf SpecXdmf.
From Verif Require XdmfProofs.
Open Scope Z_scope.
Open Scope list_scope.

(** C53.  For a file name stem.h5 the descriptions are stem_eulerian.xmf and stem_<grid>.xmf: never the HDF5 file itself, and
    different files unless a grid is called "eulerian". *)
Theorem C53_file_names stem : ~ has_h5 stem ->
  (forall l, lag_xmf (stem ++ ".h5") l = (stem ++ "_" ++ l ++ ".xmf")%string) /\ eul_xmf (stem ++ ".h5") = (stem ++ "_eulerian.xmf")%string /\
  eul_xmf (stem ++ ".h5") <> (stem ++ ".h5")%string /\ (forall l, lag_xmf (stem ++ ".h5") l <> (stem ++ ".h5")%string) /\
  (forall l l', lag_xmf (stem ++ ".h5") l = lag_xmf (stem ++ ".h5") l' -> l = l') /\
  (forall l, lag_xmf (stem ++ ".h5") l = eul_xmf (stem ++ ".h5") -> l = "eulerian"%string).
Proof.
  intros H. split; [intros l; now apply XdmfProofs.lag_name|]. split; [now apply XdmfProofs.eul_name|]. destruct (XdmfProofs.not_h5 stem H) as [A B].
  split; [exact A|]. split; [exact B|]. split; [intros l l'; now apply XdmfProofs.lag_name_inj|intros l; now apply XdmfProofs.lag_eul_name].
Qed.

(** C53.  Whatever the order of the ranks' file writes, the Eulerian description lists every Eulerian data set of the HDF5 file
    once, in the order of the fields, with its shape, and gives the shape, origin and spacing of the grid; and it does not depend on the decomposition. *)
Theorem C53_eulerian_description (T P V : Type) (zero : V) stem dim cols n N origin dx fs st ws (params : P) (dws : list ((dkey * list Z) * option T)) :
  ~ has_h5 stem -> 0 <= dim -> vectors_ok dim fs -> fs <> [] -> 0 < n -> ~ In "eulerian"%string (map fst (grids st)) ->
  some_order n (rank_files zero (stem ++ ".h5") dim cols N origin dx fs st) ws ->
  content (eul_xmf (stem ++ ".h5")) ws = Some (eul_doc zero (stem ++ ".h5") dim N origin dx fs) /\
  eul_fits zero (stem ++ ".h5") dim N origin dx (f_keys (saved fs params dws)) (eul_doc zero (stem ++ ".h5") dim N origin dx fs).
Proof. intros Hst Hd Hv Hf Hn He Hws. split; [exact (XdmfProofs.eulerian_file zero stem dim Hst cols n N origin dx fs st ws Hd Hv Hf Hn He Hws)|now apply XdmfProofs.eul_doc_fits]. Qed.

(** C53.  If every grid's master holds arrays of full size for all the grids (so, if all grids have one master), then, whatever
    the order of the ranks' file writes, every grid has a description, which lists exactly the data sets of the grid
    with their shapes. *)
Theorem C53_lagrangian_description (T V : Type) (zero : V) stem dim cols n N origin dx fs adds st es time (dws : list ((lkey * list Z) * option T)) ws :
  ~ has_h5 stem -> shapes_ok dim adds -> NoDup (labels 0 adds) -> NoDup (field_names adds) -> ~ In "eulerian"%string (labels 0 adds) ->
  Forall (fun a => 0 <= la_master a < n) adds -> (forall a a', In a adds -> In a' adds -> cols (la_master a) (la_grid a') = la_n a') ->
  add_all dim adds lio_init = Some st -> entries dim st = Some es ->
  some_order n (rank_files zero (stem ++ ".h5") dim cols N origin dx fs st) ws ->
  forall label a, In (label, a) (combine (labels 0 adds) adds) ->
  exists d, content (lag_xmf (stem ++ ".h5") label) ws = Some d /\ lag_fits (stem ++ ".h5") dim label (la_n a) (lag_saved st es time dws) d.
Proof. intros Hst Hs Hl Hn He Hm Hc E1 E2 Hws. exact (XdmfProofs.lagrangian_file zero stem dim Hst cols n N origin dx fs adds st es time dws ws Hs Hl Hn He Hm Hc E1 E2 Hws). Qed.

(** A case: an Eulerian scalar and vector field, two Lagrangian grids of master 1 (of 2), the arrays being empty on rank 0. *)
Definition x_add (name : string) (master : Z) (grid : nat) (n : Z) (field : string) (shape : list Z) : ladd :=
  {| la_name := Some name; la_master := master; la_grid := grid; la_n := n; la_connect := true; la_fields := [(field, (S grid, shape))] |}.
Definition x_adds : list ladd := [x_add "a" 1 0 2 "s" [2]; x_add "b" 1 4 3 "v" [2; 3]].
Definition x_fs : list efield := [EScalar "w" 7; EVector "u" [8%nat; 9%nat]].
Definition x_cols (adds : list ladd) (r : Z) (arr : nat) : Z := fold_right (fun a x => if (la_grid a =? arr)%nat then (if la_master a =? r then la_n a else 0) else x) 0 adds.
Lemma no_h5_x : ~ has_h5 "x".
Proof. intros (p & q & E). destruct p as [|c [|d p]]; cbn in E; discriminate E. Qed.
Example C53_nonvacuous :
  ~ has_h5 "x" /\ vectors_ok 2 x_fs /\ shapes_ok 2 x_adds /\ NoDup (labels 0 x_adds) /\ NoDup (field_names x_adds) /\ ~ In "eulerian"%string (labels 0 x_adds) /\
  Forall (fun a => 0 <= la_master a < 2) x_adds /\ (forall a a', In a x_adds -> In a' x_adds -> x_cols x_adds (la_master a) (la_grid a') = la_n a') /\
  exists st es ws, add_all 2 x_adds lio_init = Some st /\ entries 2 st = Some es /\
    some_order 2 (rank_files 0 ("x" ++ ".h5") 2 (x_cols x_adds) [6; 8] [0; 0] [1; 1] x_fs st) ws /\ length ws = 5%nat.
Proof.
  split; [exact no_h5_x|]. split; [repeat constructor|]. split; [constructor; [constructor; [left; reflexivity|constructor]|constructor; [constructor; [right; split; [reflexivity|cbn; lia]|constructor]|constructor]]|].
  split; [cbn; repeat constructor; cbn; intuition discriminate|]. split; [cbn; repeat constructor; cbn; intuition discriminate|]. split; [cbn; intuition discriminate|].
  split; [repeat constructor; cbn; lia|]. split; [intros a a' [<- |[<- |[]]] [<- |[<- |[]]]; reflexivity|].
  destruct (add_all 2 x_adds lio_init) as [st|] eqn:E; [|discriminate E]. vm_compute in E. injection E as <-.
  eexists _, _, (map (pair 0) _ ++ map (pair 1) _). split; [reflexivity|]. split; [vm_compute; reflexivity|]. split.
  - split.
    + apply Forall_app. split; apply Forall_forall; intros w Hw; apply in_map_iff in Hw as (? & <- & _); cbn; lia.
    + intros r Hr. assert (C : r = 0 \/ r = 1) by lia. rewrite filter_app. destruct C as [-> | ->].
      * rewrite (proj2 (XdmfProofs.filter_pair 0 1 _)) by lia. rewrite (proj1 (XdmfProofs.filter_pair 0 0 _)), app_nil_r, map_map, map_id by reflexivity. reflexivity.
      * rewrite (proj2 (XdmfProofs.filter_pair 1 0 _)) by lia. rewrite (proj1 (XdmfProofs.filter_pair 1 1 _)) by reflexivity. cbn [app]. rewrite map_map, map_id. reflexivity.
  - reflexivity.
Qed.

(** C53, findings.  Two grids with different masters: with the arrays empty off their masters, and with the writes in the order
    of the save's loop, the first grid's description ends up with 0 nodes. *)
Theorem C53_two_masters_refuted :
  exists adds st ws d, shapes_ok 2 adds /\ NoDup (labels 0 adds) /\ NoDup (field_names adds) /\ Forall (fun a => 0 <= la_master a < 2 /\ la_n a > 0) adds /\ add_all 2 adds lio_init = Some st /\
    some_order 2 (rank_files 0 ("x" ++ ".h5") 2 (x_cols adds) [6; 8] [0; 0] [1; 1] [] st) ws /\ content (lag_xmf ("x" ++ ".h5") "a") ws = Some d /\
    In "a"%string (labels 0 adds) /\ x_topology d = [0] /\ forall (T : Type) es time (dws : list ((lkey * list Z) * option T)) n, entries 2 st = Some es -> ~ lag_fits ("x" ++ ".h5") 2 "a" n (lag_saved st es time dws) d.
Proof. exact XdmfProofs.two_masters. Qed.
(** A file name without ".h5" (x.hdf5, say): the descriptions overwrite the HDF5 file. *)
Theorem C53_no_suffix_refuted h5 : ~ has_h5 h5 -> eul_xmf h5 = h5 /\ forall l, lag_xmf h5 l = h5.
Proof. intros H. split; [|intros l]; now apply XdmfProofs.replace_none. Qed.
Example C53_no_suffix_nonvacuous : ~ has_h5 "x.hdf5".
Proof. intros (p & q & E). do 6 (destruct p as [|? p]; cbn in E; [discriminate E|injection E as _ E]). destruct p; discriminate E. Qed.
(** A grid called "eulerian" shares its file with the Eulerian description. *)
Theorem C53_grid_called_eulerian_refuted stem : ~ has_h5 stem -> lag_xmf (stem ++ ".h5") "eulerian" = eul_xmf (stem ++ ".h5").
Proof. intros H. rewrite XdmfProofs.lag_name, XdmfProofs.eul_name by exact H. reflexivity. Qed.
(** Origin and spacing: the declared number of values is the number of values in 3D; in 2D two are declared, three listed. *)
Theorem C53_origin_count (V : Type) (zero : V) h5 dim N origin dx fs : Z.of_nat (length origin) = dim -> Z.of_nat (length dx) = dim -> dim = 2 \/ dim = 3 ->
  let d := eul_doc zero h5 dim N origin dx fs in
  (Z.of_nat (length (snd (x_origin d))) = 3 /\ Z.of_nat (length (snd (x_spacing d))) = 3) /\ (fst (x_origin d) = 3 <-> dim = 3) /\ fst (x_spacing d) = fst (x_origin d).
Proof. intros Ho Hd Hdim d. unfold d. cbn. unfold pad. destruct Hdim as [-> | ->]; cbn [Z.eqb Pos.eqb length]; repeat split; lia. Qed.

Print Assumptions C53_file_names.
Print Assumptions C53_eulerian_description.
Print Assumptions C53_lagrangian_description.
Print Assumptions C53_two_masters_refuted.
Print Assumptions C53_no_suffix_refuted.
Print Assumptions C53_grid_called_eulerian_refuted.
Print Assumptions C53_origin_count.
