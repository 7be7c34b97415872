(** Model of MPIGhostCommunicator3D (sopht_mpi/utils/mpi_utils_3d.py:86-1150).
    The datatype and operation tables below were transcribed mechanically
    from the Python source; line numbers refer to it. *)
From Verif Require Import Base SpecGrid Cart Comm.

(** MPI [Create_subarray(sizes, subsizes, starts)], C order: flat indices of
    the box of extents [subsizes] at corner [starts] of an array of extents [sizes]. *)
Definition mpi_subarray (sizes subsizes starts : list Z) : list Z :=
  map (ravel sizes) (box starts subsizes).

Section Ghost3D.
(** mpi_construct: periodic flag, topology (ranks along z, y, x), local size; ghost size. *)
Variables (per : bool) (pz py px : Z) (n0 n1 n2 : Z) (g : Z).

(** field_size_with_ghost, mpi_utils_3d.py:162-165. *)
Definition s0 : Z := n0 + 2 * g.
Definition s1 : Z := n1 + 2 * g.
Definition s2 : Z := n2 + 2 * g.

Definition topo3 : list Z := [pz; py; px].
(** mpi_utils_3d.py:761-763 *)
Definition z_axis3 : nat := 0.
Definition y_axis3 : nat := 1.
Definition x_axis3 : nat := 2.
Definition prev3 (r : Z) (dim : nat) := previous_grid_along per topo3 r dim.
Definition next3 (r : Z) (dim : nat) := next_grid_along per topo3 r dim.
(** _get_diagonally_shifted_coord_rank, mpi_utils_3d.py:742-754 *)
Definition diag3 (r : Z) (sh : list Z) := diagonal_rank per topo3 r sh.

(** Buffer specification (local_field, datatype) for field f. *)
Definition buf3 (f : nat) (ty : list Z) : list addr := map (fun o => (f, o)) ty.

(** mpi_utils_3d.py:171-179 *)
Definition send_to_0_0_px_type : list Z :=
  mpi_subarray [s0; s1; s2] [n0; n1; g] [g; g; s2 - 2 * g].

(** mpi_utils_3d.py:181-185 *)
Definition recv_from_0_0_nx_type : list Z :=
  mpi_subarray [s0; s1; s2] [n0; n1; g] [g; g; 0].

(** mpi_utils_3d.py:188-192 *)
Definition send_to_0_0_nx_type : list Z :=
  mpi_subarray [s0; s1; s2] [n0; n1; g] [g; g; g].

(** mpi_utils_3d.py:194-202 *)
Definition recv_from_0_0_px_type : list Z :=
  mpi_subarray [s0; s1; s2] [n0; n1; g] [g; g; s2 - g].

(** mpi_utils_3d.py:206-214 *)
Definition send_to_0_py_0_type : list Z :=
  mpi_subarray [s0; s1; s2] [n0; g; n2] [g; s1 - 2 * g; g].

(** mpi_utils_3d.py:216-220 *)
Definition recv_from_0_ny_0_type : list Z :=
  mpi_subarray [s0; s1; s2] [n0; g; n2] [g; 0; g].

(** mpi_utils_3d.py:223-227 *)
Definition send_to_0_ny_0_type : list Z :=
  mpi_subarray [s0; s1; s2] [n0; g; n2] [g; g; g].

(** mpi_utils_3d.py:229-237 *)
Definition recv_from_0_py_0_type : list Z :=
  mpi_subarray [s0; s1; s2] [n0; g; n2] [g; s1 - g; g].

(** mpi_utils_3d.py:241-249 *)
Definition send_to_pz_0_0_type : list Z :=
  mpi_subarray [s0; s1; s2] [g; n1; n2] [s0 - 2 * g; g; g].

(** mpi_utils_3d.py:251-255 *)
Definition recv_from_nz_0_0_type : list Z :=
  mpi_subarray [s0; s1; s2] [g; n1; n2] [0; g; g].

(** mpi_utils_3d.py:258-262 *)
Definition send_to_nz_0_0_type : list Z :=
  mpi_subarray [s0; s1; s2] [g; n1; n2] [g; g; g].

(** mpi_utils_3d.py:264-272 *)
Definition recv_from_pz_0_0_type : list Z :=
  mpi_subarray [s0; s1; s2] [g; n1; n2] [s0 - g; g; g].

(** mpi_utils_3d.py:280-290 *)
Definition send_to_0_py_px_type : list Z :=
  mpi_subarray [s0; s1; s2] [n0; g; g] [g; s1 - 2 * g; s2 - 2 * g].

(** mpi_utils_3d.py:292-298 *)
Definition recv_from_0_ny_nx_type : list Z :=
  mpi_subarray [s0; s1; s2] [n0; g; g] [g; 0; 0].

(** mpi_utils_3d.py:301-311 *)
Definition send_to_0_ny_px_type : list Z :=
  mpi_subarray [s0; s1; s2] [n0; g; g] [g; g; s2 - 2 * g].

(** mpi_utils_3d.py:313-323 *)
Definition recv_from_0_py_nx_type : list Z :=
  mpi_subarray [s0; s1; s2] [n0; g; g] [g; s1 - g; 0].

(** mpi_utils_3d.py:326-336 *)
Definition send_to_0_py_nx_type : list Z :=
  mpi_subarray [s0; s1; s2] [n0; g; g] [g; s1 - 2 * g; g].

(** mpi_utils_3d.py:338-348 *)
Definition recv_from_0_ny_px_type : list Z :=
  mpi_subarray [s0; s1; s2] [n0; g; g] [g; 0; s2 - g].

(** mpi_utils_3d.py:351-357 *)
Definition send_to_0_ny_nx_type : list Z :=
  mpi_subarray [s0; s1; s2] [n0; g; g] [g; g; g].

(** mpi_utils_3d.py:359-369 *)
Definition recv_from_0_py_px_type : list Z :=
  mpi_subarray [s0; s1; s2] [n0; g; g] [g; s1 - g; s2 - g].

(** mpi_utils_3d.py:373-383 *)
Definition send_to_pz_0_px_type : list Z :=
  mpi_subarray [s0; s1; s2] [g; n1; g] [s0 - 2 * g; g; s2 - 2 * g].

(** mpi_utils_3d.py:385-391 *)
Definition recv_from_nz_0_nx_type : list Z :=
  mpi_subarray [s0; s1; s2] [g; n1; g] [0; g; 0].

(** mpi_utils_3d.py:394-404 *)
Definition send_to_nz_0_px_type : list Z :=
  mpi_subarray [s0; s1; s2] [g; n1; g] [g; g; s2 - 2 * g].

(** mpi_utils_3d.py:406-416 *)
Definition recv_from_pz_0_nx_type : list Z :=
  mpi_subarray [s0; s1; s2] [g; n1; g] [s0 - g; g; 0].

(** mpi_utils_3d.py:419-429 *)
Definition send_to_pz_0_nx_type : list Z :=
  mpi_subarray [s0; s1; s2] [g; n1; g] [s0 - 2 * g; g; g].

(** mpi_utils_3d.py:431-441 *)
Definition recv_from_nz_0_px_type : list Z :=
  mpi_subarray [s0; s1; s2] [g; n1; g] [0; g; s2 - g].

(** mpi_utils_3d.py:444-450 *)
Definition send_to_nz_0_nx_type : list Z :=
  mpi_subarray [s0; s1; s2] [g; n1; g] [g; g; g].

(** mpi_utils_3d.py:452-462 *)
Definition recv_from_pz_0_px_type : list Z :=
  mpi_subarray [s0; s1; s2] [g; n1; g] [s0 - g; g; s2 - g].

(** mpi_utils_3d.py:466-476 *)
Definition send_to_pz_py_0_type : list Z :=
  mpi_subarray [s0; s1; s2] [g; g; n2] [s0 - 2 * g; s1 - 2 * g; g].

(** mpi_utils_3d.py:478-484 *)
Definition recv_from_nz_ny_0_type : list Z :=
  mpi_subarray [s0; s1; s2] [g; g; n2] [0; 0; g].

(** mpi_utils_3d.py:487-497 *)
Definition send_to_nz_py_0_type : list Z :=
  mpi_subarray [s0; s1; s2] [g; g; n2] [g; s1 - 2 * g; g].

(** mpi_utils_3d.py:499-509 *)
Definition recv_from_pz_ny_0_type : list Z :=
  mpi_subarray [s0; s1; s2] [g; g; n2] [s0 - g; 0; g].

(** mpi_utils_3d.py:512-522 *)
Definition send_to_pz_ny_0_type : list Z :=
  mpi_subarray [s0; s1; s2] [g; g; n2] [s0 - 2 * g; g; g].

(** mpi_utils_3d.py:524-534 *)
Definition recv_from_nz_py_0_type : list Z :=
  mpi_subarray [s0; s1; s2] [g; g; n2] [0; s1 - g; g].

(** mpi_utils_3d.py:537-543 *)
Definition send_to_nz_ny_0_type : list Z :=
  mpi_subarray [s0; s1; s2] [g; g; n2] [g; g; g].

(** mpi_utils_3d.py:545-555 *)
Definition recv_from_pz_py_0_type : list Z :=
  mpi_subarray [s0; s1; s2] [g; g; n2] [s0 - g; s1 - g; g].

(** mpi_utils_3d.py:562-572 *)
Definition send_to_pz_py_px_type : list Z :=
  mpi_subarray [s0; s1; s2] [g; g; g] [s0 - 2 * g; s1 - 2 * g; s2 - 2 * g].

(** mpi_utils_3d.py:574-580 *)
Definition recv_from_nz_ny_nx_type : list Z :=
  mpi_subarray [s0; s1; s2] [g; g; g] [0; 0; 0].

(** mpi_utils_3d.py:583-593 *)
Definition send_to_nz_py_px_type : list Z :=
  mpi_subarray [s0; s1; s2] [g; g; g] [g; s1 - 2 * g; s2 - 2 * g].

(** mpi_utils_3d.py:595-601 *)
Definition recv_from_pz_ny_nx_type : list Z :=
  mpi_subarray [s0; s1; s2] [g; g; g] [s0 - g; 0; 0].

(** mpi_utils_3d.py:604-614 *)
Definition send_to_pz_ny_px_type : list Z :=
  mpi_subarray [s0; s1; s2] [g; g; g] [s0 - 2 * g; g; s2 - 2 * g].

(** mpi_utils_3d.py:616-622 *)
Definition recv_from_nz_py_nx_type : list Z :=
  mpi_subarray [s0; s1; s2] [g; g; g] [0; s1 - g; 0].

(** mpi_utils_3d.py:625-635 *)
Definition send_to_pz_py_nx_type : list Z :=
  mpi_subarray [s0; s1; s2] [g; g; g] [s0 - 2 * g; s1 - 2 * g; g].

(** mpi_utils_3d.py:637-643 *)
Definition recv_from_nz_ny_px_type : list Z :=
  mpi_subarray [s0; s1; s2] [g; g; g] [0; 0; s2 - g].

(** mpi_utils_3d.py:646-656 *)
Definition send_to_nz_ny_px_type : list Z :=
  mpi_subarray [s0; s1; s2] [g; g; g] [g; g; s2 - 2 * g].

(** mpi_utils_3d.py:658-668 *)
Definition recv_from_pz_py_nx_type : list Z :=
  mpi_subarray [s0; s1; s2] [g; g; g] [s0 - g; s1 - g; 0].

(** mpi_utils_3d.py:671-681 *)
Definition send_to_nz_py_nx_type : list Z :=
  mpi_subarray [s0; s1; s2] [g; g; g] [g; s1 - 2 * g; g].

(** mpi_utils_3d.py:683-693 *)
Definition recv_from_pz_ny_px_type : list Z :=
  mpi_subarray [s0; s1; s2] [g; g; g] [s0 - g; 0; s2 - g].

(** mpi_utils_3d.py:696-706 *)
Definition send_to_pz_ny_nx_type : list Z :=
  mpi_subarray [s0; s1; s2] [g; g; g] [s0 - 2 * g; g; g].

(** mpi_utils_3d.py:708-718 *)
Definition recv_from_nz_py_px_type : list Z :=
  mpi_subarray [s0; s1; s2] [g; g; g] [0; s1 - g; s2 - g].

(** mpi_utils_3d.py:721-727 *)
Definition send_to_nz_ny_nx_type : list Z :=
  mpi_subarray [s0; s1; s2] [g; g; g] [g; g; g].

(** mpi_utils_3d.py:729-739 *)
Definition recv_from_pz_py_px_type : list Z :=
  mpi_subarray [s0; s1; s2] [g; g; g] [s0 - g; s1 - g; s2 - g].

(** exchange_scalar_field_faces_init, mpi_utils_3d.py:756-842. *)
Definition faces_init3 (r : Z) (f : nat) : list op :=
  [ (* 766-771 *) ISend (next3 r x_axis3) (buf3 f send_to_0_0_px_type);
    (* 772-777 *) IRecv (prev3 r x_axis3) (buf3 f recv_from_0_0_nx_type);
    (* 779-784 *) ISend (prev3 r x_axis3) (buf3 f send_to_0_0_nx_type);
    (* 785-790 *) IRecv (next3 r x_axis3) (buf3 f recv_from_0_0_px_type);
    (* 792-797 *) ISend (next3 r y_axis3) (buf3 f send_to_0_py_0_type);
    (* 798-803 *) IRecv (prev3 r y_axis3) (buf3 f recv_from_0_ny_0_type);
    (* 805-810 *) ISend (prev3 r y_axis3) (buf3 f send_to_0_ny_0_type);
    (* 811-816 *) IRecv (next3 r y_axis3) (buf3 f recv_from_0_py_0_type);
    (* 818-823 *) ISend (next3 r z_axis3) (buf3 f send_to_pz_0_0_type);
    (* 824-829 *) IRecv (prev3 r z_axis3) (buf3 f recv_from_nz_0_0_type);
    (* 831-836 *) ISend (prev3 r z_axis3) (buf3 f send_to_nz_0_0_type);
    (* 837-842 *) IRecv (next3 r z_axis3) (buf3 f recv_from_pz_0_0_type) ].

(** exchange_scalar_field_edges_init, mpi_utils_3d.py:844-1003. *)
Definition edges_init3 (r : Z) (f : nat) : list op :=
  [ (* 849-854 *) ISend (diag3 r [0; 1; 1]) (buf3 f send_to_0_py_px_type);
    (* 855-860 *) IRecv (diag3 r [0; -1; -1]) (buf3 f recv_from_0_ny_nx_type);
    (* 862-867 *) ISend (diag3 r [0; -1; 1]) (buf3 f send_to_0_ny_px_type);
    (* 868-873 *) IRecv (diag3 r [0; 1; -1]) (buf3 f recv_from_0_py_nx_type);
    (* 875-880 *) ISend (diag3 r [0; 1; -1]) (buf3 f send_to_0_py_nx_type);
    (* 881-886 *) IRecv (diag3 r [0; -1; 1]) (buf3 f recv_from_0_ny_px_type);
    (* 888-893 *) ISend (diag3 r [0; -1; -1]) (buf3 f send_to_0_ny_nx_type);
    (* 894-899 *) IRecv (diag3 r [0; 1; 1]) (buf3 f recv_from_0_py_px_type);
    (* 901-906 *) ISend (diag3 r [1; 0; 1]) (buf3 f send_to_pz_0_px_type);
    (* 907-912 *) IRecv (diag3 r [-1; 0; -1]) (buf3 f recv_from_nz_0_nx_type);
    (* 914-919 *) ISend (diag3 r [-1; 0; 1]) (buf3 f send_to_nz_0_px_type);
    (* 920-925 *) IRecv (diag3 r [1; 0; -1]) (buf3 f recv_from_pz_0_nx_type);
    (* 927-932 *) ISend (diag3 r [1; 0; -1]) (buf3 f send_to_pz_0_nx_type);
    (* 933-938 *) IRecv (diag3 r [-1; 0; 1]) (buf3 f recv_from_nz_0_px_type);
    (* 940-945 *) ISend (diag3 r [-1; 0; -1]) (buf3 f send_to_nz_0_nx_type);
    (* 946-951 *) IRecv (diag3 r [1; 0; 1]) (buf3 f recv_from_pz_0_px_type);
    (* 953-958 *) ISend (diag3 r [1; 1; 0]) (buf3 f send_to_pz_py_0_type);
    (* 959-964 *) IRecv (diag3 r [-1; -1; 0]) (buf3 f recv_from_nz_ny_0_type);
    (* 966-971 *) ISend (diag3 r [-1; 1; 0]) (buf3 f send_to_nz_py_0_type);
    (* 972-977 *) IRecv (diag3 r [1; -1; 0]) (buf3 f recv_from_pz_ny_0_type);
    (* 979-984 *) ISend (diag3 r [1; -1; 0]) (buf3 f send_to_pz_ny_0_type);
    (* 985-990 *) IRecv (diag3 r [-1; 1; 0]) (buf3 f recv_from_nz_py_0_type);
    (* 992-997 *) ISend (diag3 r [-1; -1; 0]) (buf3 f send_to_nz_ny_0_type);
    (* 998-1003 *) IRecv (diag3 r [1; 1; 0]) (buf3 f recv_from_pz_py_0_type) ].

(** exchange_scalar_field_vertices_init, mpi_utils_3d.py:1005-1114. *)
Definition vertices_init3 (r : Z) (f : nat) : list op :=
  [ (* 1010-1015 *) ISend (diag3 r [1; 1; 1]) (buf3 f send_to_pz_py_px_type);
    (* 1016-1023 *) IRecv (diag3 r [-1; -1; -1]) (buf3 f recv_from_nz_ny_nx_type);
    (* 1025-1030 *) ISend (diag3 r [-1; 1; 1]) (buf3 f send_to_nz_py_px_type);
    (* 1031-1036 *) IRecv (diag3 r [1; -1; -1]) (buf3 f recv_from_pz_ny_nx_type);
    (* 1038-1043 *) ISend (diag3 r [1; -1; 1]) (buf3 f send_to_pz_ny_px_type);
    (* 1044-1049 *) IRecv (diag3 r [-1; 1; -1]) (buf3 f recv_from_nz_py_nx_type);
    (* 1051-1056 *) ISend (diag3 r [1; 1; -1]) (buf3 f send_to_pz_py_nx_type);
    (* 1057-1062 *) IRecv (diag3 r [-1; -1; 1]) (buf3 f recv_from_nz_ny_px_type);
    (* 1064-1069 *) ISend (diag3 r [-1; -1; 1]) (buf3 f send_to_nz_ny_px_type);
    (* 1070-1075 *) IRecv (diag3 r [1; 1; -1]) (buf3 f recv_from_pz_py_nx_type);
    (* 1077-1082 *) ISend (diag3 r [-1; 1; -1]) (buf3 f send_to_nz_py_nx_type);
    (* 1083-1088 *) IRecv (diag3 r [1; -1; 1]) (buf3 f recv_from_pz_ny_px_type);
    (* 1090-1095 *) ISend (diag3 r [1; -1; -1]) (buf3 f send_to_pz_ny_nx_type);
    (* 1096-1101 *) IRecv (diag3 r [-1; 1; 1]) (buf3 f recv_from_nz_py_px_type);
    (* 1103-1108 *) ISend (diag3 r [-1; -1; -1]) (buf3 f send_to_nz_ny_nx_type);
    (* 1109-1114 *) IRecv (diag3 r [1; 1; 1]) (buf3 f recv_from_pz_py_px_type) ].

(** exchange_scalar_field_full_init, mpi_utils_3d.py:1116-1123, and the choice
    made in __init__ (mpi_utils_3d.py:136-139). *)
Definition exchange_scalar_field_init3 (full_exchange : bool) (r : Z) (f : nat) : list op :=
  if full_exchange then faces_init3 r f ++ edges_init3 r f ++ vertices_init3 r f else faces_init3 r f.

(** Operations pending when exchange_finalise is called after
    exchange_scalar_field_init on the fields F, in order. *)
Definition exchange3 (full_exchange : bool) (F : list nat) (r : Z) : list op :=
  flat_map (exchange_scalar_field_init3 full_exchange r) F.

(** exchange_vector_field_init, mpi_utils_3d.py:1125-1136 *)
Definition exchange_vector3 (full_exchange : bool) (fx fy fz : nat) (r : Z) : list op :=
  exchange_scalar_field_init3 full_exchange r fx ++ exchange_scalar_field_init3 full_exchange r fy ++ exchange_scalar_field_init3 full_exchange r fz.
End Ghost3D.
