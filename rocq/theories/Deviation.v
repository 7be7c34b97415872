(** Model of get_grid_deviation_error_l2_norm
    (sopht_mpi/simulator/immersed_body/immersed_body_flow_interaction_mpi.py:182-202)
    in exact real arithmetic. *)
From Coq Require Import Reals.
From Verif Require Import Base SpecReduce Comm Blocking Vbf.
Open Scope Z_scope.

(** np.linalg.norm of an array of k elements *)
Definition array_norm (f : nat) (k : Z) (m : @lmem R) : R := sqrt (fold_right Rplus 0%R (map (fun x => Rsqr (m (f, x))) (zrange 0 k))).

(** compute_global=True, 191-202: x is returned on every rank (bcast).
    num_lag_nodes is the master's (its grid is the body's grid). *)
Definition global_deviation (n nc N : Z) (A : arrays) (s : vb) (m : Z -> @lmem R) (x : R) : Prop :=
  exists t, reduces Rplus n (fun r => Rsqr (array_norm (lpm A) (nc * num s r) (m r))) t /\ x = (sqrt t / sqrt (IZR N))%R.

(** forcing_grid.num_lag_nodes on rank r: the other ranks have an EmptyForcingGrid
    (immersed_body_flow_interaction_mpi.py:40-56, immersed_body_forcing_grid.py:12). *)
Definition seen_num_lag_nodes (master N r : Z) : Z := if r =? master then N else 0.
(** compute_global=False, 187-190.  None: division by zero. *)
Definition local_deviation (nc N master : Z) (A : arrays) (s : vb) (m : Z -> @lmem R) (r : Z) : option R :=
  if seen_num_lag_nodes master N r =? 0 then None
  else Some (array_norm (lpm A) (nc * num s r) (m r) / sqrt (IZR (seen_num_lag_nodes master N r)))%R.
