(** Model of the norms of get_vorticity_divergence_l2_norm and get_grid_deviation_error_l2_norm in rounded arithmetic. *)
From Coq Require Import Reals Permutation.
From Verif Require Import Base SpecGrid SpecReduce Comm Blocking Ghost2D Stencil Diagnostics Vbf.
Open Scope R_scope.

Section N.
Variable rnd : R -> R.
(** The square of a vector as np.linalg.norm computes it (x.dot(x)): products added in any order and grouping, starting from zeros, with
    or without fused multiply-add. *)
Inductive dot : list R -> R -> Prop :=
| dot_zero : dot [] 0
| dot_term x : dot [x] (rnd (x * x))
| dot_fma x l s : dot l s -> dot (x :: l) (rnd (s + x * x))
| dot_add l1 l2 s1 s2 : dot l1 s1 -> dot l2 s2 -> dot (l1 ++ l2) (rnd (s1 + s2))
| dot_perm l1 l2 s : Permutation l1 l2 -> dot l1 s -> dot l2 s.
(** np.linalg.norm(l) ** 2 *)
Definition norm_sq (l : list R) (v : R) : Prop := exists s, dot l s /\ v = rnd (rnd (sqrt s) * rnd (sqrt s)).
(** The squared norms of the ranks' arrays [l r], reduced with SUM (MPI chooses order and bracketing). *)
Definition sum_of_norms (n : Z) (l : Z -> list R) (t : R) : Prop :=
  exists v, (forall r, (0 <= r < n)%Z -> norm_sq (l r) (v r)) /\ reduces (fun a b => rnd (a + b)) n v t.
(** get_vorticity_divergence_l2_norm after compute_divergence has filled [dv]; d15 is the computed dx**1.5.
    simulator/flow/flow_simulators_mpi_3d.py:461-469 *)
Definition rounded_divergence_norm (loc : list Z) (g n : Z) (d15 : R) (dv : nat) (m : mem R) (x : R) : Prop :=
  exists t, sum_of_norms n (fun r => map (fun I => m (r, (dv, ravel (ghosted g loc) I))) (slice_cells (ghosted g loc) g)) t /\ x = rnd (rnd (sqrt t) * d15).
(** get_grid_deviation_error_l2_norm(compute_global=True).
    simulator/immersed_body/immersed_body_flow_interaction_mpi.py:187-202 *)
Definition rounded_deviation (n nc N : Z) (A : arrays) (s : vb) (m : Z -> @lmem R) (x : R) : Prop :=
  exists t, sum_of_norms n (fun r => map (fun k => m r (lpm A, k)) (zrange 0 (nc * num s r))) t /\ x = rnd (rnd (sqrt t) / rnd (sqrt (IZR N))).
End N.
