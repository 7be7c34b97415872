(** Property C48: the unbounded Poisson solvers compute the free-space convolution. *)
From Coq Require Import Reals.
From Coquelicot Require Import Hierarchy Complex RInt.
From Verif Require Import Base SpecGrid SpecGhost SpecStencil SpecStep SpecDouble SpecFourier SpecGreens Comm Spmd PyNum Doubling Greens.
From Verif Require GreensProofs GreensThms GreensMean FourierThms.
Open Scope Z_scope.

(** Every value of every rank's Green's function array is finite and is the free-space Green's function
    at the offset from the nearest corner of the doubled grid to the cell. *)
Theorem C48_greens_function_2d x_range py px ny nx r I :
  1 <= py -> 1 <= px -> 1 <= ny -> 1 <= nx -> (0 < x_range)%R -> 0 <= r < py * px -> inb (doubled [ny; nx]) I ->
  rank_greens_2d x_range py px ny nx r I =
  Some (free_green_2d (x_range / IZR (px * nx)) (nearest_end [py * ny; px * nx] (vadd (block_start [py; px] (doubled [ny; nx]) r) I))).
Proof. intros. now apply GreensProofs.rank_greens_2d_value. Qed.
Theorem C48_greens_function_3d x_range pz py px n0 n1 n2 r I :
  1 <= pz -> 1 <= py -> 1 <= px -> 1 <= n0 -> 1 <= n1 -> 1 <= n2 -> (0 < x_range)%R -> 0 <= r < zprod [pz; py; px] -> inb (doubled [n0; n1; n2]) I ->
  rank_greens_3d x_range pz py px n0 n1 n2 r I =
  Some (free_green_3d (x_range / IZR (px * n2)) (nearest_end [pz * n0; py * n1; px * n2] (vadd (block_start [pz; py; px] (doubled [n0; n1; n2]) r) I))).
Proof. intros. now apply GreensProofs.rank_greens_3d_value. Qed.

(** The value at distance 0 in the plane is the mean of - ln r / (2 pi) over the disc with the area of a cell. *)
Theorem C48_regularised_value dx : (0 < dx)%R ->
  let R0 := (dx / sqrt PI)%R in
  (PI * R0 ^ 2 = dx ^ 2)%R /\
  forall tol, (0 < tol)%R -> exists a0, (0 < a0)%R /\ forall a, (0 < a < a0)%R ->
    (Rabs (RInt (V := Hierarchy.R_CompleteNormedModule) (fun r => - ln r / (2 * PI) * (2 * PI * r)) a R0 / dx ^ 2 - free_green_2d dx [0%Z; 0%Z]) < tol)%R.
Proof. exact (GreensMean.mean_over_disc dx). Qed.

(** Any sequence of solves, with any transforms that compute the discrete Fourier transform formulas:
    each solution is the free-space convolution of the current right-hand side. *)
Theorem C48_solves_2d fwd bwd kept x_range per py px ny nx g dd D S Fs solves (m : mem R) u :
  1 <= py -> 1 <= px -> 1 <= ny -> 1 <= nx -> 0 <= g -> (0 < x_range)%R -> distributed_dim2 py px = Ok dd -> per = false \/ (py * px) mod 2 = 0 -> D <> S ->
  ~ In D Fs -> ~ In S Fs -> Forall (fun sr => In (fst sr) Fs /\ In (snd sr) Fs) solves ->
  let N := [py * ny; px * nx] in let M := doubled N in
  half_spectrum M kept -> is_forward M kept fwd -> is_backward M kept bwd ->
  let dx := (x_range / IZR (px * nx))%R in
  exists m', spmd_ends (py * px) (flat_map (fun sr => poisson_solve_2d (poisson_convolution_2d fwd bwd x_range py px ny nx) 0%R per py px ny nx g dd D S (fst sr) (snd sr)) solves) m m' /\
    let u' := free_solves (free_green_2d dx) (dx ^ 2)%R N solves u in
    (represents [py; px] [ny; nx] g Fs m u -> represents [py; px] [ny; nx] g Fs m' u') /\
    (represents_ext per [py; px] [ny; nx] g Fs m u -> represents_ext per [py; px] [ny; nx] g Fs m' u').
Proof. exact (GreensThms.solves_2d fwd bwd kept x_range per py px ny nx g dd D S Fs solves m u). Qed.
Theorem C48_solves_3d fwd bwd kept x_range per pz py px n0 n1 n2 g D S Fs solves (m : mem R) u :
  1 <= pz -> 1 <= py -> 1 <= px -> 1 <= n0 -> 1 <= n1 -> 1 <= n2 -> 0 <= g -> (0 < x_range)%R -> evenly [pz; py; px] -> D <> S ->
  ~ In D Fs -> ~ In S Fs -> Forall (fun sr => In (fst sr) Fs /\ In (snd sr) Fs) solves ->
  let N := [pz * n0; py * n1; px * n2] in let M := doubled N in
  half_spectrum M kept -> is_forward M kept fwd -> is_backward M kept bwd ->
  let dx := (x_range / IZR (px * n2))%R in
  exists m', spmd_ends (zprod [pz; py; px]) (flat_map (fun sr => poisson_solve_3d (poisson_convolution_3d fwd bwd x_range pz py px n0 n1 n2) 0%R per pz py px n0 n1 n2 g D S (fst sr) (snd sr)) solves) m m' /\
    let u' := free_solves (free_green_3d dx) (dx ^ 3)%R N solves u in
    (represents [pz; py; px] [n0; n1; n2] g Fs m u -> represents [pz; py; px] [n0; n1; n2] g Fs m' u') /\
    (represents_ext per [pz; py; px] [n0; n1; n2] g Fs m u -> represents_ext per [pz; py; px] [n0; n1; n2] g Fs m' u').
Proof. exact (GreensThms.solves_3d fwd bwd kept x_range per pz py px n0 n1 n2 g D S Fs solves m u). Qed.
(** The vector solve of the 3D solver. *)
Theorem C48_vector_solve_3d fwd bwd kept x_range per pz py px n0 n1 n2 g D S s0 s1 s2 r0 r1 r2 (m : mem R) u :
  1 <= pz -> 1 <= py -> 1 <= px -> 1 <= n0 -> 1 <= n1 -> 1 <= n2 -> 0 <= g -> (0 < x_range)%R -> evenly [pz; py; px] ->
  NoDup [D; S; s0; s1; s2; r0; r1; r2] ->
  let N := [pz * n0; py * n1; px * n2] in let M := doubled N in
  half_spectrum M kept -> is_forward M kept fwd -> is_backward M kept bwd ->
  let dx := (x_range / IZR (px * n2))%R in
  represents [pz; py; px] [n0; n1; n2] g [r0; r1; r2] m u ->
  exists m', spmd_ends (zprod [pz; py; px]) (poisson_vector_solve_3d (poisson_convolution_3d fwd bwd x_range pz py px n0 n1 n2) 0%R per pz py px n0 n1 n2 g D S [s0; s1; s2] [r0; r1; r2]) m m' /\
    (forall s r, In (s, r) [(s0, r0); (s1, r1); (s2, r2)] ->
      represents [pz; py; px] [n0; n1; n2] g [s] m' (fun _ => free_space (free_green_3d dx) (dx ^ 3)%R N (u r))).
Proof. exact (GreensThms.vector_solve_3d fwd bwd kept x_range per pz py px n0 n1 n2 g D S s0 s1 s2 r0 r1 r2 m u). Qed.

(** The contract on the transforms is met: by the formulas, whichever axis a stores only its first half
    of the frequencies, on any grid. *)
Example transforms_exist M a : Forall (fun m => 1 <= m) M -> (a < length M)%nat ->
  let kept := fun K => nth a K 0 <=? nth a M 0 / 2 in
  half_spectrum M kept /\ is_forward M kept (fun v => dft M (fun P => RtoC (v P))) /\ is_backward M kept (fun A P => Re (idft M (hermitian M kept A) P)).
Proof. intros HM Ha kept. split; [now apply GreensProofs.half_axis|]. split; [apply GreensProofs.forward_dft|apply GreensProofs.backward_idft]. Qed.
(** A doubled 3 x 2 grid: which offsets the cells stand for. *)
Example nearest_values : map (nearest_end [3; 2]) [[0; 0]; [3; 2]; [4; 1]; [5; 3]; [1; 2]] = [[0; 0]; [3; 2]; [2; 1]; [1; 1]; [1; 2]].
Proof. reflexivity. Qed.
(** A unit source in cell [0; 1] of a 1 x 2 grid seen from the other cell: one cell away, with no image. *)
Example free_space_value dx : free_space (free_green_2d dx) (dx ^ 2)%R [1; 2] (fun P => if list_eq_dec Z.eq_dec P [0; 1] then 1%R else 0%R) [0; 0] =
  (dx ^ 2 * (- ln (dx * sqrt 1) / (2 * PI)))%R.
Proof.
  unfold free_space. f_equal. change (all_cells [1; 2]) with [[0; 0]; [0; 1]]. unfold rsum. cbn [fold_right vsub].
  destruct (list_eq_dec Z.eq_dec [0; 0] [0; 1]) as [E|_]; [discriminate|]. destruct (list_eq_dec Z.eq_dec [0; 1] [0; 1]) as [_|E]; [|congruence].
  change (0 - 0) with 0. change (0 - 1) with (-1). unfold free_green_2d at 2, offset_length. cbn [forallb fold_right]. change (0 =? 0) with true. change (0 =? -1) with false. cbn [andb].
  change (0 * 0 + (-1 * -1 + 0)) with 1. ring.
Qed.

Print Assumptions C48_greens_function_2d.
Print Assumptions C48_greens_function_3d.
Print Assumptions C48_regularised_value.
Print Assumptions C48_solves_2d.
Print Assumptions C48_solves_3d.
Print Assumptions C48_vector_solve_3d.
