(** The solvers with the convolution made explicit. *)
From Coq Require Import Reals Lra FunctionalExtensionality.
From Coquelicot Require Import Complex.
From Verif Require Import Base SpecGrid SpecGhost SpecStencil SpecStep SpecDouble SpecFourier SpecGreens Comm Spmd PyNum Doubling Greens FourierThms GreensProofs.
From Verif Require PoissonProofs StepProofs IoEulProofs.
Open Scope Z_scope.

Lemma solves_2d fwd bwd kept x_range per py px ny nx g dd D S Fs solves (m : mem R) u :
  1 <= py -> 1 <= px -> 1 <= ny -> 1 <= nx -> 0 <= g -> (0 < x_range)%R -> distributed_dim2 py px = Ok dd -> per = false \/ (py * px) mod 2 = 0 -> D <> S ->
  ~ In D Fs -> ~ In S Fs -> Forall (fun sr => In (fst sr) Fs /\ In (snd sr) Fs) solves ->
  let N := [py * ny; px * nx] in let M := doubled N in
  half_spectrum M kept -> is_forward M kept fwd -> is_backward M kept bwd ->
  let dx := (x_range / IZR (px * nx))%R in
  exists m', spmd_ends (py * px) (flat_map (fun sr => poisson_solve_2d (poisson_convolution_2d fwd bwd x_range py px ny nx) 0%R per py px ny nx g dd D S (fst sr) (snd sr)) solves) m m' /\
    let u' := free_solves (free_green_2d dx) (dx ^ 2)%R N solves u in
    (represents [py; px] [ny; nx] g Fs m u -> represents [py; px] [ny; nx] g Fs m' u') /\
    (represents_ext per [py; px] [ny; nx] g Fs m u -> represents_ext per [py; px] [ny; nx] g Fs m' u').
Proof.
  intros Hpy Hpx Hny Hnx Hg Hx Hdd Hper DS ND NS HF N M HH Hf Hb dx.
  destruct (PoissonProofs.solves_2d (poisson_convolution_2d fwd bwd x_range py px ny nx) 0%R per py px ny nx g dd D S Fs solves m u) as [m' [E H]]; try assumption.
  exists m'. split; [exact E|]. cbv zeta in *. rewrite (solve_all_free N _ (free_green_2d dx) (dx ^ 2)%R) in H; [exact H|].
  intros v P HP. apply (conv_2d fwd bwd kept); assumption.
Qed.
Lemma solves_3d fwd bwd kept x_range per pz py px n0 n1 n2 g D S Fs solves (m : mem R) u :
  1 <= pz -> 1 <= py -> 1 <= px -> 1 <= n0 -> 1 <= n1 -> 1 <= n2 -> 0 <= g -> (0 < x_range)%R -> evenly [pz; py; px] -> D <> S ->
  ~ In D Fs -> ~ In S Fs -> Forall (fun sr => In (fst sr) Fs /\ In (snd sr) Fs) solves ->
  let N := [pz * n0; py * n1; px * n2] in let M := doubled N in
  half_spectrum M kept -> is_forward M kept fwd -> is_backward M kept bwd ->
  let dx := (x_range / IZR (px * n2))%R in
  exists m', spmd_ends (zprod [pz; py; px]) (flat_map (fun sr => poisson_solve_3d (poisson_convolution_3d fwd bwd x_range pz py px n0 n1 n2) 0%R per pz py px n0 n1 n2 g D S (fst sr) (snd sr)) solves) m m' /\
    let u' := free_solves (free_green_3d dx) (dx ^ 3)%R N solves u in
    (represents [pz; py; px] [n0; n1; n2] g Fs m u -> represents [pz; py; px] [n0; n1; n2] g Fs m' u') /\
    (represents_ext per [pz; py; px] [n0; n1; n2] g Fs m u -> represents_ext per [pz; py; px] [n0; n1; n2] g Fs m' u').
Proof.
  intros Hpz Hpy Hpx Hn0 Hn1 Hn2 Hg Hx Hev DS ND NS HF N M HH Hf Hb dx.
  destruct (PoissonProofs.solves_3d (poisson_convolution_3d fwd bwd x_range pz py px n0 n1 n2) 0%R per pz py px n0 n1 n2 g D S Fs solves m u) as [m' [E H]]; try assumption.
  exists m'. split; [exact E|]. cbv zeta in *. rewrite (solve_all_free N _ (free_green_3d dx) (dx ^ 3)%R) in H; [exact H|].
  intros v P HP. apply (conv_3d fwd bwd kept); assumption.
Qed.

Lemma vector_solve_3d fwd bwd kept x_range per pz py px n0 n1 n2 g D S s0 s1 s2 r0 r1 r2 (m : mem R) u :
  1 <= pz -> 1 <= py -> 1 <= px -> 1 <= n0 -> 1 <= n1 -> 1 <= n2 -> 0 <= g -> (0 < x_range)%R -> evenly [pz; py; px] ->
  NoDup [D; S; s0; s1; s2; r0; r1; r2] ->
  let N := [pz * n0; py * n1; px * n2] in let M := doubled N in
  half_spectrum M kept -> is_forward M kept fwd -> is_backward M kept bwd ->
  let dx := (x_range / IZR (px * n2))%R in
  represents [pz; py; px] [n0; n1; n2] g [r0; r1; r2] m u ->
  exists m', spmd_ends (zprod [pz; py; px]) (poisson_vector_solve_3d (poisson_convolution_3d fwd bwd x_range pz py px n0 n1 n2) 0%R per pz py px n0 n1 n2 g D S [s0; s1; s2] [r0; r1; r2]) m m' /\
    (forall s r, In (s, r) [(s0, r0); (s1, r1); (s2, r2)] ->
      represents [pz; py; px] [n0; n1; n2] g [s] m' (fun _ => free_space (free_green_3d dx) (dx ^ 3)%R N (u r))).
Proof.
  intros Hpz Hpy Hpx Hn0 Hn1 Hn2 Hg Hx Hev ND N M HH Hf Hb dx HR.
  destruct (PoissonProofs.vector_solve_3d (poisson_convolution_3d fwd bwd x_range pz py px n0 n1 n2) 0%R per pz py px n0 n1 n2 g D S s0 s1 s2 r0 r1 r2 m u) as [m' [E [H _]]]; try assumption.
  exists m'. split; [exact E|]. intros s r Hin. specialize (H s r Hin).
  intros q x f Hq Hf' HI. rewrite (H q x f Hq Hf' HI). unfold poisson. apply (conv_3d fwd bwd kept); try assumption.
  apply (IoEulProofs.at_inb [pz; py; px] [n0; n1; n2]); try assumption. apply PoissonProofs.ok3; assumption.
Qed.
