(** Properties C24, C25, C26: domain doubling and the unbounded Poisson solvers.
    A doubled array D has blocks of extents [doubled loc] on the same ranks and no ghosts. *)
From Verif Require Import Base SpecGrid SpecGhost SpecStencil SpecStep SpecDouble Comm Spmd PyNum Doubling.
From Verif Require PoissonProofs DoublingProofs.

(** C24.  2D, one axis distributed over any number of ranks, odd ones included (even ones if the domain is
    periodic).  Copying to the doubled domain: every message has its receive; every schedule terminates
    with the field in the lower corner and the doubled array otherwise as it was; no other array is written. *)
Theorem C24_to_doubled (T : Type) per py px ny nx g dd f D (m : mem T) u w :
  1 <= py -> 1 <= px -> 1 <= ny -> 1 <= nx -> 0 <= g -> distributed_dim2 py px = Ok dd -> per = false \/ (py * px) mod 2 = 0 -> f <> D ->
  represents [py; px] [ny; nx] g [f] m u -> represents [py; px] (doubled [ny; nx]) 0 [D] m (fun _ => w) ->
  let p := to_doubled2 per py px ny nx g dd f D in
  all_matched (py * px) p /\
  exists m', spmd_ends (py * px) [PExch (all_copies (py * px) p) (fun _ => [])] m m' /\
    represents [py; px] (doubled [ny; nx]) 0 [D] m' (fun _ => pad [py * ny; px * nx] (u f) w) /\
    (forall r h a, h <> D -> m' (r, (h, a)) = m (r, (h, a))).
Proof. exact (PoissonProofs.to_2d per py px ny nx g dd f D m u w). Qed.

(** Copying from the doubled domain brings the lower corner to the inner cells of the field; ghosts and other arrays keep their values. *)
Theorem C24_from_doubled (T : Type) per py px ny nx g dd f D (m : mem T) w :
  1 <= py -> 1 <= px -> 1 <= ny -> 1 <= nx -> 0 <= g -> distributed_dim2 py px = Ok dd -> per = false \/ (py * px) mod 2 = 0 -> f <> D ->
  represents [py; px] (doubled [ny; nx]) 0 [D] m (fun _ => w) ->
  let p := from_doubled2 per py px ny nx g dd f D in
  all_matched (py * px) p /\
  exists m', spmd_ends (py * px) [PExch (all_copies (py * px) p) (fun _ => [])] m m' /\
    represents [py; px] [ny; nx] g [f] m' (fun _ => w) /\
    (forall r I, 0 <= r < py * px -> inb (ghosted g [ny; nx]) I -> ~ inner g [ny; nx] I -> field m' (ghosted g [ny; nx]) r f I = field m (ghosted g [ny; nx]) r f I) /\
    (forall r h a, h <> f -> m' (r, (h, a)) = m (r, (h, a))).
Proof. exact (PoissonProofs.from_2d per py px ny nx g dd f D m w). Qed.

(** There and back: the inner cells of f' are those of f. *)
Theorem C24_roundtrip (T : Type) per py px ny nx g dd f f' D (m : mem T) u w :
  1 <= py -> 1 <= px -> 1 <= ny -> 1 <= nx -> 0 <= g -> distributed_dim2 py px = Ok dd -> per = false \/ (py * px) mod 2 = 0 -> f <> D -> f' <> D ->
  represents [py; px] [ny; nx] g [f] m u -> represents [py; px] (doubled [ny; nx]) 0 [D] m (fun _ => w) ->
  exists m', spmd_ends (py * px) [PExch (all_copies (py * px) (to_doubled2 per py px ny nx g dd f D)) (fun _ => []);
                                  PExch (all_copies (py * px) (from_doubled2 per py px ny nx g dd f' D)) (fun _ => [])] m m' /\
    represents [py; px] [ny; nx] g [f'] m' (fun _ => u f).
Proof. exact (PoissonProofs.roundtrip_2d per py px ny nx g dd f f' D m u w). Qed.

(** Exactly the decompositions of both axes are refused. *)
Theorem C24_distributed_axis py px :
  (distributed_dim2 py px = ValueError <-> py <> 1 /\ px <> 1) /\
  (forall dd, distributed_dim2 py px = Ok dd -> (dd = 0%nat /\ px = 1) \/ (dd = 1%nat /\ py = 1)).
Proof. exact (PoissonProofs.dist2_spec py px). Qed.

(** FINDING: on a periodic communicator with an odd number of ranks (one, for instance) a receive has no message. *)
Theorem C24_periodic_odd_refuted :
  ~ (forall py px ny nx g dd f D, 1 <= py -> 1 <= px -> 1 <= ny -> 1 <= nx -> 0 <= g -> distributed_dim2 py px = Ok dd -> f <> D ->
       all_matched (py * px) (to_doubled2 true py px ny nx g dd f D)).
Proof. exact PoissonProofs.periodic_odd_refuted. Qed.

(** C25.  3D, any number of axes distributed, one or an even number of ranks along each. *)
Theorem C25_to_doubled (T : Type) per pz py px n0 n1 n2 g f D (m : mem T) u w :
  1 <= pz -> 1 <= py -> 1 <= px -> 1 <= n0 -> 1 <= n1 -> 1 <= n2 -> 0 <= g -> evenly [pz; py; px] -> f <> D ->
  let topo := [pz; py; px] in let loc := [n0; n1; n2] in let n := zprod topo in
  represents topo loc g [f] m u -> represents topo (doubled loc) 0 [D] m (fun _ => w) ->
  let p r := ops_of (to_doubled3 per topo loc g f D r) in
  (forall r, 0 <= r < n -> to_doubled3 per topo loc g f D r = Ok (p r)) /\ all_matched n p /\
  exists m', spmd_ends n [PExch (all_copies n p) (fun _ => [])] m m' /\
    represents topo (doubled loc) 0 [D] m' (fun _ => pad [pz * n0; py * n1; px * n2] (u f) w) /\
    (forall r h a, h <> D -> m' (r, (h, a)) = m (r, (h, a))).
Proof. exact (PoissonProofs.to_3d per pz py px n0 n1 n2 g f D m u w). Qed.

Theorem C25_from_doubled (T : Type) per pz py px n0 n1 n2 g f D (m : mem T) w :
  1 <= pz -> 1 <= py -> 1 <= px -> 1 <= n0 -> 1 <= n1 -> 1 <= n2 -> 0 <= g -> evenly [pz; py; px] -> f <> D ->
  let topo := [pz; py; px] in let loc := [n0; n1; n2] in let n := zprod topo in
  represents topo (doubled loc) 0 [D] m (fun _ => w) ->
  let p r := ops_of (from_doubled3 per topo loc g f D r) in
  (forall r, 0 <= r < n -> from_doubled3 per topo loc g f D r = Ok (p r)) /\ all_matched n p /\
  exists m', spmd_ends n [PExch (all_copies n p) (fun _ => [])] m m' /\
    represents topo loc g [f] m' (fun _ => w) /\
    (forall r I, 0 <= r < n -> inb (ghosted g loc) I -> ~ inner g loc I -> field m' (ghosted g loc) r f I = field m (ghosted g loc) r f I) /\
    (forall r h a, h <> f -> m' (r, (h, a)) = m (r, (h, a))).
Proof. exact (PoissonProofs.from_3d per pz py px n0 n1 n2 g f D m w). Qed.

Theorem C25_roundtrip (T : Type) per pz py px n0 n1 n2 g f f' D (m : mem T) u w :
  1 <= pz -> 1 <= py -> 1 <= px -> 1 <= n0 -> 1 <= n1 -> 1 <= n2 -> 0 <= g -> evenly [pz; py; px] -> f <> D -> f' <> D ->
  let topo := [pz; py; px] in let loc := [n0; n1; n2] in let n := zprod topo in
  represents topo loc g [f] m u -> represents topo (doubled loc) 0 [D] m (fun _ => w) ->
  exists m', spmd_ends n [PExch (all_copies n (fun r => ops_of (to_doubled3 per topo loc g f D r))) (fun _ => []);
                          PExch (all_copies n (fun r => ops_of (from_doubled3 per topo loc g f' D r))) (fun _ => [])] m m' /\
    represents topo loc g [f'] m' (fun _ => u f).
Proof. exact (PoissonProofs.roundtrip_3d per pz py px n0 n1 n2 g f f' D m u w). Qed.

(** FINDING.  On a non-periodic communicator no rank raises exactly if every axis has one rank or an even number of ranks. *)
Theorem C25_raises_iff_odd topo loc g f D : positive topo -> length loc = length topo -> positive loc ->
  ((forall r, 0 <= r < zprod topo -> exists p, to_doubled3 false topo loc g f D r = Ok p) <-> evenly topo) /\
  ((forall r, 0 <= r < zprod topo -> exists p, from_doubled3 false topo loc g f D r = Ok p) <-> evenly topo).
Proof. exact (PoissonProofs.raises_iff topo loc g f D). Qed.

(** The constructor refuses exactly the decompositions along all the axes. *)
Theorem C25_distributed_axes topo :
  (double3_check topo = ValueError <-> Forall (fun t => t <> 1) topo) /\ (double3_check topo = Ok tt <-> Exists (fun t => t = 1) topo).
Proof. exact (PoissonProofs.check3_spec topo). Qed.

(** C26.  Any sequence of solves (solution array, right-hand side array), from any memory: whatever the
    buffers D and S, the ghosts and the old solutions held, each solution is the Poisson solution for the
    current inner cells of its right-hand side; nothing else changes. *)
Theorem C26_solves_2d (T : Type) (conv : (list Z -> T) -> list Z -> T) (z : T) per py px ny nx g dd D S Fs solves (m : mem T) u :
  1 <= py -> 1 <= px -> 1 <= ny -> 1 <= nx -> 0 <= g -> distributed_dim2 py px = Ok dd -> per = false \/ (py * px) mod 2 = 0 -> D <> S ->
  ~ In D Fs -> ~ In S Fs -> Forall (fun sr => In (fst sr) Fs /\ In (snd sr) Fs) solves ->
  exists m', spmd_ends (py * px) (flat_map (fun sr => poisson_solve_2d conv z per py px ny nx g dd D S (fst sr) (snd sr)) solves) m m' /\
    let u' := solve_all conv z [py * ny; px * nx] solves u in
    (represents [py; px] [ny; nx] g Fs m u -> represents [py; px] [ny; nx] g Fs m' u') /\
    (represents_ext per [py; px] [ny; nx] g Fs m u -> represents_ext per [py; px] [ny; nx] g Fs m' u').
Proof. exact (PoissonProofs.solves_2d conv z per py px ny nx g dd D S Fs solves m u). Qed.

Theorem C26_solves_3d (T : Type) (conv : (list Z -> T) -> list Z -> T) (z : T) per pz py px n0 n1 n2 g D S Fs solves (m : mem T) u :
  1 <= pz -> 1 <= py -> 1 <= px -> 1 <= n0 -> 1 <= n1 -> 1 <= n2 -> 0 <= g -> evenly [pz; py; px] -> D <> S ->
  ~ In D Fs -> ~ In S Fs -> Forall (fun sr => In (fst sr) Fs /\ In (snd sr) Fs) solves ->
  exists m', spmd_ends (zprod [pz; py; px]) (flat_map (fun sr => poisson_solve_3d conv z per pz py px n0 n1 n2 g D S (fst sr) (snd sr)) solves) m m' /\
    let u' := solve_all conv z [pz * n0; py * n1; px * n2] solves u in
    (represents [pz; py; px] [n0; n1; n2] g Fs m u -> represents [pz; py; px] [n0; n1; n2] g Fs m' u') /\
    (represents_ext per [pz; py; px] [n0; n1; n2] g Fs m u -> represents_ext per [pz; py; px] [n0; n1; n2] g Fs m' u').
Proof. exact (PoissonProofs.solves_3d conv z per pz py px n0 n1 n2 g D S Fs solves m u). Qed.

(** One vector solve: each component of the solution is the Poisson solution for that component of the
    right-hand side, and the right-hand side is unchanged. *)
Theorem C26_vector_solve_3d (T : Type) (conv : (list Z -> T) -> list Z -> T) (z : T) per pz py px n0 n1 n2 g D S s0 s1 s2 r0 r1 r2 (m : mem T) u :
  1 <= pz -> 1 <= py -> 1 <= px -> 1 <= n0 -> 1 <= n1 -> 1 <= n2 -> 0 <= g -> evenly [pz; py; px] ->
  NoDup [D; S; s0; s1; s2; r0; r1; r2] ->
  represents [pz; py; px] [n0; n1; n2] g [r0; r1; r2] m u ->
  exists m', spmd_ends (zprod [pz; py; px]) (poisson_vector_solve_3d conv z per pz py px n0 n1 n2 g D S [s0; s1; s2] [r0; r1; r2]) m m' /\
    (forall s r, In (s, r) [(s0, r0); (s1, r1); (s2, r2)] ->
      represents [pz; py; px] [n0; n1; n2] g [s] m' (fun _ => poisson conv z [pz * n0; py * n1; px * n2] (u r))) /\
    (forall q r a, In r [r0; r1; r2] -> m' (q, (r, a)) = m (q, (r, a))).
Proof. exact (PoissonProofs.vector_solve_3d conv z per pz py px n0 n1 n2 g D S s0 s1 s2 r0 r1 r2 m u). Qed.

(** A solve writes nothing but inner cells of the solution and the two buffers. *)
Theorem C26_frame (T : Type) (conv : (list Z -> T) -> list Z -> T) (z : T) per py px ny nx pz n0 n1 n2 g dd D S s r (m m2 m3 : mem T) :
  1 <= pz -> 1 <= py -> 1 <= px -> 1 <= n0 -> 1 <= n1 -> 1 <= n2 -> 1 <= ny -> 1 <= nx -> 0 <= g -> NoDup [D; S; s] -> NoDup [D; S; r] ->
  (distributed_dim2 py px = Ok dd -> per = false \/ (py * px) mod 2 = 0 -> spmd_ends (py * px) (poisson_solve_2d conv z per py px ny nx g dd D S s r) m m2 ->
    (forall q h a, ~ In h [s; D; S] -> m2 (q, (h, a)) = m (q, (h, a))) /\
    (forall q I, 0 <= q < py * px -> inb (ghosted g [ny; nx]) I -> ~ inner g [ny; nx] I -> field m2 (ghosted g [ny; nx]) q s I = field m (ghosted g [ny; nx]) q s I)) /\
  (evenly [pz; py; px] -> spmd_ends (zprod [pz; py; px]) (poisson_solve_3d conv z per pz py px n0 n1 n2 g D S s r) m m3 ->
    (forall q h a, ~ In h [s; D; S] -> m3 (q, (h, a)) = m (q, (h, a))) /\
    (forall q I, 0 <= q < zprod [pz; py; px] -> inb (ghosted g [n0; n1; n2]) I -> ~ inner g [n0; n1; n2] I -> field m3 (ghosted g [n0; n1; n2]) q s I = field m (ghosted g [n0; n1; n2]) q s I)).
Proof. exact (PoissonProofs.frames conv z per py px ny nx pz n0 n1 n2 g dd D S s r m m2 m3). Qed.

(** Hypotheses met: 3 x 1 ranks non-periodic, 1 x 4 periodic; 2 x 1 x 4 ranks; two solves in a row. *)
Example poisson_instance : distributed_dim2 3 1 = Ok 0%nat /\ distributed_dim2 1 4 = Ok 1%nat /\ (1 * 4) mod 2 = 0 /\ evenly [2; 1; 4] /\
  ~ evenly [3; 1; 1] /\ double3_check [2; 1; 4] = Ok tt /\ distributed_dim2 2 2 = ValueError /\ NoDup [0; 1; 2; 3; 4; 5; 6; 7]%nat /\
  Forall (fun sr => In (fst sr) [2; 3]%nat /\ In (snd sr) [2; 3]%nat) [(2, 3); (3, 2)]%nat.
Proof.
  split; [reflexivity|]. split; [reflexivity|]. split; [reflexivity|]. split. { repeat constructor; simpl; lia. }
  split. { intros H. inversion H as [|? ? [E|E] _]; discriminate. }
  split; [reflexivity|]. split; [reflexivity|]. split. { repeat constructor; simpl; lia. } constructor; [simpl; auto|constructor; [simpl; auto|constructor]].
Qed.
(** The padded field and a convolution with a two-cell kernel on a 3 x 1 grid of 1 x 2 blocks. *)
Example pad_values : map (pad [3; 2] (fun P => ravel [3; 2] P) (fun _ => -1)) [[0; 0]; [2; 1]; [3; 0]; [0; 2]] = [0; 5; -1; -1] /\
  poisson (fun v P => v P + v (vadd P [0; 1])) 0 [3; 2] (fun P => ravel [3; 2] P) [2; 0] = 9 /\
  poisson (fun v P => v P + v (vadd P [0; 1])) 0 [3; 2] (fun P => ravel [3; 2] P) [2; 1] = 5.
Proof. vm_compute. auto. Qed.

Print Assumptions C24_to_doubled.
Print Assumptions C24_from_doubled.
Print Assumptions C24_roundtrip.
Print Assumptions C24_distributed_axis.
Print Assumptions C24_periodic_odd_refuted.
Print Assumptions C25_to_doubled.
Print Assumptions C25_from_doubled.
Print Assumptions C25_roundtrip.
Print Assumptions C25_raises_iff_odd.
Print Assumptions C25_distributed_axes.
Print Assumptions C26_solves_2d.
Print Assumptions C26_solves_3d.
Print Assumptions C26_vector_solve_3d.
Print Assumptions C26_frame.
