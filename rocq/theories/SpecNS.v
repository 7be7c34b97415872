(** Serial Navier-Stokes time steps on the global grid N (non-periodic).
    An array is a function of the global position; positions outside the domain stand for
    the ghost values around it. *)
From Verif Require Import Base SpecGrid SpecGhost SpecStencil SpecStep SpecPenalise SpecFilter SpecDouble Comm Spmd PyNum Doubling KernelList.

Section S.
Context {T C : Type}.
Variables (add : T -> T -> T) (z : T) (N : list Z).
Notation kfn := ((nat -> list Z -> T) -> T -> T).

(** Apply the update functions k (array, function) at each position where [where_] holds;
    the value elsewhere is [other array position]. *)
Definition apply_kernel (k : list (nat * kfn)) (where_ : list Z -> bool) (old other : (nat -> list Z -> T) -> nat -> list Z -> T)
    (u : nat -> list Z -> T) : nat -> list Z -> T := fun f P =>
  match find (fun oK => Nat.eqb (fst oK) f) k with
  | Some oK => if where_ P then snd oK (fun f' d => u f' (vadd P d)) (old u f P) else other u f P
  | None => u f P
  end.
(** In the whole domain, on top of the old values. *)
Definition update_inside (k : list (nat * kfn)) := apply_kernel k (inbb N) (fun u => u) (fun u => u).
(** In the domain except its outermost layer; [z] on that layer and outside. *)
Definition overwrite_interior (k : list (nat * kfn)) :=
  apply_kernel k (fun P => inbb N P && negb (edgeb false N P)) (fun _ _ _ => z) (fun _ _ _ => z).
(** Everywhere. *)
Definition update_everywhere (k : list (nat * kfn)) := apply_kernel k (fun _ => true) (fun u => u) (fun u => u).
Definition fill (fs : list nat) (v : T) (u : nat -> list Z -> T) : nat -> list Z -> T :=
  fun f P => if in_dec Nat.eq_dec f fs then v else u f P.
(** Adding a free stream to the velocity components. *)
Definition free_stream (vs : list (nat * T)) := update_everywhere (map (fun va => (fst va, fun (_ : nat -> list Z -> T) v => add v (snd va))) vs).

(** What is asked of an update function that turns forcing into vorticity: no forcing in its reach, no change. *)
Definition quiet (n : nat) (ins : list nat) (ks : Z) (K : kfn) : Prop :=
  forall rd o, (forall f d, In f ins -> star n ks d -> rd f d = z) -> K rd o = o.
End S.

(** *** 2D *)
Section NS2.
Context {T C : Type}.
Notation kfn := ((nat -> list Z -> T) -> T -> T).
(** One call of time_step: update functions for advection, diffusion, velocity forcing (this step's dt bound),
    the forcing field deposited since the last step (None: simulator without forcing), the free stream. *)
Record ns2_step := { n2_adv : kfn; n2_dif : kfn; n2_frc : option (kfn * (nat -> list Z -> T)); n2_free : option (T * T) }.

Variables (add : T -> T -> T) (z : T) (damp : C -> C -> T -> T) (coord : nat -> Z -> C) (width : Z)
          (conv : (list Z -> T) -> list Z -> T) (Kcx Kcy : kfn) (N : list Z).
Variables (w psi vx vy fx fy : nat).

(** The forcing arrays show the deposited values in the domain, [z] outside. *)
Definition put_forcing (F : list nat) (fv : nat -> list Z -> T) (u : nat -> list Z -> T) : nat -> list Z -> T :=
  fun f P => if in_dec Nat.eq_dec f F then (if inbb N P then fv f P else z) else u f P.

Definition serial_ns_2d (u : nat -> list Z -> T) (s : ns2_step) : nat -> list Z -> T :=
  let u1 := match n2_frc s with
            | Some (K, fv) => update_inside N [(w, K)] (put_forcing [fx; fy] fv u)
            | None => u end in
  let u2 := euler_step false N add z false w (n2_adv s) u1 in
  let u3 := euler_step false N add z true w (n2_dif s) u2 in
  let u4 := on_fields [w] (sponge damp coord N width false [1; 0]%nat) u3 in
  let u5 := solve_effect conv z N u4 (psi, w) in
  let u6 := overwrite_interior z N [(vx, Kcx); (vy, Kcy)] u5 in
  let u7 := match n2_free s with Some (a, b) => free_stream add [(vx, a); (vy, b)] u6 | None => u6 end in
  match n2_frc s with Some _ => fill [fx; fy] z u7 | None => u7 end.
End NS2.

(** *** 3D, rotational form *)
Section NS3.
Context {T C : Type}.
Notation kfn := ((nat -> list Z -> T) -> T -> T).
(** Update functions: cross product (three components), curl of it added to the vorticity, diffusion of
    each component, velocity forcing; filter settings; free stream. *)
Record ns3_step := { n3_crs : kfn * kfn * kfn; n3_upd : kfn * kfn * kfn; n3_dif : nat -> kfn;
  n3_frc : option (kfn * kfn * kfn * (nat -> list Z -> T)); n3_free : option (T * T * T) }.

Variables (add : T -> T -> T) (z : T) (damp : C -> C -> T -> T) (coord : nat -> Z -> C) (width : Z)
          (conv : (list Z -> T) -> list Z -> T) (Kcx Kcy Kcz : kfn)
          (lap : T -> T -> T -> T) (sub : T -> T -> T) (filt : option (filter_type * nat * Z)) (N : list Z).
Variables (w0 w1 w2 p0 p1 p2 vx vy vz b0 b1 b2 fx fy fz : nat).

Definition three (a b c : nat) (K : kfn * kfn * kfn) : list (nat * kfn) :=
  match K with (K0, K1, K2) => [(a, K0); (b, K1); (c, K2)] end.

Definition serial_ns_3d (u : nat -> list Z -> T) (s : ns3_step) : nat -> list Z -> T :=
  let u1 := match n3_frc s with
            | Some (K, fv) => update_inside N (three w0 w1 w2 K) (put_forcing z N [fx; fy; fz] fv u)
            | None => u end in
  let u2 := update_everywhere (three b0 b1 b2 (n3_crs s)) u1 in
  let u3 := update_inside N (three w0 w1 w2 (n3_upd s)) u2 in
  let u4 := fold_left (fun u c => euler_step false N add z true c (n3_dif s c) u) [w0; w1; w2] u3 in
  let u5 := match filt with
            | Some (ft, order, bw) => on_fields [w0; w1; w2] (serial_filter lap sub z false N bw ft order) u4
            | None => u4 end in
  let u6 := on_fields [w0; w1; w2] (sponge damp coord N width false [2; 1; 0]%nat) u5 in
  let u7 := solve_all conv z N [(p0, w0); (p1, w1); (p2, w2)] u6 in
  let u8 := overwrite_interior z N [(vx, Kcx); (vy, Kcy); (vz, Kcz)] u7 in
  let u9 := match n3_free s with Some (a, b, c) => free_stream add [(vx, a); (vy, b); (vz, c)] u8 | None => u8 end in
  match n3_frc s with Some _ => fill [fx; fy; fz] z u9 | None => u9 end.
End NS3.

(** *** Between two time steps *)
Section Between.
Context {T : Type}.
Variables (z : T) (dims loc : list Z) (g : Z).
(** The arrays Fs keep their values in the domain and around it (ghost cells that copy another rank's cells may change). *)
Definition kept (Fs : list nat) (m m1 : mem T) : Prop := forall r f I, 0 <= r < zprod dims -> In f Fs -> inb (ghosted g loc) I ->
  inner g loc I \/ owner false dims loc (ghost_pos dims loc g r I) = None -> field m1 (ghosted g loc) r f I = field m (ghosted g loc) r f I.
(** The forcing arrays F hold fv in the domain and [z] outside it. *)
Definition deposited (F : list nat) (fv : nat -> list Z -> T) (m1 : mem T) : Prop := represents dims loc g F m1 fv /\
  forall r f I, 0 <= r < zprod dims -> In f F -> inb (ghosted g loc) I -> owner false dims loc (ghost_pos dims loc g r I) = None ->
    field m1 (ghosted g loc) r f I = z.
Definition between (Fs F : list nat) (fv : option (nat -> list Z -> T)) (m m1 : mem T) : Prop :=
  kept Fs m m1 /\ match fv with Some fv => deposited F fv m1 | None => True end.

(** A run of a simulator: before each step something else may happen (of the above kind), then the step runs under
    some schedule. *)
Inductive history {A} (prog : A -> list (@phase T)) (before : A -> mem T -> mem T -> Prop) : list A -> mem T -> mem T -> Prop :=
| h_nil m : history prog before [] m m
| h_cons s l m m1 m2 m3 : before s m m1 -> spmd_ends (zprod dims) (prog s) m1 m2 -> history prog before l m2 m3 ->
    history prog before (s :: l) m m3.
End Between.

(** *** What is asked of the update functions *)
Definition forcing_of {T X : Type} (f : option (X * (nat -> list Z -> T))) : option (nat -> list Z -> T) := option_map snd f.
Definition off_boundary {T : Type} (z : T) (N : list Z) (F : list nat) (fv : nat -> list Z -> T) : Prop :=
  forall f P, In f F -> inb N P -> edgeb false N P = true -> fv f P = z.
Definition ns2_step_ok {T : Type} (z : T) (N : list Z) (w vx vy fx fy : nat) (s : @ns2_step T) : Prop :=
  star_local 2 [w; vx; vy] 2 (n2_adv s) /\ star_local 2 [w] 1 (n2_dif s) /\ overwrites (n2_dif s) /\
  match n2_frc s with
  | Some (K, fv) => star_local 2 [fx; fy] 1 K /\ quiet z 2 [fx; fy] 1 K /\ off_boundary z N [fx; fy] fv
  | None => True end.
Definition in3 {A} (x : A) (t : A * A * A) : Prop := let '(a, b, c) := t in In x [a; b; c].
Definition ns3_step_ok {T : Type} (z : T) (N : list Z) (ws vs bs fs : list nat) (s : @ns3_step T) : Prop :=
  (forall K, in3 K (n3_crs s) -> star_local 3 (ws ++ vs) 0 K /\ overwrites K) /\
  (forall K, in3 K (n3_upd s) -> star_local 3 bs 1 K) /\
  (forall c, In c ws -> star_local 3 [c] 1 (n3_dif s c) /\ overwrites (n3_dif s c)) /\
  match n3_frc s with
  | Some (K, fv) => (forall K', in3 K' K -> star_local 3 fs 1 K' /\ quiet z 3 fs 1 K') /\ off_boundary z N fs fv
  | None => True end.

(** The part of it that concerns the reach of the update functions only. *)
Definition ns2_shapes {T : Type} (w vx vy fx fy : nat) (s : @ns2_step T) : Prop :=
  star_local 2 [w; vx; vy] 2 (n2_adv s) /\ star_local 2 [w] 1 (n2_dif s) /\ overwrites (n2_dif s) /\
  match n2_frc s with Some (K, _) => star_local 2 [fx; fy] 1 K | None => True end.
Definition ns3_shapes {T : Type} (ws vs bs fs : list nat) (s : @ns3_step T) : Prop :=
  (forall K, in3 K (n3_crs s) -> star_local 3 (ws ++ vs) 0 K /\ overwrites K) /\
  (forall K, in3 K (n3_upd s) -> star_local 3 bs 1 K) /\
  (forall c, In c ws -> star_local 3 [c] 1 (n3_dif s c) /\ overwrites (n3_dif s c)) /\
  match n3_frc s with Some (K, _) => forall K', in3 K' K -> star_local 3 fs 1 K' | None => True end.

(** *** Settings in which the simulators are run *)
(** 2D: a slab decomposition the Poisson solver accepts; two ghost layers or more; blocks at least 4 wide;
    a penalised boundary zone at least one cell wide and no wider than a block; distinct arrays; the
    velocity update functions look at the stream function one cell away. *)
Record ns2_setting {T C : Type} (py px ny nx g width : Z) (dd : nat) (xg : Z -> nat -> Z -> C) (coord : nat -> Z -> C)
    (w psi vx vy fx fy buf D S : nat) (Kcx Kcy : (nat -> list Z -> T) -> T -> T) : Prop := {
  s2_grid : grid2 py px ny nx g;
  s2_ghost : 2 <= g;
  s2_block : 4 <= ny /\ 4 <= nx;
  s2_width : 1 <= width /\ width <= ny /\ width <= nx;
  s2_slab : distributed_dim2 py px = Ok dd;
  s2_coord : coords_ok [py; px] [ny; nx] g xg coord;
  s2_arrays : NoDup [w; psi; vx; vy; fx; fy; buf; D; S];
  s2_velx : star_local 2 [psi] 1 Kcx /\ overwrites Kcx;
  s2_vely : star_local 2 [psi] 1 Kcy /\ overwrites Kcy }.
(** 3D: rank counts per axis 1 or even (what the Poisson solver handles); blocks at least 2 wide; if the filter
    is on, its order is positive and its boundary zone fits in a block. *)
Record ns3_setting {T C : Type} (pz py px n0 n1 n2 g width : Z) (filt : option (filter_type * nat * Z)) (xg : Z -> nat -> Z -> C) (coord : nat -> Z -> C)
    (w0 w1 w2 p0 p1 p2 vx vy vz fx fy fz b0 b1 b2 buf D S : nat) (Kcx Kcy Kcz : (nat -> list Z -> T) -> T -> T) : Prop := {
  s3_grid : grid3 pz py px n0 n1 n2 g;
  s3_block : 2 <= n0 /\ 2 <= n1 /\ 2 <= n2;
  s3_width : 1 <= width /\ width <= n0 /\ width <= n1 /\ width <= n2;
  s3_even : evenly [pz; py; px];
  s3_coord : coords_ok [pz; py; px] [n0; n1; n2] g xg coord;
  s3_arrays : NoDup [w0; w1; w2; p0; p1; p2; vx; vy; vz; fx; fy; fz; b0; b1; b2; buf; D; S];
  s3_vel : forall K, In K [Kcx; Kcy; Kcz] -> star_local 3 [p0; p1; p2] 1 K /\ overwrites K;
  s3_filter : match filt with Some (_, order, bw) => (1 <= order)%nat /\ 1 <= bw /\ bw <= n0 /\ bw <= n1 /\ bw <= n2 | None => True end }.
