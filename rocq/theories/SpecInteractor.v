(** What a user expects of the constructors of the body-flow interactors. *)
From Coq Require Import QArith.
From Verif Require Import Base SpecGrid SpecVbf SpecCoupled.
Open Scope Z_scope.

(** The arguments: penalty coefficients, dimension of the grid, half width of the delta function (None: default), the delta
    function, enable_eul_grid_forcing_reset, assume_data_locality, auto_ghosting, master rank; the body's nodes at construction,
    and the largest spacing of its Lagrangian grid. *)
Record request (T : Type) := { g_stiff : T; g_damp : T; g_dim : Z; g_width : option Z; g_weight : list Q -> T; g_reset : bool; g_local : bool; g_auto : bool;
  g_master : Z; g_nodes : list (list Q); g_spacing : T }.
Arguments g_stiff {T}. Arguments g_damp {T}. Arguments g_dim {T}. Arguments g_width {T}. Arguments g_weight {T}. Arguments g_reset {T}. Arguments g_local {T}.
Arguments g_auto {T}. Arguments g_master {T}. Arguments g_nodes {T}. Arguments g_spacing {T}.
Definition width_of {T} (q : request T) : Z := match g_width q with Some w => w | None => 2 end.

(** The body of the interactor: the coefficients are multiplied by the surface element of the Lagrangian grid, spacing to the power dim - 1. *)
Definition body_of {T} (mul : T -> T -> T) (pow : T -> Z -> T) (q : request T) : vbody T :=
  {| v_stiff := mul (g_stiff q) (pow (g_spacing q) (g_dim q - 1)); v_damp := mul (g_damp q) (pow (g_spacing q) (g_dim q - 1)); v_width := width_of q;
     v_weight := g_weight q; v_reset := g_reset q; v_count := Z.of_nat (length (g_nodes q)) |}.

(** What is said about the resolution of the Lagrangian grid. *)
Inductive advice := TooCoarse | TooFine | SameResolution | GhostYourself.
Definition advised {T} (lt : T -> T -> bool) (two_dx half_dx : T) (q : request T) : list advice :=
  (if lt two_dx (g_spacing q) then [TooCoarse] else if lt (g_spacing q) half_dx then [TooFine] else [SameResolution]) ++
  (if g_auto q then [] else [GhostYourself]).

(** The simulation at the start: flow u0, no forcing, bodies without any mismatch or force. *)
Definition cold_start {T} (z : T) (u0 : nat -> list Z -> T) (maps : nat -> list Z) : cstate T :=
  {| cs_u := u0; cs_f := fun _ _ => z; cs_map := maps; cs_st := fun _ => at_rest z |}.

(** A request for a simulation on n ranks with ghost width g: the master exists, the width is positive and fits. *)
Definition request_ok {T} (n dim g : Z) (q : request T) : Prop := 0 <= g_master q < n /\ g_dim q = dim /\ 1 <= width_of q <= g.
