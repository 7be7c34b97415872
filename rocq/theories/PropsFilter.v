(** Property C23: the 3D Laplacian filters. *)
From Verif Require Import Base SpecGrid SpecGhost SpecStencil SpecStep SpecPenalise SpecFilter Comm Spmd KernelList PyNum Filter.
From Verif Require FilterProofs FilterZero.

(** C23.  Filtering the arrays flds (one for a scalar field, three for a vector field) on all
    ranks ends, under every schedule, with the serial filter of each assembled array, whatever
    the two scratch arrays buf and flux held and whatever the ghosts held.  Order at least 1,
    boundary width between 1 and the block extents; buf and flux are not among the arrays looked at. *)
Theorem C23_filter_serial (T : Type) (lap : T -> T -> T -> T) (sub : T -> T -> T) (z : T) per pz py px n0 n1 n2 g full bw ft buf flux order flds Fs (m : mem T) u :
  grid3 pz py px n0 n1 n2 g -> 1 <= bw /\ bw <= n0 /\ bw <= n1 /\ bw <= n2 -> buf <> flux -> (1 <= order)%nat ->
  ~ In buf Fs -> ~ In flux Fs -> incl flds Fs -> NoDup flds ->
  exists m', spmd_ends (zprod [pz; py; px]) (vector_filter_3d lap sub z per pz py px n0 n1 n2 g full bw ft buf flux order flds) m m' /\
    let u' := on_fields flds (serial_filter lap sub z per (global_size [pz; py; px] [n0; n1; n2]) bw ft order) u in
    (represents [pz; py; px] [n0; n1; n2] g Fs m u -> represents [pz; py; px] [n0; n1; n2] g Fs m' u') /\
    (represents_ext per [pz; py; px] [n0; n1; n2] g Fs m u -> represents_ext per [pz; py; px] [n0; n1; n2] g Fs m' u').
Proof. intros G B H1 H2. exact (FilterProofs.vector_filter_serial lap sub z per pz py px n0 n1 n2 g full bw G B ft buf flux order flds Fs m u H1 H2). Qed.

(** Negative or non-integer orders, and non-positive or non-integer boundary widths, and only those, are refused. *)
Theorem C23_filter_args order width :
  (filter_args order width = ValueError <-> py_lt0 order = true \/ is_int order = false \/ py_le0 width = true \/ is_int width = false) /\
  (forall o w, filter_args order width = Ok (o, w) <-> order = PyInt o /\ width = PyInt w /\ 0 <= o /\ 1 <= w).
Proof. exact (FilterProofs.filter_args_spec order width). Qed.

(** FINDING: a filter of order 0 is accepted but does not leave the field unchanged. *)
Theorem C23_order_zero_refuted :
  ~ (forall per pz py px n0 n1 n2 g full bw ft buf flux fld Fs (m m' : mem Z) u, grid3 pz py px n0 n1 n2 g ->
       1 <= bw -> bw <= n0 -> bw <= n1 -> bw <= n2 -> buf <> flux -> ~ In buf Fs -> ~ In flux Fs -> In fld Fs ->
       represents_ext per [pz; py; px] [n0; n1; n2] g Fs m u ->
       spmd_ends (zprod [pz; py; px]) (filter_3d (fun a b c => 2 * c - a - b) Z.sub 0 per pz py px n0 n1 n2 g full bw ft buf flux 0 fld) m m' ->
       represents [pz; py; px] [n0; n1; n2] g Fs m' u).
Proof. exact FilterProofs.order_zero_refuted. Qed.

(** What an order-0 filter does instead: from every cell outside the boundary zone it subtracts
    whatever the flux scratch array held there (once, or three times for the convolution type);
    in the boundary zone it subtracts the zero that the filter writes there. *)
Theorem C23_order_zero (T : Type) (lap : T -> T -> T -> T) (sub : T -> T -> T) (z : T) per pz py px n0 n1 n2 g full bw ft buf flux flds (m : mem T) u :
  grid3 pz py px n0 n1 n2 g -> 1 <= bw /\ bw <= n0 /\ bw <= n1 /\ bw <= n2 -> buf <> flux ->
  ~ In buf flds -> ~ In flux flds -> NoDup flds ->
  represents [pz; py; px] [n0; n1; n2] g (flux :: flds) m u ->
  exists m', spmd_ends (zprod [pz; py; px]) (vector_filter_3d lap sub z per pz py px n0 n1 n2 g full bw ft buf flux 0 flds) m m' /\
    represents [pz; py; px] [n0; n1; n2] g flds m' (fun f P =>
      let stale := if zoneb per (global_size [pz; py; px] [n0; n1; n2]) bw P then z else u flux P in
      match ft with Multiplicative => sub (u f P) stale | Convolution => sub (sub (sub (u f P) stale) stale) stale end) /\
    (forall r f a, 0 <= r < zprod [pz; py; px] -> f <> buf -> f <> flux -> ~ In f flds -> m' (r, (f, a)) = m (r, (f, a))).
Proof.
  intros G B H1 H2 H3 H4 H5. destruct (FilterZero.vector_filter0 lap sub z per pz py px n0 n1 n2 g full bw G B ft buf flux flds m u H1 H2 H3 H4 H5) as (m' & A & C & D).
  exists m'. split; [exact A|]. split; [|exact D]. destruct ft; exact C.
Qed.

(** Hypotheses met: 2 x 1 x 3 ranks, blocks 4 x 5 x 6, ghost size 2, boundary width 3, three components, order 2;
    order 0 with width 1 passes the argument check. *)
Example filter_instance : grid3 2 1 3 4 5 6 2 /\ (1 <= 3 /\ 3 <= 4 /\ 3 <= 5 /\ 3 <= 6) /\ 7%nat <> 8%nat /\ (1 <= 2)%nat /\
  ~ In 7%nat [0; 1; 2]%nat /\ ~ In 8%nat [0; 1; 2]%nat /\ incl [0; 1; 2]%nat [0; 1; 2]%nat /\ NoDup [0; 1; 2]%nat /\
  filter_args (PyInt 0) (PyInt 1) = Ok (0, 1).
Proof. split; [unfold grid3; lia|]. repeat split; try lia; simpl; try (intuition lia); try apply incl_refl. repeat constructor; simpl; intuition lia. Qed.
(** Values of the serial filters on an 8 x 5 x 18 domain: a spike is spread along the axes; the boundary zone is untouched. *)
Definition spike : list Z -> Z := fun P => if list_eq_dec Z.eq_dec P [4; 2; 9] then 1 else 0.
Example filter_values :
  serial_filter (fun a b c => 2 * c - a - b) Z.sub 0 false [8; 5; 18] 1 Multiplicative 1 spike [4; 2; 9] = -7 /\
  serial_filter (fun a b c => 2 * c - a - b) Z.sub 0 false [8; 5; 18] 1 Convolution 1 spike [4; 2; 9] = -1 /\
  serial_filter (fun a b c => 2 * c - a - b) Z.sub 0 false [8; 5; 18] 1 Multiplicative 1 spike [4; 2; 10] = 4 /\
  serial_filter (fun a b c => 2 * c - a - b) Z.sub 0 false [8; 5; 18] 3 Multiplicative 1 spike [4; 2; 9] = 1.
Proof. vm_compute. auto. Qed.

Print Assumptions C23_filter_serial.
Print Assumptions C23_filter_args.
Print Assumptions C23_order_zero_refuted.
Print Assumptions C23_order_zero.
