(** Specification vocabulary: what "the owner of a global position" means for
    a grid of [dims] blocks (ranks numbered row-major), each of [loc] cells.
    Independent of the code model. *)
From Verif Require Import Base.

(** Position p on an axis of N cells: periodic axes wrap, others end. *)
Definition wrap (per : bool) (N p : Z) : option Z :=
  if per then Some (p mod N)
  else if (0 <=? p) && (p <? N) then Some p else None.

Fixpoint wrapv (per : bool) (Ns ps : list Z) : option (list Z) :=
  match Ns, ps with
  | N :: Ns', p :: ps' =>
      match wrap per N p, wrapv per Ns' ps' with
      | Some q, Some qs => Some (q :: qs)
      | _, _ => None
      end
  | _, _ => Some []
  end.

Fixpoint vdiv (a b : list Z) : list Z :=
  match a, b with x :: a', y :: b' => (x / y) :: vdiv a' b' | _, _ => [] end.
Fixpoint vmod (a b : list Z) : list Z :=
  match a, b with x :: a', y :: b' => (x mod y) :: vmod a' b' | _, _ => [] end.

(** Global extents. *)
Definition global_size (dims loc : list Z) : list Z := vmul dims loc.

(** The rank owning a global position and the (ghost-free) index it has there;
    [None] when the position is outside a non-periodic domain. *)
Definition owner (per : bool) (dims loc pos : list Z) : option (Z * list Z) :=
  match wrapv per (global_size dims loc) pos with
  | Some q => Some (ravel dims (vdiv q loc), vmod q loc)
  | None => None
  end.

(** First global cell of rank r's block. *)
Definition block_start (dims loc : list Z) (r : Z) : list Z := vmul (unravel dims r) loc.

(** Global position of the cell with ghosted index I on rank r (it may lie
    outside the domain or, with periodic wrapping, in another block). *)
Definition ghost_pos (dims loc : list Z) (g : Z) (r : Z) (I : list Z) : list Z :=
  vadd (block_start dims loc r) (map (fun i => i - g) I).

(** Extents of a ghosted local array. *)
Definition ghosted (g : Z) (loc : list Z) : list Z := map (fun n => n + 2 * g) loc.

(** Inner (non ghost) ghosted indices. *)
Definition inner (g : Z) (loc : list Z) (I : list Z) : Prop := in_box (map (fun _ => g) loc) loc I.

(** A well-formed block grid. *)
Record grid_ok (dims loc : list Z) : Prop := {
  ok_len : length loc = length dims;
  ok_dims : positive dims;
  ok_loc : positive loc }.
