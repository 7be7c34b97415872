(** Specification of distributed stencil kernels: a distributed field
    represents a global field; the parallel kernel must act on the global
    field as the serial one. *)
From Verif Require Import Base SpecGrid SpecGhost Comm Spmd.

(** Unit vectors scaled by c: the star-shaped neighbourhood of radius ks. *)
Fixpoint axis_vec (n k : nat) (c : Z) : list Z :=
  match n with
  | O => []
  | S n' => match k with O => c :: repeat 0 n' | S k' => 0 :: axis_vec n' k' c end
  end.
Definition star (n : nat) (ks : Z) (d : list Z) : Prop :=
  exists k c, (k < n)%nat /\ Z.abs c <= ks /\ d = axis_vec n k c.

(** Global position p touches the physical boundary of the domain N. *)
Definition on_boundary (per : bool) (N p : list Z) : Prop :=
  per = false /\ Exists (fun ab => fst ab = 0 \/ fst ab = snd ab - 1) (combine p N).

Section S.
Context {T : Type}.

(** The arrays F of the distributed memory m, ghosts ignored, are the blocks
    of the global arrays u. *)
Definition represents (dims loc : list Z) (g : Z) (F : list nat) (m : mem T) (u : nat -> list Z -> T) : Prop :=
  forall r f x, 0 <= r < zprod dims -> In f F -> inb loc x ->
    field m (ghosted g loc) r f (map (fun i => i + g) x) = u f (vadd (block_start dims loc r) x).

(** [rd] gives, around global position P, the values of the global arrays
    (periodically extended if the domain is periodic); in particular every
    position of the star lies in the domain. *)
Definition reads_global (per : bool) (N : list Z) (u : nat -> list Z -> T) (ins : list nat) (ks : Z) (P : list Z)
    (rd : nat -> list Z -> T) : Prop :=
  forall f d, In f ins -> star (length N) ks d ->
    exists q, wrapv per N (vadd P d) = Some q /\ rd f d = u f q.

(** A cell update function that looks only at [ins] on the star of radius ks. *)
Definition star_local (n : nat) (ins : list nat) (ks : Z) (K : (nat -> list Z -> T) -> T -> T) : Prop :=
  forall rd rd' o, (forall f d, In f ins -> star n ks d -> rd f d = rd' f d) -> K rd o = K rd' o.
(** A cell update function that ignores the old value. *)
Definition overwrites (K : (nat -> list Z -> T) -> T -> T) : Prop := forall rd o o', K rd o = K rd o'.
End S.

(** What a user expects of one call of a distributed kernel: [k] lists the
    output arrays with their cell update functions, F the input arrays, [zero]
    the value given to cells on the physical boundary (if any).
    Every inner output cell is updated once with the serial update function
    applied to the global fields; no other inner cell changes; arrays that are
    neither inputs nor outputs do not change at all. *)
Record acts_as_serial {T : Type} (per : bool) (dims loc : list Z) (g ks : Z) (F : list nat)
    (k : list (nat * ((nat -> list Z -> T) -> T -> T))) (zero : option T) (m m' : mem T) : Prop := {
  as_value : forall u r x o K rd, represents dims loc g F m u -> 0 <= r < zprod dims -> inb loc x -> In (o, K) k ->
    let P := vadd (block_start dims loc r) x in
    zero = None \/ ~ on_boundary per (global_size dims loc) P ->
    reads_global per (global_size dims loc) u F ks P rd ->
    field m' (ghosted g loc) r o (map (fun i => i + g) x) = K rd (field m (ghosted g loc) r o (map (fun i => i + g) x));
  as_zero : forall z r x o K, zero = Some z -> 0 <= r < zprod dims -> inb loc x -> In (o, K) k ->
    on_boundary per (global_size dims loc) (vadd (block_start dims loc r) x) ->
    field m' (ghosted g loc) r o (map (fun i => i + g) x) = z;
  as_inner : forall r f x, 0 <= r < zprod dims -> inb loc x -> ~ In f (map fst k) ->
    field m' (ghosted g loc) r f (map (fun i => i + g) x) = field m (ghosted g loc) r f (map (fun i => i + g) x);
  as_frame : forall r f a, 0 <= r < zprod dims -> ~ In f (map fst k) -> ~ In f F -> m' (r, (f, a)) = m (r, (f, a)) }.

(** Two memories with the same inner cells in the arrays F. *)
Definition same_inner {T : Type} (dims loc : list Z) (g : Z) (F : list nat) (m1 m2 : mem T) : Prop :=
  forall r f x, 0 <= r < zprod dims -> In f F -> inb loc x ->
    field m1 (ghosted g loc) r f (map (fun i => i + g) x) = field m2 (ghosted g loc) r f (map (fun i => i + g) x).

(** At distance at least ks from the physical boundary (or in a periodic domain). *)
Definition away (per : bool) (ks : Z) (N P : list Z) : Prop :=
  per = true \/ Forall (fun ab => ks <= fst ab < snd ab - ks) (combine P N).
