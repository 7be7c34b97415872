(** Specification of explicit time steps on the global grid. *)
From Verif Require Import Base SpecGrid SpecGhost SpecStencil Comm Spmd.
From Verif Require TimeStep.

(** Boolean membership in the domain and in its outermost layer. *)
Fixpoint inbb (N P : list Z) : bool :=
  match N, P with
  | n :: N', p :: P' => (0 <=? p) && (p <? n) && inbb N' P'
  | [], [] => true
  | _, _ => false
  end.
Definition edgeb (per : bool) (N P : list Z) : bool :=
  negb per && existsb (fun ab => (fst ab =? 0) || (fst ab =? snd ab - 1)) (combine P N).

(** Periodic domains wrap; otherwise positions outside the domain stand for
    the ghost values around it. *)
Definition norm (per : bool) (N P : list Z) : list Z := if per then vmod P N else P.

Section S.
Context {T : Type}.

(** The arrays F of the distributed memory, including the ghost values
    outside a non-periodic domain (at most one axis in the ghost layer),
    are given by the global arrays u. *)
Definition represents_ext (per : bool) (dims loc : list Z) (g : Z) (F : list nat) (m : mem T) (u : nat -> list Z -> T) : Prop :=
  forall r f I, 0 <= r < zprod dims -> In f F -> inb (ghosted g loc) I ->
    inner g loc I \/ ((ghost_axes g loc I <= 1)%nat /\ owner per dims loc (ghost_pos dims loc g r I) = None) ->
    field m (ghosted g loc) r f I = u f (ghost_pos dims loc g r I).

(** One Euler forward step of array fld on the global grid: add the flux,
    which is [z] outside the domain and, if [reset], on the physical boundary. *)
Definition euler_step (per : bool) (N : list Z) (add : T -> T -> T) (z : T) (reset : bool) (fld : nat)
    (K : (nat -> list Z -> T) -> T -> T) (u : nat -> list Z -> T) : nat -> list Z -> T :=
  fun f P => if Nat.eqb f fld
    then add (u fld P) (if inbb N P && negb (reset && edgeb per N P)
                        then K (fun f' d => u f' (norm per N (vadd P d))) z else z)
    else u f P.

(** One memory per decomposition, the same global arrays: the two runs show the same values. *)
Definition agree (dims loc dims' loc' : list Z) (g : Z) (F : list nat) (m m' : mem T) : Prop :=
  forall r x r' x' f, 0 <= r < zprod dims -> inb loc x -> 0 <= r' < zprod dims' -> inb loc' x' -> In f F ->
    vadd (block_start dims loc r) x = vadd (block_start dims' loc' r') x' ->
    field m (ghosted g loc) r f (map (fun i => i + g) x) = field m' (ghosted g loc') r' f (map (fun i => i + g) x').

(** What is asked of a time-step call: the array is one of Fs, the serial flux
    kernel is star shaped with radius 2 (advection) or 1 (diffusion); advection also asks for
    ghost size 2 and blocks at least four cells wide. *)
Definition tstep_ok (loc : list Z) (g : Z) (Fs vel : list nat) (s : @TimeStep.tstep T) : Prop :=
  match s with
  | TimeStep.Adv fld K => In fld Fs /\ star_local (length loc) (fld :: vel) 2 K /\ g = 2 /\ Forall (fun n => 4 <= n) loc
  | TimeStep.Dif fld K => In fld Fs /\ star_local (length loc) [fld] 1 K /\ overwrites K
  end.
(** The serial effect of the call on the global arrays: diffusion resets the
    flux on the physical boundary, advection does not. *)
Definition serial_tstep (add : T -> T -> T) (z : T) (per : bool) (N : list Z) (s : @TimeStep.tstep T) : (nat -> list Z -> T) -> nat -> list Z -> T :=
  match s with
  | TimeStep.Adv fld K => euler_step per N add z false fld K
  | TimeStep.Dif fld K => euler_step per N add z true fld K
  end.
End S.
