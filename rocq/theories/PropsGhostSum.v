(** C27, C28: ghost_sum. *)
From Verif Require Import Base SpecGrid SpecGhostSum Comm Blocking SpecBlocking KernelList GhostSum GhostSumThms.

(** C27/C28. On every non-periodic process grid, ghost size between 1 and the
    block extents, every content, every addition that is associative and
    commutative with a zero: whatever the schedule and whether or not MPI
    buffers the sends, ghost_sum stops on every rank; then every inner cell
    holds the sum of the values all copies of that cell (its own and the ghost
    copies of the other ranks) had before, every ghost cell is zero, and no
    other array has changed. The receive buffers are zero before and after, so
    the call can be repeated. *)
Theorem C27_ghost_sum_2d (T : Type) (add : T -> T -> T) (z : T) (times0 : T -> T) py px ny nx g f rb cb (m : Z -> @lmem T) :
  grid2 py px ny nx g -> NoDup [f; rb; cb] -> comm_monoid add z -> (forall x, times0 x = z) ->
  (forall r K, 0 <= r < py * px -> inb [g; nx + 2 * g] K -> m r (rb, ravel [g; nx + 2 * g] K) = z) ->
  (forall r K, 0 <= r < py * px -> inb [ny + 2 * g; g] K -> m r (cb, ravel [ny + 2 * g; g] K) = z) ->
  exists m', runs_to (py * px) (ghost_sum2 add times0 false py px ny nx g f rb cb) m m' /\
    (forall r I, 0 <= r < py * px -> inner g [ny; nx] I -> m' r (f, ravel (ghosted g [ny; nx]) I) =
        total add z (map (fun rI => m (fst rI) (f, ravel (ghosted g [ny; nx]) (snd rI)))
                         (copies_of [py; px] [ny; nx] g (ghost_pos [py; px] [ny; nx] g r I)))) /\
    (forall r I, 0 <= r < py * px -> inb (ghosted g [ny; nx]) I -> ~ inner g [ny; nx] I -> m' r (f, ravel (ghosted g [ny; nx]) I) = z) /\
    (forall r K, 0 <= r < py * px -> inb [g; nx + 2 * g] K -> m' r (rb, ravel [g; nx + 2 * g] K) = z) /\
    (forall r K, 0 <= r < py * px -> inb [ny + 2 * g; g] K -> m' r (cb, ravel [ny + 2 * g; g] K) = z) /\
    (forall r x, fst x <> f -> fst x <> rb -> fst x <> cb -> m' r x = m r x).
Proof. intros Hg Hd Hm. exact (ghost_sum2_correct add z py px ny nx g f rb cb Hg Hd Hm times0 m). Qed.

Theorem C27_ghost_sum_3d (T : Type) (add : T -> T -> T) (z : T) (times0 : T -> T) pz py px n0 n1 n2 g f bz by_ bx (m : Z -> @lmem T) :
  grid3 pz py px n0 n1 n2 g -> NoDup [f; bz; by_; bx] -> comm_monoid add z -> (forall x, times0 x = z) ->
  (forall r K, 0 <= r < pz * py * px -> inb [g; n1 + 2 * g; n2 + 2 * g] K -> m r (bz, ravel [g; n1 + 2 * g; n2 + 2 * g] K) = z) ->
  (forall r K, 0 <= r < pz * py * px -> inb [n0 + 2 * g; g; n2 + 2 * g] K -> m r (by_, ravel [n0 + 2 * g; g; n2 + 2 * g] K) = z) ->
  (forall r K, 0 <= r < pz * py * px -> inb [n0 + 2 * g; n1 + 2 * g; g] K -> m r (bx, ravel [n0 + 2 * g; n1 + 2 * g; g] K) = z) ->
  exists m', runs_to (pz * py * px) (ghost_sum3 add times0 false pz py px n0 n1 n2 g f bz by_ bx) m m' /\
    (forall r I, 0 <= r < pz * py * px -> inner g [n0; n1; n2] I -> m' r (f, ravel (ghosted g [n0; n1; n2]) I) =
        total add z (map (fun rI => m (fst rI) (f, ravel (ghosted g [n0; n1; n2]) (snd rI)))
                         (copies_of [pz; py; px] [n0; n1; n2] g (ghost_pos [pz; py; px] [n0; n1; n2] g r I)))) /\
    (forall r I, 0 <= r < pz * py * px -> inb (ghosted g [n0; n1; n2]) I -> ~ inner g [n0; n1; n2] I -> m' r (f, ravel (ghosted g [n0; n1; n2]) I) = z) /\
    (forall r K, 0 <= r < pz * py * px -> inb [g; n1 + 2 * g; n2 + 2 * g] K -> m' r (bz, ravel [g; n1 + 2 * g; n2 + 2 * g] K) = z) /\
    (forall r K, 0 <= r < pz * py * px -> inb [n0 + 2 * g; g; n2 + 2 * g] K -> m' r (by_, ravel [n0 + 2 * g; g; n2 + 2 * g] K) = z) /\
    (forall r K, 0 <= r < pz * py * px -> inb [n0 + 2 * g; n1 + 2 * g; g] K -> m' r (bx, ravel [n0 + 2 * g; n1 + 2 * g; g] K) = z) /\
    (forall r x, fst x <> f -> fst x <> bz -> fst x <> by_ -> fst x <> bx -> m' r x = m r x).
Proof. intros Hg Hd Hm. exact (ghost_sum3_correct add z pz py px n0 n1 n2 g f bz by_ bx Hg Hd Hm times0 m). Qed.

(** FINDING: on a periodic process grid (any size, any contents) every rank's
    first operation is a send to a rank that is itself sending: if MPI does
    not buffer, no rank can ever make a step. *)
Theorem C28_periodic_deadlock_2d (T : Type) add times0 py px ny nx g f rb cb (m : Z -> @lmem T) : 1 <= py -> 1 <= px ->
  ~ finished (start (py * px) (ghost_sum2 add times0 true py px ny nx g f rb cb) m) /\
  forall c, ~ bstep false (start (py * px) (ghost_sum2 add times0 true py px ny nx g f rb cb) m) c.
Proof. exact (periodic_deadlock2 add times0 py px ny nx g f rb cb m). Qed.
Theorem C28_periodic_deadlock_3d (T : Type) add times0 pz py px n0 n1 n2 g f bz by_ bx (m : Z -> @lmem T) : 1 <= pz -> 1 <= py -> 1 <= px ->
  ~ finished (start (pz * py * px) (ghost_sum3 add times0 true pz py px n0 n1 n2 g f bz by_ bx) m) /\
  forall c, ~ bstep false (start (pz * py * px) (ghost_sum3 add times0 true pz py px n0 n1 n2 g f bz by_ bx) m) c.
Proof. exact (periodic_deadlock3 add times0 pz py px n0 n1 n2 g f bz by_ bx m). Qed.

(** 2 x 3 ranks, blocks 4 x 5, ghost size 2, integers: the hypotheses hold, and
    the corner cell next to three other blocks has four copies. *)
Example ghost_sum_instance : grid2 2 3 4 5 2 /\ NoDup [0; 1; 2]%nat /\ comm_monoid Z.add 0 /\ (forall x, x * 0 = 0) /\
  copies_of [2; 3] [4; 5] 2 (ghost_pos [2; 3] [4; 5] 2 0 [5; 6]) = [(0, [5; 6]); (1, [5; 1]); (3, [1; 6]); (4, [1; 1])].
Proof.
  split; [unfold grid2; lia|]. split; [repeat constructor; cbn; lia|]. split; [constructor; intros; lia|]. split; [intros; lia|]. vm_compute. reflexivity.
Qed.

Print Assumptions C27_ghost_sum_2d.
Print Assumptions C27_ghost_sum_3d.
Print Assumptions C28_periodic_deadlock_2d.
Print Assumptions C28_periodic_deadlock_3d.
