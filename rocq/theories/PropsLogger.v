(** C36: the MPI logger. *)
From Verif Require Import Base Logger SpecLogger LoggerProofs.
Open Scope Z_scope.

(** C36. After every history of calls on a rank, a log call of severity s on
    the k-th logger created (with echo list ech) is emitted exactly by the
    installed handlers whose level is at most s, and only if this rank is in
    ech (or ech is empty) and s is at least the level of the logger created
    last (the level is shared: finding below). *)
Theorem C36_emits_exactly_on_echo_ranks rank es k s lev ech : nth_error (created es) k = Some (lev, ech) ->
  exists out, emitted (history rank (es ++ [ELog k s])) = emitted (history rank es) ++ [(k, out)] /\
    (forall h, In h out <-> (ech = [] \/ In rank ech) /\ latest_level es <= s /\ exists l, In (h, l) (handlers (reg (history rank es))) /\ l <= s).
Proof. exact (emitted_snoc rank es k s lev ech). Qed.
(** In a program that does not clean up itself, with all levels at most s, an
    echo rank does emit and another rank does not. *)
Theorem C36_echo_ranks_print rank es k s lev ech : nth_error (created es) k = Some (lev, ech) -> ~ In ERemove es -> Forall (fun c => fst c <= s) (created es) ->
  exists out, emitted (history rank (es ++ [ELog k s])) = emitted (history rank es) ++ [(k, out)] /\ (out <> [] <-> (ech = [] \/ In rank ech)).
Proof. exact (echo_prints rank es k s lev ech). Qed.
(** The installed handlers, for every history: a new logger and an explicit
    clean-up remove only the handlers at even positions (FINDING: the list is
    mutated while it is iterated), so half of them, rounded down, stay. *)
Theorem C36_handlers_left rank es :
  (handlers (reg (history rank (es ++ [ERemove]))) = odd_positions (handlers (reg (history rank es)))) /\
  length (handlers (reg (history rank (es ++ [ERemove])))) = (length (handlers (reg (history rank es))) / 2)%nat /\
  (forall lev ech, exists h, handlers (reg (history rank (es ++ [ENew lev ech]))) = odd_positions (handlers (reg (history rank es))) ++ [(h, lev)]) /\
  (forall k lev ech, nth_error (created es) k = Some (lev, ech) -> exists h, handlers (reg (history rank (es ++ [EFile k]))) = handlers (reg (history rank es)) ++ [(h, lev)]).
Proof. exact (handlers_left rank es). Qed.
(** FINDINGS: removal does not remove everything; a log file enabled on an
    earlier logger still receives the messages of a later one; a later logger
    changes which messages an earlier one emits. *)
Theorem C36_remove_all_refuted : ~ (forall rank es, emits_nothing_after_removal rank es).
Proof. exact remove_all_refuted. Qed.
Theorem C36_old_logfile_still_written : exists h, ~ In h (map fst (handlers (reg (history 0 [ENew 20 []])))) /\
  In h (map fst (handlers (reg (history 0 [ENew 20 []; EFile 0])))) /\
  last (emitted (history 0 [ENew 20 []; EFile 0; ENew 20 []; ELog 1 30])) (0%nat, []) = (1%nat, [h; 2%nat]).
Proof. exact old_logfile_still_written. Qed.
Theorem C36_level_is_shared : ~ (forall rank es k s lev ech, nth_error (created es) k = Some (lev, ech) -> In rank ech -> lev <= s -> ~ In ERemove es ->
  exists out, emitted (history rank (es ++ [ELog k s])) = emitted (history rank es) ++ [(k, out)] /\ out <> []).
Proof. exact level_is_shared. Qed.

(** Non-vacuity: three loggers, one of them silent on rank 1. *)
Example C36_nonvacuous :
  emitted (history 1 [ENew 10 [0]; ENew 20 [1; 3]; EFile 1; ELog 0 40; ELog 1 40; ENew 30 []; ELog 2 20; ELog 2 30]) =
    [(0%nat, []); (1%nat, [1%nat; 2%nat]); (2%nat, []); (2%nat, [2%nat; 3%nat])].
Proof. reflexivity. Qed.

Print Assumptions C36_emits_exactly_on_echo_ranks.
Print Assumptions C36_echo_ranks_print.
Print Assumptions C36_handlers_left.
Print Assumptions C36_remove_all_refuted.
Print Assumptions C36_old_logfile_still_written.
Print Assumptions C36_level_is_shared.
