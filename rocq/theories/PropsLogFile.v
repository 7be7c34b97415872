(** Property C67: the log file that all ranks write to. *)
From Coq Require Import Ascii String.
From Verif Require Import Base Logger SpecLogger SpecLogFile LogFile.
From Verif Require LogFileProofs LoggerProofs.
Open Scope Z_scope.

(** C67.  After any history of logger calls (made alike by all ranks), the k-th logger enables a log file: all ranks install the same handle,
    number h, at the file's level (so that opening and closing it is collective). *)
Theorem C67_one_handle es k lev ech : nth_error (created es) k = Some (lev, ech) ->
  exists h, forall r, handlers (reg (history r (es ++ [EFile k]))) = handlers (reg (history r es)) ++ [(h, lev)] /\
    ~ In h (map fst (handlers (reg (history r es)))) /\ opened r (es ++ [EFile k]) = opened r es ++ [(h, k)].
Proof.
  intros Hk. exists (next_id (reg (history 0 es))). intros r. destruct (LogFileProofs.handle_added es k lev ech Hk r) as [A B]. split; [exact A|]. split; [|exact B].
  intros I. apply in_map_iff in I as (x & E & I). destruct (LoggerProofs.history_sane r es) as (_ & L & _). rewrite Forall_forall in L. specialize (L _ I). rewrite (proj1 (LogFileProofs.same_registry 0 r es)) in E. lia.
Qed.
(** C67.  Then each rank logs, through any of the loggers.  When all is written, the file is its old contents followed by the lines of all
    the calls that speak (on a rank in the echo list, and of sufficient level): each once, whole, and in the order of its rank.  (If no
    other installed handle has the same file.)  All ranks can finish. *)
Theorem C67_log_file n es k lev ech (opts : nat -> bool * bool) (path : nat -> nat) (calls : Z -> list call) F0 : nth_error (created es) k = Some (lev, ech) ->
  forall h, In h (map fst (handlers (reg (history 0 (es ++ [EFile k]))))) -> ~ In h (map fst (handlers (reg (history 0 es)))) ->
  (forall r q, 0 <= r < n -> In q (map fst (handlers (reg (history r es)))) -> In q (map fst (opened r es)) -> path q <> path h) ->
  let F := open_append path h F0 in let todo := fun r => rank_writes opts r (es ++ [EFile k]) (calls r) in
  (exists F' t', writes n path F todo F' t' /\ forall r, 0 <= r < n -> t' r = []) /\
  (forall F' t', writes n path F todo F' t' -> (forall r, 0 <= r < n -> t' r = []) ->
   exists all : list (Z * call), shuffled n (fun r => filter (speaks es lev r) (calls r)) all /\
     bytes F' (path h) = bytes F0 (path h) ++ concat (map (fun x => log_line (fst (opts k)) (snd (opts k)) (rank_name (fst x)) (c_severity (snd x)) (c_message (snd x))) all)).
Proof.
  intros Hk h Hh Hn Hp F todo. assert (Eh : h = next_id (reg (history 0 es))).
  { rewrite (proj1 (LogFileProofs.handle_added es k lev ech Hk 0)), map_app in Hh. apply in_app_or in Hh as [Hh|[Hh|[]]]; [contradiction|]. symmetry. exact Hh. }
  subst h. split; [apply LogFileProofs.can_finish|]. intros F' t' W He.
  destruct (LogFileProofs.log_file opts es k lev ech Hk n path calls F F' t' Hp) as (all & S1 & B); [|exact W|exact He|].
  - unfold F. cbn [open_append pointer bytes]. rewrite Nat.eqb_refl. reflexivity.
  - exists all. split; [exact S1|]. rewrite B. unfold F. cbn [open_append bytes]. f_equal. f_equal. apply map_ext. intros x. apply LogFileProofs.emit_line.
Qed.
(** C67.  If the format has the rank (with_rank_id) and no message has a newline, the file tells who said what, in which order; with
    with_level_name also at which level. *)
Theorem C67_attribution lvl (all all' : list (Z * call)) :
  Forall (fun x => 0 <= fst x /\ ~ In newline (c_message (snd x))) all -> Forall (fun x => 0 <= fst x /\ ~ In newline (c_message (snd x))) all' ->
  let file := fun l : list (Z * call) => concat (map (fun x => log_line true lvl (rank_name (fst x)) (c_severity (snd x)) (c_message (snd x))) l) in
  file all = file all' -> map (fun x => (fst x, c_message (snd x))) all = map (fun x => (fst x, c_message (snd x))) all' /\
    (lvl = true -> map (fun x => c_severity (snd x)) all = map (fun x => c_severity (snd x)) all').
Proof.
  intros H H' file E. set (line := fun x : Z * call => log_line true lvl (rank_name (fst x)) (c_severity (snd x)) (c_message (snd x))) in *.
  set (body := fun x => removelast (line x)).
  assert (B : forall x, line x = body x ++ [newline] /\ (~ In newline (c_message (snd x)) -> LogFileProofs.no_newline (body x))).
  { intros x. unfold body, line. destruct (LogFileProofs.line_shape true lvl (fst x) (c_severity (snd x)) (c_message (snd x))) as (b & -> & Hb). rewrite removelast_last. split; [reflexivity|exact Hb]. }
  assert (M : map body all = map body all').
  { apply LogFileProofs.lines_inj.
    - eapply Forall_impl; [|exact H]. intros x [_ Hx]. exact (proj2 (B x) Hx).
    - eapply Forall_impl; [|exact H']. intros x [_ Hx]. exact (proj2 (B x) Hx).
    - unfold file in E. rewrite (map_ext _ _ (fun x => eq_sym (proj1 (B x)))), (map_ext (fun x => body x ++ [newline]) _ (fun x => eq_sym (proj1 (B x)))). exact E. }
  clear E. revert all' H' M. induction H as [|x all [Hx _] _ IH]; intros [|y all'] H' M; try discriminate; [split; reflexivity|]. cbn [map] in *. injection M as M1 M2. inversion H' as [|? ? [Hy _] H'']; subst.
  destruct (IH all' H'' M2) as [E1 E2]. assert (L : line x = line y) by (rewrite (proj1 (B x)), (proj1 (B y)), M1; reflexivity). unfold line in L. apply LogFileProofs.body_inj in L as (L1 & L2 & L3); [|assumption..].
  split; [rewrite L1, L2, E1; reflexivity|]. intros Hl. rewrite (L3 Hl), (E2 Hl). reflexivity.
Qed.
(** C67.  The ranks form the same file name, unless it has a time stamp and their clocks differ in the second. *)
Theorem C67_same_name filename timestamp t t' :
  Forall (fun c => year c < 100 * 100 /\ month c < 100 /\ day c < 100 /\ hour c < 100 /\ minute c < 100 /\ second c < 100)%nat [t; t'] ->
  (log_filename filename timestamp t = log_filename filename timestamp t' <-> timestamp = false \/ t = t').
Proof.
  intros H. pose proof (Forall_inv H) as H1. pose proof (Forall_inv (Forall_inv_tail H)) as H3. cbv beta in H1, H3. split; [|intros [-> | ->]; reflexivity]. intros E. destruct timestamp; [|now left]. right. cbn [log_filename] in E.
  apply app_inv_head in E. apply app_inv_head in E. apply app_inv_tail in E. exact (LogFileProofs.strftime_inj t t' H1 H3 E).
Qed.

(** Finding: with timestamp=True, ranks whose clocks stand on two sides of a second open different files in one collective call. *)
Theorem C67_timestamp_refuted : exists t t', second t = 59%nat /\ second t' = 0%nat /\ minute t' = S (minute t) /\ (year t, month t, day t, hour t) = (year t', month t', day t', hour t') /\
  log_filename (lit "logfile") true t <> log_filename (lit "logfile") true t'.
Proof.
  exists {| year := 2024; month := 3; day := 1; hour := 12; minute := 4; second := 59 |}, {| year := 2024; month := 3; day := 1; hour := 12; minute := 5; second := 0 |}.
  repeat (split; [reflexivity|]). vm_compute. discriminate.
Qed.
(** Finding: a logger created later keeps the handle of an earlier one (C36); if it enables a file of the same name, there are two handles with
    two pointers, which write over each other.  One rank, the second logger with rank names: the line of the first message is broken by the second. *)
Definition lf_calls : list call := [{| c_logger := 1; c_severity := Info; c_message := lit "begin" |}; {| c_logger := 1; c_severity := Info; c_message := lit "end" |}].
Definition lf_opts (k : nat) : bool * bool := match k with O => (false, false) | _ => (true, false) end.
Theorem C67_two_handles_refuted :
  let es := [ENew 20 []; EFile 0; ENew 20 []; EFile 1] in let path := fun _ : nat => 0%nat in
  let F := open_append path 3 (open_append path 1 {| bytes := fun _ => []; pointer := fun _ => 0%nat |}) in
  opened 0 es = [(1, 0); (3, 1)]%nat /\
  forall F' t', writes 1 path F (fun r => rank_writes lf_opts r es lf_calls) F' t' -> (forall r, 0 <= r < 1 -> t' r = []) ->
    bytes F' 0%nat = lit "(rank[end" ++ [newline] ++ lit ":: begin" ++ [newline] ++ lit "(rank[0]) :: end" ++ [newline].
Proof.
  intros es path F. split; [reflexivity|]. intros F' t' W He. rewrite (LogFileProofs.one_rank_writes path _ _ _ _ W He). vm_compute. reflexivity.
Qed.

(** *** Cases: three ranks, the default logger (rank 0 only) and one for ranks 0 and 2, which has a log file with ranks and levels. *)
Definition lf_es : list event := [ENew 20 [0]; ENew 20 [0; 2]].
Definition lf_said (r : Z) : list call := [{| c_logger := 0; c_severity := Info; c_message := lit "start" |}; {| c_logger := 1; c_severity := Warning; c_message := lit "cell" |}; {| c_logger := 1; c_severity := Debug; c_message := lit "x" |}].
Example C67_nonvacuous :
  nth_error (created lf_es) 1 = Some (20, [0; 2]) /\ In 2%nat (map fst (handlers (reg (history 0 (lf_es ++ [EFile 1]))))) /\ ~ In 2%nat (map fst (handlers (reg (history 0 lf_es)))) /\
  (forall r q, 0 <= r < 3 -> In q (map fst (handlers (reg (history r lf_es)))) -> In q (map fst (opened r lf_es)) -> (fun _ : nat => 0%nat) q <> 0%nat) /\
  map (fun r => map (fun c => string_of_list_ascii (c_message c)) (filter (speaks lf_es 20 r) (lf_said r))) [0; 1; 2] = [["start"; "cell"]; []; ["cell"]]%string.
Proof. split; [reflexivity|]. split; [cbn; tauto|]. split; [cbn; lia|]. split; [intros r q _ _ []|reflexivity]. Qed.
Example C67_lines : map (fun x => string_of_list_ascii (log_line true true (rank_name (fst x)) (snd x) (lit "hi"))) [(0, Info); (12, Critical)] =
  ["[ INFO    ] (rank[0]) :: hi" ++ String newline ""; "[ CRITICAL ] (rank[12]) :: hi" ++ String newline ""]%string.
Proof. reflexivity. Qed.

Print Assumptions C67_one_handle.
Print Assumptions C67_log_file.
Print Assumptions C67_attribution.
Print Assumptions C67_same_name.
Print Assumptions C67_timestamp_refuted.
Print Assumptions C67_two_handles_refuted.
