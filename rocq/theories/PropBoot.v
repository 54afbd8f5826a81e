(** Property C69: the start of hycu-mpi.  Statements use the model functions of Boot.v, Main.v, Mpi.v and Pool.v and the
    vocabulary of MpiSpec.v, StandaloneSpec.v, MainSpec.v and WorkerSpec.v only.  [M], [W] and [S] stand for 2^31, 2^32
    and 2^64. *)
Set Warnings "-notation-overridden,-ambiguous-paths".
From mathcomp Require Import all_ssreflect ssralg ssrnum ssrint poly finalg.
From Verif Require Import Res FinField OMap Store StoreSpec Text Pool Standalone StandaloneSpec Mpi MpiSpec Config
  Worker WorkerSpec Main MainSpec Boot BootProofs.

Set Implicit Arguments.
Unset Strict Implicit.
Unset Printing Implicit Defensive.

(** The case: three processes on different machines, two blocks to compute. *)
Definition bmachine_case (i : nat) : nat * nat := nth (0, 0) [:: (0, 1); (1, 2); (0, 3)] i.
Definition bargs_case : arguments := Arguments 0 None 1.
Definition bblocks_case : seq block := [:: [:: (0, 2); (0, 5)]; [:: (2, 4); (0, 5)]].
Definition bcontrib_case (c : nat) (b : block) : store := [:: (([:: c], [:: Posz 3]), size b)].
Definition bran_case : outcome := Ran [::] (main_program [:: (4, 0, bblocks_case)]) (Return 0).
Definition bround_case : seq maction :=
  [:: AMaster true; ANode 1; ANode 2] ++ [seq AStep i t | i <- iota 0 3, t <- iota 0 3] ++
  [seq AWake i t | i <- iota 0 3, t <- iota 0 3].
Definition bafter_case (waits : bool) (k : nat) : res bstate :=
  brun bcontrib_case waits bmachine_case bargs_case bran_case (bstart bargs_case bran_case 3 [::])
    (flatten (nseq k bround_case)).

(** C69: whatever the processes do and in whichever order, a process that has a pool has the store type of the command line, and the
    threads that spark_threads starts on its machine for the numbers on the command line. *)
Theorem C69_same_arguments :
  forall (contrib : nat -> block -> store) (waits : bool) (machine : nat -> nat * nat) (a : arguments) (o : outcome)
    (n : nat) (fs : seq file), 0 < n ->
  forall (acts : seq maction) (s : bstate),
    brun contrib waits machine a o (bstart a o n fs) acts = Ok s ->
  forall i p, i < n -> l_pool (get_locals s i) = Some p ->
    p = (a_store a, spark_kinds (machine i).1 (machine i).2 (a_threads a) (a_per_gpu a)).
Proof. move=> contrib waits machine a o n fs Hn; exact: boot_same. Qed.
Print Assumptions C69_same_arguments.

Example C69_same_arguments_case :
  if bafter_case true 9 is Ok s then
    [seq l_pool l | l <- b_locals s] =
      [:: Some (0, [:: false]); Some (0, [:: true; false; false]); Some (0, [:: false; false; false])]
  else False.
Proof. by vm_compute. Qed.

(** C69: no variable is used before it has been received, no value is received as one of another type, and nothing else
    that is undefined or throws happens, before and after the start. *)
Theorem C69_total :
  forall (contrib : nat -> block -> store) (waits : bool) (machine : nat -> nat * nat) (a : arguments) (o : outcome)
    (n : nat) (fs : seq file), 0 < n ->
  forall (jobs : seq job), a_store a = 0 -> (forall c b, is_map (contrib c b)) -> jobs_wf jobs ->
    (if o is Ran _ calls _ then calls = main_program jobs else True) ->
  forall (acts : seq maction), exists s, brun contrib waits machine a o (bstart a o n fs) acts = Ok s.
Proof. exact: boot_total. Qed.
Print Assumptions C69_total.

(** Such a thing could happen: a worker that makes its pool at once. *)
Example C69_total_case :
  make_pool bmachine_case (bstart bargs_case bran_case 3 [::]) 1 = Undef /\
  receive (VPerGpu 1) (Locals 1 (Some 0) None None None) = Undef /\ jobs_wf [:: (4, 0, bblocks_case)].
Proof. by vm_compute. Qed.

(** C69: to the files, to the calls of the master and to the processes that have pools it makes no difference that the
    others have not started: there is an execution with all pools from the beginning that has come to the same point.
    All that is proved of these (C46, C47, C62) therefore holds from the start on. *)
Theorem C69_as_if_started :
  forall (contrib : nat -> block -> store) (waits : bool) (machine : nat -> nat * nat) (a : arguments) (o : outcome)
    (n : nat) (fs : seq file), 0 < n ->
  forall (acts : seq maction) (s : bstate),
    brun contrib waits machine a o (bstart a o n fs) acts = Ok s ->
  let kinds i := spark_kinds (machine i).1 (machine i).2 (a_threads a) (a_per_gpu a) in
  exists acts' m, [/\ mrun contrib (mstart (mkseq kinds n) fs (if o is Ran _ calls _ then calls else [::])) acts' = Ok m,
    m_files m = m_files (b_pools s), m_pc m = m_pc (b_pools s) /\ m_prog m = m_prog (b_pools s) &
    forall i, i < n -> l_pool (get_locals s i) <> None -> get_node m i = get_node (b_pools s) i].
Proof. move=> contrib waits machine a o n fs Hn; exact: boot_as_if. Qed.
Print Assumptions C69_as_if_started.

(** The master, not held in its broadcasts, is through with the start and has asked process 1, which is behind. *)
Example C69_as_if_case :
  if brun bcontrib_case false bmachine_case bargs_case bran_case (bstart bargs_case bran_case 3 [::])
    (nseq 12 (AMaster true) ++ [:: ANode 1]) is Ok s
  then b_pos s = BRun /\ [seq l_pos l | l <- b_locals s] = [:: 3; 1; 0] /\ m_pc (b_pools s) = QFinRecv 1 (FromWait (AfterConfig 4 0))
  else False.
Proof. by vm_compute. Qed.

(** C69: the results of C68 with the start included.  Missing: as in C68. *)
Theorem C69_results_partial :
  forall (W S M : nat) (flint : nat -> nat -> flint_field)
    (is_squarefree : forall p r, seq (ff_field (flint p r)) -> bool)
    (factor : nat -> nat -> seq nat -> seq (nat * nat)),
    2 * M <= W -> W <= S ->
  forall (dir : seq char -> nat) (w : world) (fuel : nat) (op : options) (cs : seq config) (calls : seq cmd) (e : ending),
    main M W dir w fuel op = Ok (Ran cs calls e) -> proper W S M is_squarefree factor dir fuel cs ->
  forall (fs : seq file), earlier W S M is_squarefree factor dir cs fs ->
  forall (waits : bool) (machine : nat -> nat * nat) (a : arguments) (n : nat) (acts : seq maction) (s : bstate), 0 < n ->
    brun (contribution W S is_squarefree factor fuel cs) waits machine a (Ran cs calls e)
      (bstart a (Ran cs calls e) n fs) acts = Ok s -> mthrough e (b_pools s) ->
    forall i, promised e cs i -> sound M is_squarefree factor (nth c0 cs i) ->
      counted W M flint dir (nth c0 cs i) (m_files (b_pools s)).
Proof. exact: boot_results. Qed.
Print Assumptions C69_results_partial.

(** C69: if all processes and threads run again and again and those that wait are woken, every process gets its values and all
    return.  Missing: that waiting threads are woken (see C40 and C67). *)
Theorem C69_ends_partial :
  forall (contrib : nat -> block -> store) (waits : bool) (machine : nat -> nat * nat) (a : arguments) (o : outcome)
    (n : nat) (fs : seq file), 0 < n ->
  forall (jobs : seq job) (cs : seq config) (e : ending), a_store a = 0 -> (forall c b, is_map (contrib c b)) -> jobs_wf jobs ->
    o = Ran cs (main_program jobs) e ->
  let kinds := mkseq (fun i => spark_kinds (machine i).1 (machine i).2 (a_threads a) (a_per_gpu a)) n in
    0 < sumn [seq size k | k <- kinds] ->
  forall (acts : seq maction) (s : bstate), brun contrib waits machine a o (bstart a o n fs) acts = Ok s ->
  exists k, forall rounds, k <= size rounds -> all (mfull_round kinds) rounds ->
    exists2 s', brun contrib waits machine a o s (flatten rounds) = Ok s' & b_pos s' = BRun /\ mended (b_pools s').
Proof. exact: boot_ends. Qed.
Print Assumptions C69_ends_partial.

Example C69_ends_case :
  mfull_round (mkseq (fun i => spark_kinds (bmachine_case i).1 (bmachine_case i).2 None 1) 3) bround_case /\
  if (bafter_case true 20, bafter_case true 150) is (Ok s, Ok s') then
    m_pc (b_pools s) <> QDone /\ m_pc (b_pools s') = QDone /\ [seq n_pc w | w <- behead (m_nodes (b_pools s'))] = [:: NDone; NDone]
  else False.
Proof. by vm_compute. Qed.

(** C69 does not hold for command lines that are refused (the help, a missing option, an unknown file): the master
    returns and every other process waits in its first broadcast for ever. *)
Theorem C69_refused_refuted :
  forall (contrib : nat -> block -> store) (waits : bool) (machine : nat -> nat * nat) (a : arguments) (o : outcome)
    (n : nat) (fs : seq file), 0 < n -> forall k, o = Refused k ->
  (forall (acts : seq maction) (s : bstate), brun contrib waits machine a o (bstart a o n fs) acts = Ok s ->
    forall i, 0 < i < n -> l_pos (get_locals s i) = 0) /\
  exists s, brun contrib waits machine a o (bstart a o n fs) [:: AMaster true] = Ok s /\ b_pos s = BBack k.
Proof. exact: boot_refused. Qed.
Print Assumptions C69_refused_refuted.

Example C69_refused_case :
  let w := World (fun _ => Ok true) (fun _ => true) (fun _ => Term) (fun _ => Term) in
  main 100 200 (fun _ => 0) w 100 (Options true None None) = Ok (Refused 0) /\ 0 < 1 < 3.
Proof. by vm_compute. Qed.
