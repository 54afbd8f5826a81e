(** Properties C46, C47, C62 and C67: the MPI worker pool under every schedule of all processes and threads.  Statements use
    StoreSpec.v, StandaloneSpec.v, MpiSpec.v and the model functions of Pool.v, Standalone.v and Mpi.v only. *)
Set Warnings "-notation-overridden,-ambiguous-paths".
From mathcomp Require Import all_ssreflect ssralg ssrnum ssrint.
From Verif Require Import Res OMap Store StoreSpec Pool Standalone StandaloneSpec Mpi MpiSpec MpiTheorems MpiRounds MpiLost.

Set Implicit Arguments.
Unset Strict Implicit.
Unset Printing Implicit Defensive.

(** The case: the master and a worker with one CPU thread each and a worker with one OpenCL thread; three configurations;
    one file of an earlier run. *)
Definition mkinds_case : seq (seq bool) := [:: [:: false]; [:: false]; [:: true]].
Definition mcontrib_case (c : nat) (b : block) : store :=
  [:: (([:: c], [:: Posz 3]), foldr (fun lu n => (lu.2 - lu.1) * n) 1 b)].
Definition mblocks_case : seq block := [seq [:: (i, i.+2); (0, 5)] | i <- [:: 0; 2; 4; 6; 8]].
Definition mjobs_case : seq job :=
  [:: (4, 0, mblocks_case); (2, 1, take 2 mblocks_case); (7, 2, drop 3 mblocks_case)].
Definition mfiles_case : seq file :=
  [:: File 2 (mcontrib_case 1 [:: (2, 4); (0, 5)]) (Some [:: [:: (2, 4); (0, 5)]]); File 2 [::] None].
Definition mround_case : seq maction :=
  nseq 4 (AMaster false) ++ [:: AStep 2 0; ANode 1; ANode 2; AWake 2 0] ++ nseq 4 (AMaster false) ++
  [:: ANode 2; AStep 0 0; AStep 1 0; ANode 1; AMaster true; AWake 0 0; AWake 1 0].
Definition mafter_case (n : nat) : mstate :=
  if mrun mcontrib_case (mstart mkinds_case mfiles_case (main_program mjobs_case)) (flatten (nseq n mround_case)) is Ok s
  then s else mstart [::] [::] [::].
Definition bk (i : nat) : block := [:: (i, i.+2); (0, 5)].

Example mpi_case :
  [/\ jobs_wf mjobs_case, forall c b, is_map (mcontrib_case c b), 0 < size mkinds_case,
      m_pc (mafter_case 60) = QDone & m_pc (mafter_case 20) <> QDone].
Proof. by split; [vm_compute | | | vm_compute | vm_compute]. Qed.

(** C47: no schedule makes the master find a block reported by a process to which it was not assigned, nor any other
    step fail, and the blocks reported by a process were given to it, and none is reported twice. *)
Theorem C47_credited :
  forall (contrib : nat -> block -> store), (forall c b, is_map (contrib c b)) ->
  forall (jobs : seq job) (fs : seq file), jobs_wf jobs ->
  forall (kinds : seq (seq bool)) (acts : seq maction), 0 < size kinds ->
    exists2 s, mrun contrib (mstart kinds fs (main_program jobs)) acts = Ok s &
      forall i j, j \in jobs ->
        uniq (reported_by s i j.1.1) /\ {subset reported_by s i j.1.1 <= given s i j.1.1}.
Proof. exact: mcredited. Qed.
Print Assumptions C47_credited.

(** The error branch exists: a process reports a block that was given to another one. *)
Example C47_case :
  let s := mafter_case 16 in
  [/\ given s 0 4 = [:: bk 2], given s 1 4 = [:: bk 6], given s 2 4 = [:: bk 0; bk 4; bk 8],
      (reported_by s 0 4, reported_by s 1 4, reported_by s 2 4) = ([:: bk 2], [:: bk 6], [:: bk 0; bk 4]) &
      mfinished 1 (mafter_case 10) (bk 4) = Term].
Proof. by vm_compute. Qed.

(** C46: the blocks given to the processes are the first of those that were not recorded when the program was started,
    none is given to two processes, a process reports only what it has computed and computes only what it was given,
    no block is computed twice, and the blocks that were computed are exactly those in the files written, in a save in
    progress, on the way to the master and in the shared stores. *)
Theorem C46_once :
  forall (contrib : nat -> block -> store), (forall c b, is_map (contrib c b)) ->
  forall (jobs : seq job) (fs : seq file), jobs_wf jobs ->
  forall (kinds : seq (seq bool)) (acts : seq maction) (s : mstate), 0 < size kinds ->
    mrun contrib (mstart kinds fs (main_program jobs)) acts = Ok s ->
    forall j, j \in jobs ->
    [/\ exists n, given_any s j.1.1 = take n (remaining fs j),
        uniq (given_any s j.1.1) /\ uniq (computed_any s j.1.2),
        forall i i' b, b \in given s i j.1.1 -> b \in given s i' j.1.1 -> i = i',
        forall i, {subset reported_by s i j.1.1 <= computed s i j.1.2} /\
          {subset computed s i j.1.2 <= given s i j.1.1} /\ uniq (reported_by s i j.1.1) &
        perm_eq (computed_any s j.1.2) (recorded (mnew_files fs s) j.1.1 ++ munsaved s j.1.1)].
Proof. exact: mblocks_ok. Qed.
Print Assumptions C46_once.

Example C46_once_case :
  let s := mafter_case 16 in
  [/\ given_any s 4 = mblocks_case, computed_any s 0 = [:: bk 2; bk 6; bk 0; bk 4],
      munsaved s 4 = [:: bk 2; bk 6; bk 0; bk 4], recorded (mnew_files mfiles_case s) 4 = [::] &
      [/\ computed (mafter_case 10) 2 0 = [:: bk 0], munsaved (mafter_case 10) 4 = [:: bk 2; bk 0] &
        reported_by (mafter_case 10) 2 4 = [::]]].
Proof. by vm_compute. Qed.

(** C46, when the configuration has been left: every block that was not recorded before was given to a process, which
    computed and reported it, and the files written contain each exactly once, with its contribution. *)
Theorem C46_nothing_lost :
  forall (contrib : nat -> block -> store), (forall c b, is_map (contrib c b)) ->
  forall (jobs : seq job) (fs : seq file), jobs_wf jobs ->
  forall (kinds : seq (seq bool)) (acts : seq maction) (s : mstate), 0 < size kinds ->
    mrun contrib (mstart kinds fs (main_program jobs)) acts = Ok s ->
    forall earlier j later, jobs = earlier ++ j :: later -> mleft s later ->
    [/\ given_any s j.1.1 = remaining fs j,
        forall i, perm_eq (reported_by s i j.1.1) (given s i j.1.1) /\ perm_eq (computed s i j.1.2) (given s i j.1.1),
        m_files s = fs ++ mnew_files fs s, perm_eq (recorded (mnew_files fs s) j.1.1) (remaining fs j) &
        add_up contrib (mnew_files fs s) j.1.1 j.1.2 (remaining fs j)].
Proof. exact: mleft_files. Qed.
Print Assumptions C46_nothing_lost.

Example C46_left_case :
  let s := mafter_case 60 in
  [/\ mleft (mafter_case 25) [:: (2, 1, take 2 mblocks_case); (7, 2, drop 3 mblocks_case)],
      recorded (mnew_files mfiles_case s) 4 = [:: bk 2; bk 6; bk 0; bk 4; bk 8],
      [seq (st_find st ([:: 0], [:: Posz 3])) | st <- tables (mnew_files mfiles_case s) 4] = [:: Some 10; Some 10; Some 30] &
      recorded (mnew_files mfiles_case s) 2 = [:: bk 0]].
Proof. by split; [right; vm_compute | vm_compute | vm_compute | vm_compute]. Qed.

(** C46: every pair of files written is consistent: the record is a set of blocks of one configuration, none of which was
    recorded before, and the table is the sum of their contributions. *)
Theorem C46_consistent_files :
  forall (contrib : nat -> block -> store), (forall c b, is_map (contrib c b)) ->
  forall (jobs : seq job) (fs : seq file), jobs_wf jobs ->
  forall (kinds : seq (seq bool)) (acts : seq maction) (s : mstate), 0 < size kinds ->
    mrun contrib (mstart kinds fs (main_program jobs)) acts = Ok s ->
    m_files s = fs ++ mnew_files fs s /\
    forall f r, List.In f (mnew_files fs s) -> f_record f = Some r ->
      exists2 j, j \in jobs & [/\ f_dir f = j.1.1, uniq r, {subset r <= remaining fs j} &
        sums contrib j.1.2 r (f_store f)].
Proof. exact: mconsistent_files. Qed.
Print Assumptions C46_consistent_files.

Example C46_files_case :
  nth (File 0 [::] None) (m_files (mafter_case 25)) 4 =
    File 4 [:: (([:: 0], [:: Posz 3]), 30)] (Some [:: bk 0; bk 4; bk 8]).
Proof. by vm_compute. Qed.

(** C62: runs of the same jobs, each with the standalone program or with the MPI program and any processes and threads,
    are killed, one after the other, at arbitrary points; when a further run of either program completes, the files of
    each configuration contain every block exactly once, and the tables add up to the contributions of all blocks.
    Missing are crashes while the text of a record file is being written (see C43_torn_record_refuted). *)
Theorem C62_either_program_partial :
  forall (contrib : nat -> block -> store), (forall c b, is_map (contrib c b)) ->
  forall (jobs : seq job), jobs_wf jobs -> forall (fs : seq file), any_history contrib jobs fs ->
  (forall (kinds : seq bool) (acts : seq action) (s : state),
    run contrib (start kinds fs (main_program jobs)) acts = Ok s -> s_pc s = PDone ->
    forall j, j \in jobs ->
      perm_eq (recorded (files s) j.1.1) j.2 /\ add_up contrib (files s) j.1.1 j.1.2 j.2) /\
  (forall (kinds : seq (seq bool)) (acts : seq maction) (s : mstate), 0 < size kinds ->
    mrun contrib (mstart kinds fs (main_program jobs)) acts = Ok s -> m_pc s = QDone ->
    forall j, j \in jobs ->
      perm_eq (recorded (m_files s) j.1.1) j.2 /\ add_up contrib (m_files s) j.1.1 j.1.2 j.2).
Proof. exact: mrestart_ok. Qed.
Print Assumptions C62_either_program_partial.

(** The MPI program is killed between the store and the record of a save; the standalone program completes. *)
Definition mkilled_case : seq file :=
  if mrun mcontrib_case (mstart mkinds_case [::] (main_program mjobs_case)) (take 409 (flatten (nseq 60 mround_case))) is Ok s
  then m_files s else [::].
Definition mresumed_case : state :=
  if run mcontrib_case (start [:: false; true] mkilled_case (main_program mjobs_case))
    (flatten (nseq 120 [:: Main false; Step 0; Step 1; Wake 0; Main true; Wake 1])) is Ok s
  then s else start [::] [::] [::].

Example C62_case :
  [/\ any_history mcontrib_case mjobs_case mkilled_case, recorded mkilled_case 4 = [:: bk 2; bk 6],
      f_record (last (File 0 [::] None) mkilled_case) = None, s_pc mresumed_case = PDone &
      perm_eq (recorded (files mresumed_case) 4) mblocks_case].
Proof.
split; try by vm_compute.
have [s H] : exists s, mrun mcontrib_case (mstart mkinds_case [::] (main_program mjobs_case)) (take 409 (flatten (nseq 60 mround_case))) = Ok s.
  by eexists; vm_compute; reflexivity.
by rewrite /mkilled_case H; exact: (AnyMpi (AnyStart _ _) _ H).
Qed.

(** C67, the part that holds: if at least one process has a thread, and every waiting thread is woken again and again -
    which the condition variables do not guarantee - then the MPI program ends: from every state that can be reached
    there is a number of rounds after which all processes have returned, whatever the order in which processes and
    threads run within each round and whenever the master saves.  Missing is that a thread with a block in its queue
    wakes up by the notification alone. *)
Theorem C67_woken_partial :
  forall (contrib : nat -> block -> store), (forall c b, is_map (contrib c b)) ->
  forall (jobs : seq job) (fs : seq file), jobs_wf jobs ->
  forall (kinds : seq (seq bool)), 0 < sumn [seq size k | k <- kinds] ->
  forall (acts : seq maction) (s : mstate), mrun contrib (mstart kinds fs (main_program jobs)) acts = Ok s ->
  exists k, forall rounds : seq (seq maction), k <= size rounds -> all (mfull_round kinds) rounds ->
    exists2 s', mrun contrib s (flatten rounds) = Ok s' & mended s'.
Proof. exact: mprogram_ends. Qed.
Print Assumptions C67_woken_partial.

(** The rounds of the case are such rounds; after a third of them the program is under way. *)
Example C67_woken_case :
  [/\ 0 < sumn [seq size k | k <- mkinds_case], mfull_round mkinds_case mround_case, m_pc (mafter_case 20) <> QDone,
      m_pc (mafter_case 60) = QDone & [seq n_pc w | w <- behead (m_nodes (mafter_case 60))] = [:: NDone; NDone]].
Proof. by vm_compute. Qed.

(** C67, a further part: without any wakeup but those by notifications, the program ends, or a thread
    waits although it has a block to compute or is to return and the notification has already been given. *)
Theorem C67_ends_or_lost_partial :
  forall (contrib : nat -> block -> store), (forall c b, is_map (contrib c b)) ->
  forall (jobs : seq job) (fs : seq file), jobs_wf jobs ->
  forall (kinds : seq (seq bool)), 0 < sumn [seq size k | k <- kinds] ->
  forall (acts : seq maction) (s : mstate), mrun contrib (mstart kinds fs (main_program jobs)) acts = Ok s ->
  exists k, forall rounds : seq (seq maction), k <= size rounds -> all (mplain_round kinds) rounds ->
    exists2 s', mrun contrib s (flatten rounds) = Ok s' & mended s' \/ exists i t, mstranded s' i t.
Proof. exact: mends_or_lost. Qed.
Print Assumptions C67_ends_or_lost_partial.

(** C67, the converse: such a thread keeps the program from ending for ever, unless it wakes up spuriously. *)
Theorem C67_lost_for_ever :
  forall (contrib : nat -> block -> store), (forall c b, is_map (contrib c b)) ->
  forall (jobs : seq job) (fs : seq file), jobs_wf jobs ->
  forall (kinds : seq (seq bool)), 0 < sumn [seq size k | k <- kinds] ->
  forall (acts : seq maction) (s : mstate) (i t : nat),
  mrun contrib (mstart kinds fs (main_program jobs)) acts = Ok s -> mstranded s i t ->
  forall (acts' : seq maction) (s' : mstate), ~~ has (wakes_thread i t) acts' -> mrun contrib s acts' = Ok s' ->
    mstranded s' i t /\ ~ mended s'.
Proof. exact: mlost_for_ever. Qed.
Print Assumptions C67_lost_for_ever.

(** C67 does not hold of the program as it is: the notification of the thread of a worker process is lost when the
    thread has found its queue empty and does not wait yet.  Every round lets both main threads and the
    thread run and leads back to the same state. *)
Definition mlost_kinds : seq (seq bool) := [:: [::]; [:: false]].
Definition mlost_jobs : seq job := [:: (4, 0, [:: bk 0])].
Definition mlost_turn : seq maction := [:: AMaster false; ANode 1].
Definition mlost_acts : seq maction := AStep 1 0 :: flatten (nseq 40 mlost_turn) ++ [:: AStep 1 0] ++ flatten (nseq 5 mlost_turn).
Definition mlost_round : seq maction := AStep 1 0 :: flatten (nseq 5 mlost_turn).
Theorem C67_lost_refuted :
  exists contrib jobs kinds acts s r,
    [/\ [/\ jobs_wf jobs, forall c b, is_map (contrib c b) & 0 < sumn [seq size k | k <- kinds]],
        mrun contrib (mstart kinds [::] (main_program jobs)) acts = Ok s,
        mplain_round kinds r, ~ mended s & forall k, mrun contrib s (flatten (nseq k r)) = Ok s].
Proof.
exists mcontrib_case, mlost_jobs, mlost_kinds, mlost_acts; eexists; exists mlost_round.
split; [by split; [vm_compute | |] | by vm_compute; reflexivity | by vm_compute | by case | ].
by elim=> [|k IH] //=.
Qed.
Print Assumptions C67_lost_refuted.

(** The thread of that state waits with a block in its queue; with the thread run in time the program ends. *)
Definition mlost_state : mstate :=
  if mrun mcontrib_case (mstart mlost_kinds [::] (main_program mlost_jobs)) mlost_acts is Ok s then s else mstart [::] [::] [::].
Definition mtimely_state : mstate :=
  if mrun mcontrib_case (mstart mlost_kinds [::] (main_program mlost_jobs))
    (AStep 1 0 :: AStep 1 0 :: flatten (nseq 60 mlost_round)) is Ok s then s else mstart [::] [::] [::].
Example C67_lost_case :
  [/\ mstranded mlost_state 1 0, mplain_round mlost_kinds mlost_round, m_pc mtimely_state = QDone &
      n_pc (get_node mtimely_state 1) = NDone].
Proof. by split; vm_compute; do ?split => //; left. Qed.
