(** Properties C37-C41, C43, C44, C52 and C60: the thread pool and the standalone worker pool under
    every schedule.  Statements use StoreSpec.v, StandaloneSpec.v and the model functions of Pool.v
    and Standalone.v only. *)
Set Warnings "-notation-overridden,-ambiguous-paths".
From mathcomp Require Import all_ssreflect ssralg ssrnum ssrint.
From Verif Require Import Res CurveIter OMap Store StoreSpec Pool Standalone StandaloneSpec StandaloneTheorems Progress Lost.

Set Implicit Arguments.
Unset Strict Implicit.
Unset Printing Implicit Defensive.

(** The case: an OpenCL and two CPU threads, three configurations; one file of an earlier run. *)
Definition kinds_case : seq bool := [:: true; false; false].
Definition contrib_case (c : nat) (b : block) : store :=
  [:: (([:: c], [:: Posz 3]), foldr (fun lu n => (lu.2 - lu.1) * n) 1 b)].
Definition blocks_case : seq block := [seq [:: (i, i.+2); (0, 5)] | i <- [:: 0; 2; 4; 6; 8]].
Definition jobs_case : seq job :=
  [:: (4, 0, blocks_case); (2, 1, take 2 blocks_case); (7, 2, drop 3 blocks_case)].
Definition files_case : seq file :=
  [:: File 2 (contrib_case 1 [:: (2, 4); (0, 5)]) (Some [:: [:: (2, 4); (0, 5)]]); File 2 [::] None].
Definition round : seq action := [:: Main false; Step 0; Step 2; Main true; Step 1; Wake 0; Main false; Wake 1; Wake 2].
Definition schedule_case (n : nat) : seq action := flatten (nseq n round).
Definition after_case (n : nat) : state :=
  if run contrib_case (start kinds_case files_case (main_program jobs_case)) (schedule_case n) is Ok s
  then s else start [::] [::] [::].

Example pool_case :
  [/\ jobs_wf jobs_case, forall c b, is_map (contrib_case c b),
      s_pc (after_case 50) = PDone & s_pc (after_case 9) <> PDone].
Proof. by split; [vm_compute | | vm_compute | vm_compute]. Qed.

(** C37: whatever the schedule, no step fails, every thread is idle, ready or busy, and a thread
    has been given exactly the blocks that are registered for it. *)
Theorem C37_threads :
  forall (contrib : nat -> block -> store), (forall c b, is_map (contrib c b)) ->
  forall (jobs : seq job) (fs : seq file), jobs_wf jobs ->
  forall (kinds : seq bool) (acts : seq action),
    exists s, [/\ run contrib (start kinds fs (main_program jobs)) acts = Ok s, partitioned (s_proc s) &
      forall t, t < size (p_threads (s_proc s)) ->
        held (nth thread0 (p_threads (s_proc s)) t) = [seq bt.1 | bt <- p_busy (s_proc s) & bt.2 == t]].
Proof. exact: threads_ok. Qed.
Print Assumptions C37_threads.

Example C37_case :
  let p := s_proc (after_case 6) in
  [/\ p_idle p = [:: 1], p_ready p = [::],
      p_busy p = [:: ([:: (0, 2); (0, 5)], 0); ([:: (2, 4); (0, 5)], 2)] &
      [seq held thr | thr <- p_threads p] = [:: [:: [:: (0, 2); (0, 5)]]; [::]; [:: [:: (2, 4); (0, 5)]]]].
Proof. by vm_compute. Qed.

(** C38: the blocks given to the threads are the first of those that were not recorded when the
    pool was started; those reported finished are among them; none is reported or done twice; and a
    reported block is done and is in exactly one record: on disk, being written, or in the shared
    store. *)
Theorem C38_reported_once :
  forall (contrib : nat -> block -> store), (forall c b, is_map (contrib c b)) ->
  forall (jobs : seq job) (fs : seq file), jobs_wf jobs ->
  forall (kinds : seq bool) (acts : seq action) (s : state),
    run contrib (start kinds fs (main_program jobs)) acts = Ok s ->
    forall j, j \in jobs ->
    let hd := at_dir (handed s) j.1.1 in let rep := at_dir (reported s) j.1.1 in
    [/\ exists n, hd = take n (remaining fs j), uniq hd /\ uniq rep, {subset rep <= hd},
        (forall b, b \in hd -> count_mem b (done_at (s_proc s) j.1.2) <= 1) &
        forall b, b \in rep -> count_mem b (done_at (s_proc s) j.1.2) = 1 /\
          count_mem b (recorded (files s) j.1.1 ++ unsaved s j.1.1) = 1].
Proof. exact: blocks_ok. Qed.
Print Assumptions C38_reported_once.

Example C38_case :
  let s := after_case 9 in
  [/\ at_dir (handed s) 4 = take 2 blocks_case, at_dir (reported s) 4 = take 1 blocks_case,
      recorded (files s) 4 = take 1 blocks_case &
      (remaining files_case (2, 1, take 2 blocks_case), at_dir (handed (after_case 50)) 2)
        = (take 1 blocks_case, take 1 blocks_case)].
Proof. by vm_compute. Qed.

(** C39: when the configuration has been left, every block not recorded before was handed out and
    reported, and the files written contain each exactly once, with its contribution. *)
Theorem C39_nothing_lost :
  forall (contrib : nat -> block -> store), (forall c b, is_map (contrib c b)) ->
  forall (jobs : seq job) (fs : seq file), jobs_wf jobs ->
  forall (kinds : seq bool) (acts : seq action) (s : state),
    run contrib (start kinds fs (main_program jobs)) acts = Ok s ->
    forall earlier j later, jobs = earlier ++ j :: later -> left s later ->
    [/\ files s = fs ++ new_files fs s, perm_eq (at_dir (reported s) j.1.1) (remaining fs j),
        perm_eq (recorded (new_files fs s) j.1.1) (remaining fs j) &
        add_up contrib (new_files fs s) j.1.1 j.1.2 (remaining fs j)].
Proof. exact: left_files. Qed.
Print Assumptions C39_nothing_lost.

Example C39_case :
  let s := after_case 50 in
  [/\ left (after_case 30) [:: (7, 2, drop 3 blocks_case)],
      recorded (new_files files_case s) 4 = blocks_case,
      tables (new_files files_case s) 4 =
        [:: [:: (([:: 0], [:: Posz 3]), 10)]; [:: (([:: 0], [:: Posz 3]), 20)]; [:: (([:: 0], [:: Posz 3]), 20)]] &
      recorded (new_files files_case s) 2 = [:: [:: (0, 2); (0, 5)]]].
Proof. by split; [right; vm_compute | vm_compute | vm_compute | vm_compute]. Qed.

(** C40 is false: there is a schedule, without any spurious wakeup, after which the only thread
    sleeps although a block is in its queue, and unless it is woken spuriously the program never
    ends. *)
Theorem C40_lost_notification_refuted :
  forall (contrib : nat -> block -> store) (d c : nat) (b : block) (bs : seq block) (later : seq job),
    exists acts s, [/\ all (not_woken 0) acts,
      run contrib (start [:: false] [::] (main_program ((d, c, b :: bs) :: later))) acts = Ok s &
      forall acts' s', all (not_woken 0) acts' -> run contrib s acts' = Ok s' ->
        s_pc s' <> PDone /\
        exists b n, p_threads (s_proc s') = [:: Thread false [:: (b, n)] TWait false]].
Proof. exact: lost_notification. Qed.
Print Assumptions C40_lost_notification_refuted.

Example C40_case :
  let s0 := start [:: false] [::] (main_program [:: (4, 0, blocks_case)]) in
  if run contrib_case s0 (race ++ flatten (nseq 40 [:: Main false; Step 0])) is Ok s then
    s_pc s = PFillReady [:: (2, 4); (0, 5)] /\ handed s = [:: (4, [:: (0, 2); (0, 5)])]
  else False.
Proof. by vm_compute. Qed.

(** C40 and C52, the part that holds: if at least one thread was started and every waiting thread is woken
    again and again - which the condition variable does not guarantee - then the program ends:
    from every state that can be reached there is a number of rounds after which it has ended, whatever
    the order in which the threads run within each round and whenever it saves.  Missing from C40 is
    that a thread with a block in its queue wakes up by the notification alone. *)
Theorem C40_woken_partial :
  forall (contrib : nat -> block -> store), (forall c b, is_map (contrib c b)) ->
  forall (jobs : seq job) (fs : seq file), jobs_wf jobs ->
  forall (kinds : seq bool), 0 < size kinds ->
  forall (acts : seq action) (s : state), run contrib (start kinds fs (main_program jobs)) acts = Ok s ->
  exists k, forall rounds : seq (seq action), k <= size rounds -> all (full_round (size kinds)) rounds ->
    exists2 s', run contrib s (flatten rounds) = Ok s' & s_pc s' = PDone.
Proof.
move=> contrib Hmap jobs fs Hwf kinds Hk acts s.
exact: (program_ends Hmap Hwf Hk (erefl (size kinds))).
Qed.
Print Assumptions C40_woken_partial.

(** The thread asleep after the race of C40_case is woken and the program ends. *)
Example C40_woken_case :
  let s0 := start [:: false] [::] (main_program [:: (4, 0, blocks_case)]) in
  let r := [:: Step 0; Wake 0; Main true] in
  full_round 1 r /\ full_round 3 round /\
  if run contrib_case s0 (race ++ flatten (nseq 60 r)) is Ok s then
    (s_pc s, map snd (handed s)) = (PDone, blocks_case) else False.
Proof. by do 2!(split; first by vm_compute); vm_compute. Qed.

(** C40, the part that holds without wakeups: a lost notification is the only obstacle.  From every state that
    can be reached, with at least one thread, there is a number of rounds after which the program has ended or a
    thread sleeps that has a block to compute or is to return and that the main thread is not about to
    notify. *)
Theorem C40_ends_or_lost_partial :
  forall (contrib : nat -> block -> store), (forall c b, is_map (contrib c b)) ->
  forall (jobs : seq job) (fs : seq file), jobs_wf jobs ->
  forall (kinds : seq bool), 0 < size kinds ->
  forall (acts : seq action) (s : state), run contrib (start kinds fs (main_program jobs)) acts = Ok s ->
  exists k, forall rounds : seq (seq action), k <= size rounds -> all (plain_round (size kinds)) rounds ->
    exists2 s', run contrib s (flatten rounds) = Ok s' & s_pc s' = PDone \/ exists t, stranded s' t.
Proof.
move=> contrib Hmap jobs fs Hwf kinds Hk acts s.
exact: (ends_or_lost Hmap Hwf Hk (erefl (size kinds))).
Qed.
Print Assumptions C40_ends_or_lost_partial.

(** Such a thread sleeps for ever unless it is woken spuriously, and the program does not end. *)
Theorem C40_lost_for_ever :
  forall (contrib : nat -> block -> store), (forall c b, is_map (contrib c b)) ->
  forall (jobs : seq job) (fs : seq file), jobs_wf jobs ->
  forall (kinds : seq bool), 0 < size kinds ->
  forall (acts : seq action) (s : state) (t : nat),
    run contrib (start kinds fs (main_program jobs)) acts = Ok s -> stranded s t ->
  forall acts' s', all (not_woken t) acts' -> run contrib s acts' = Ok s' -> stranded s' t /\ s_pc s' <> PDone.
Proof.
move=> contrib Hmap jobs fs Hwf kinds Hk acts s t.
exact: (lost_for_ever Hmap Hwf Hk (erefl (size kinds))).
Qed.
Print Assumptions C40_lost_for_ever.

(** Without wakeups: two threads of which the second is run right after the main thread end; with a thread
    stranded, further rounds do not help. *)
Example C40_lost_case :
  let s0 := start [:: false] [::] (main_program [:: (4, 0, blocks_case)]) in
  let s2 := start [:: false; true] [::] (main_program [:: (4, 0, blocks_case)]) in
  let r := [:: Step 0; Main true] in
  let r2 := [:: Step 0; Step 0; Step 0; Step 1; Step 1; Step 1; Main false] in
  [/\ plain_round 1 r, plain_round 2 r2,
    if run contrib_case s2 (flatten (nseq 60 r2)) is Ok s then s_pc s = PDone else False &
    if run contrib_case s0 (race ++ flatten (nseq 60 r)) is Ok s then stranded s 0 else False].
Proof. by split; vm_compute; first [by [] | split=> //; left]. Qed.

(** C41: every pair of files written is consistent: the record is a set of blocks of one
    configuration, none of which was recorded before, and the table is the sum of their
    contributions. *)
Theorem C41_consistent_files :
  forall (contrib : nat -> block -> store), (forall c b, is_map (contrib c b)) ->
  forall (jobs : seq job) (fs : seq file), jobs_wf jobs ->
  forall (kinds : seq bool) (acts : seq action) (s : state),
    run contrib (start kinds fs (main_program jobs)) acts = Ok s ->
    files s = fs ++ new_files fs s /\
    forall f r, List.In f (new_files fs s) -> f_record f = Some r ->
      exists2 j, j \in jobs & [/\ f_dir f = j.1.1, uniq r, {subset r <= remaining fs j} &
        sums contrib j.1.2 r (f_store f)].
Proof. exact: consistent_files. Qed.
Print Assumptions C41_consistent_files.

Example C41_case :
  nth (File 0 [::] None) (files (after_case 20)) 3 =
    File 4 [:: (([:: 0], [:: Posz 3]), 20)] (Some [:: [:: (2, 4); (0, 5)]; [:: (4, 6); (0, 5)]]).
Proof. by vm_compute. Qed.

(** C43, except for crashes while the text of a record file is being written (see
    C43_torn_record_refuted in PropFiles.v): runs of the same jobs are killed, one after the other, at arbitrary points; when a further
    run completes, the files of each configuration contain every block exactly once, and the tables
    add up to the contributions of all blocks. *)
Theorem C43_restart_partial :
  forall (contrib : nat -> block -> store), (forall c b, is_map (contrib c b)) ->
  forall (jobs : seq job) (fs : seq file), jobs_wf jobs -> history contrib jobs fs ->
  forall (kinds : seq bool) (acts : seq action) (s : state),
    run contrib (start kinds fs (main_program jobs)) acts = Ok s -> s_pc s = PDone ->
    forall j, j \in jobs ->
      perm_eq (recorded (files s) j.1.1) j.2 /\ add_up contrib (files s) j.1.1 j.1.2 j.2.
Proof. by move=> contrib Hmap jobs fs Hwf Hh kinds acts s Hrun Hpc j; apply: restart_ok Hrun Hpc. Qed.
Print Assumptions C43_restart_partial.

(** The first run is killed while the store of a save is on disk and its record is not. *)
Definition killed_case : seq file :=
  if run contrib_case (start [:: false; true] [::] (main_program jobs_case)) (take 184 (schedule_case 30)) is Ok s
  then files s else [::].
Definition resumed_case : state :=
  if run contrib_case (start kinds_case killed_case (main_program jobs_case)) (schedule_case 50) is Ok s
  then s else start [::] [::] [::].

Example C43_case :
  [/\ history contrib_case jobs_case killed_case, recorded killed_case 4 = take 3 blocks_case,
      f_record (last (File 0 [::] None) killed_case) = None, s_pc resumed_case = PDone &
      perm_eq (recorded (files resumed_case) 4) blocks_case].
Proof.
split; try by vm_compute.
have [s H] : exists s, run contrib_case (start [:: false; true] [::] (main_program jobs_case)) (take 184 (schedule_case 30)) = Ok s.
  by eexists; vm_compute; reflexivity.
by rewrite /killed_case H; exact: HistRun (HistStart _ _) H.
Qed.

(** C44: what a run that completes leaves when it finds files with other blocks: the contributions
    of the old blocks and of all its own blocks that were not recorded under the same bounds. *)
Theorem C44_other_blocks :
  forall (contrib : nat -> block -> store), (forall c b, is_map (contrib c b)) ->
  forall (jobs : seq job) (fs : seq file), jobs_wf jobs -> consistent contrib jobs fs ->
  forall (kinds : seq bool) (acts : seq action) (s : state),
    run contrib (start kinds fs (main_program jobs)) acts = Ok s -> s_pc s = PDone ->
    forall j, j \in jobs ->
      perm_eq (recorded (files s) j.1.1) (recorded fs j.1.1 ++ remaining fs j) /\
      add_up contrib (files s) j.1.1 j.1.2 (recorded fs j.1.1 ++ remaining fs j).
Proof. by move=> contrib Hmap jobs fs Hwf Hc kinds acts s Hrun Hpc j Hj; exact: (complete_run Hmap Hwf Hrun Hpc Hc Hj). Qed.
Print Assumptions C44_other_blocks.

(** The blocks of the curve iterator for prime 3, genus 1, with marked point. *)
Definition blocks_of (psz : nat) : seq block :=
  if mk_citer 3 3 1 true psz is Ok ci then
    if ci_iterate 100 (ci_as_block 100) 100 ci is Ok bs then bs else [::]
  else [::].

(** The hypotheses are met by the files which a run with package size 2 leaves that is killed, if a run with package size 100
    follows: three blocks are recorded, and three of the five blocks of the
    second run remain, although the recorded blocks contain vectors of them. *)
Example C44_case :
  let j := (0, 0, blocks_of 100) in
  if run contrib_case (start kinds_case [::] (main_program [:: (0, 0, blocks_of 2)])) (schedule_case 15) is Ok s then
    [/\ jobs_wf [:: j], consistent contrib_case [:: j] (files s), size (recorded (files s) 0) = 3,
        size (remaining (files s) j) = 3 & size j.2 = 5]
  else False.
Proof.
have Hg bs bs' acts s : jobs_wf [:: (0, 0, bs)] -> run contrib_case (start kinds_case [::] (main_program [:: (0, 0, bs)])) acts = Ok s ->
    consistent contrib_case [:: (0, 0, bs')] (files s).
  move=> Hw E; have [H1 H2] := C41_consistent_files (fun c b => isT : is_map (contrib_case c b)) Hw E.
  move=> f r j' Hf Hr; rewrite inE => /eqP-> _; rewrite H1 in Hf.
  by have [j1] := H2 f r Hf Hr; rewrite inE => /eqP-> [].
have Hw : jobs_wf [:: (0, 0, blocks_of 2)] by vm_compute.
have Hj : jobs_wf [:: (0, 0, blocks_of 100)] by vm_compute.
have Hs : size (blocks_of 100) = 5 by vm_compute.
cbv zeta; have Hc s := Hg _ (blocks_of 100) (schedule_case 15) s Hw; clear Hg Hw.
have Hn : (if run contrib_case (start kinds_case [::] (main_program [:: (0, 0, blocks_of 2)])) (schedule_case 15) is Ok s then
    (size (recorded (files s) 0) == 3) && (size (remaining (files s) (0, 0, blocks_of 100)) == 3) else false) by vm_compute.
move: Hn Hc Hj Hs; generalize (run contrib_case (start kinds_case [::] (main_program [:: (0, 0, blocks_of 2)])) (schedule_case 15)).
generalize (blocks_of 100) => bs; case=> [s| | |] Hn Hc Hj Hs; [move/andP: Hn => [/eqP H3 /eqP H4]|by []|by []|by []].
by split; [exact: Hj|exact: Hc|exact: H3|exact: H4|exact: Hs].
Qed.

(** C44 is false: a computation with package size 2 is interrupted and resumed with package size 100;
    it completes, and of the thirteen vectors two are counted twice. *)
Theorem C44_package_size_refuted :
  exists (acts acts' : seq action) (s s' : state),
    [/\ run contrib_case (start kinds_case [::] (main_program [:: (0, 0, blocks_of 2)])) acts = Ok s,
        run contrib_case (start kinds_case (files s) (main_program [:: (0, 0, blocks_of 100)])) acts' = Ok s',
        s_pc s' = PDone,
        forall k, sum_opt [seq st_find (contrib_case 0 b) k | b <- blocks_of 2] =
                  sum_opt [seq st_find (contrib_case 0 b) k | b <- blocks_of 100] &
        let k := ([:: 0], [:: Posz 3]) in
        (sum_opt [seq st_find (contrib_case 0 b) k | b <- blocks_of 100],
         sum_opt [seq st_find st k | st <- tables (files s') 0]) = (Some 13, Some 15)].
Proof.
exists (schedule_case 15), (schedule_case 60); do 2 eexists; split.
- by vm_compute; reflexivity.
- by vm_compute; reflexivity.
- by vm_compute.
- by move=> k; vm_compute blocks_of; rewrite /st_find /contrib_case /=; case: ifP => // _; case: ifP.
- by vm_compute.
Qed.
Print Assumptions C44_package_size_refuted.

(** C52: the threads that are started. *)
Theorem C52_threads_started :
  forall (devices hardware : nat) (nmb : option nat) (per_gpu : nat),
    let kinds := spark_kinds devices hardware nmb per_gpu in
    count_mem true kinds = devices * per_gpu /\
    count_mem false kinds = (if nmb is Some n then n else hardware) - (devices * per_gpu) %/ 8.
Proof. exact: kinds_count. Qed.
Print Assumptions C52_threads_started.

Example C52_case :
  spark_kinds 2 8 None 4 = nseq 8 true ++ nseq 7 false /\ spark_kinds 0 8 (Some 0) 4 = [::].
Proof. by []. Qed.

(** C52: "dispatching can proceed" is false if no thread was started: no block is ever handed out and
    the program never ends. *)
Theorem C52_no_threads_refuted :
  forall (contrib : nat -> block -> store), (forall c b, is_map (contrib c b)) ->
  forall (jobs : seq job) (fs : seq file), jobs_wf jobs ->
  forall (devices per_gpu hardware : nat) (nmb : option nat), devices * per_gpu = 0 ->
  (if nmb is Some n then n else hardware) = 0 ->
  forall (acts : seq action) (s : state) (j : job), j \in jobs -> remaining fs j != [::] ->
    run contrib (start (spark_kinds devices hardware nmb per_gpu) fs (main_program jobs)) acts = Ok s ->
    handed s = [::] /\ s_pc s <> PDone.
Proof.
move=> contrib Hmap jobs fs Hwf devices per_gpu hardware nmb H0 H1 acts s j Hj Hr.
by rewrite (no_kinds H0 H1) => Hrun; exact: (no_threads Hmap Hwf Hrun Hj Hr).
Qed.
Print Assumptions C52_no_threads_refuted.

Example C52_no_threads_case :
  remaining files_case (4, 0, blocks_case) != [::] /\
  if run contrib_case (start [::] files_case (main_program jobs_case)) (schedule_case 20) is Ok s then
    (s_pc s, size (files s)) = (PFillReady [:: (0, 2); (0, 5)], 2) else False.
Proof. by split; vm_compute. Qed.

(** C60 is false: of two configurations with the same result directory, the second computes nothing
    for the blocks it shares with the first. *)
Theorem C60_shared_directory_refuted :
  exists (acts : seq action) (s : state),
    [/\ run contrib_case (start kinds_case [::] (main_program [:: (0, 0, blocks_case); (0, 1, blocks_case)])) acts = Ok s,
        s_pc s = PDone, recorded (files s) 0 = blocks_case, size (handed s) = size blocks_case &
        all (fun st => st_find st ([:: 1], [:: Posz 3]) == None) (tables (files s) 0)].
Proof. by exists (schedule_case 60); eexists; split; vm_compute; reflexivity. Qed.
Print Assumptions C60_shared_directory_refuted.
