(** Properties C65 and C66: the standalone program with every lock, every access to shared data and every unlock as a
    step of its own.  Statements use StoreSpec.v, StandaloneSpec.v, FineSpec.v and the model functions of Pool.v,
    Standalone.v and Fine.v only. *)
Set Warnings "-notation-overridden,-ambiguous-paths".
From mathcomp Require Import all_ssreflect ssralg ssrnum ssrint.
From Verif Require Import Res OMap Store StoreSpec Pool Standalone StandaloneSpec Fine FineSpec FineTheorems FineEnds.

Set Implicit Arguments.
Unset Strict Implicit.
Unset Printing Implicit Defensive.

(** The case: an OpenCL and two CPU threads, two configurations. *)
Definition fkinds_case : seq bool := [:: true; false; false].
Definition fcontrib_case (c : nat) (b : block) : store :=
  [:: (([:: 0; c], [:: Posz 3]), size b); (([:: 1; c], [:: Posz 5]), foldr (fun lu n => (lu.2 - lu.1) * n) 1 b)].
Definition fblocks_case : seq block := [seq [:: (i, i.+2); (0, 5)] | i <- [:: 0; 2; 4; 6; 8]].
Definition fjobs_case : seq job := [:: (4, 0, fblocks_case); (2, 1, take 2 fblocks_case)].
Definition fround : seq action :=
  [:: Main true; Step 0; Step 2; Main true; Step 1; Step 0; Wake 0; Main false; Step 2; Wake 1; Step 1; Wake 2].
Definition fschedule (n : nat) : seq action := flatten (nseq n fround).
Definition fafter_case (n : nat) : fstate :=
  if frun fcontrib_case (fstart fkinds_case [::] (main_program fjobs_case)) (take n (fschedule n)) is Ok f
  then f else fstart [::] [::] [::].

Example fine_case :
  [/\ jobs_wf fjobs_case, forall c b, is_map (fcontrib_case c b) & s_pc (f_st (fafter_case 1500)) = PDone].
Proof.
by split; [vm_compute | move=> c b; rewrite /fcontrib_case /is_map /=; vm_compute | vm_compute].
Qed.

(** C65: whatever the interleaving of single accesses, no step fails.  In particular no shared datum is accessed by a
    thread that does not hold its mutex ([owning]), and no thread locks a mutex it holds or unlocks one it
    does not hold. *)
Theorem C65_no_race :
  forall (contrib : nat -> block -> store), (forall c b, is_map (contrib c b)) ->
  forall (jobs : seq job) (fs : seq file), jobs_wf jobs ->
  forall (kinds : seq bool) (acts : seq action),
    exists f, frun contrib (fstart kinds fs (main_program jobs)) acts = Ok f.
Proof. by move=> contrib Hmap jobs fs Hwf kinds acts; exact: never_fails. Qed.
Print Assumptions C65_no_race.

(** After 215 steps the main thread holds the mutex of the shared store, thread 0 that of the pool, and
    threads 1 and 2 their own. *)
Example C65_race_case :
  let f := fafter_case 215 in
  [/\ f_pool f = Some (Some 0), f_static f = Some None, f_data f = [:: None; Some (Some 1); Some (Some 2)],
      s_pc (f_st f) = PSave (AfterDelay [:: (4, 6); (0, 5)]) &
      f_thr f = [:: MFin4; MTest0; MPop1 ([:: (2, 4); (0, 5)], Some 0)]].
Proof. by split; vm_compute. Qed.

(** C65: every such execution shows what an execution shows in which critical sections are not interrupted: the
    same files, the same blocks given to threads and reported, the same position of the main program.  The
    latter consists of some of the actions of the former, in the same order; and while no mutex is held the
    whole state is the same. *)
Theorem C65_same_as_uninterrupted :
  forall (contrib : nat -> block -> store), (forall c b, is_map (contrib c b)) ->
  forall (jobs : seq job) (fs : seq file), jobs_wf jobs ->
  forall (kinds : seq bool) (acts : seq action) (f : fstate),
    frun contrib (fstart kinds fs (main_program jobs)) acts = Ok f ->
    exists m s, [/\ run contrib (start kinds fs (main_program jobs)) (mask m acts) = Ok s,
      files (f_st f) = files s, handed (f_st f) = handed s /\ reported (f_st f) = reported s,
      s_pc (f_st f) = s_pc s /\ prog (f_st f) = prog s & free f -> f_st f = s].
Proof. by move=> contrib Hmap jobs fs Hwf kinds acts f; exact: refines. Qed.
Print Assumptions C65_same_as_uninterrupted.

(** When the program has returned, every block of both configurations has been handed out once, and there are
    several saves, some of them made while other threads were within critical sections. *)
Example C65_same_case :
  let f := fafter_case 1500 in
  [/\ s_pc (f_st f) = PDone, map snd (handed (f_st f)) = fblocks_case ++ take 2 fblocks_case,
      size (files (f_st f)) = 6, size (flatten (pmap (@f_record) (files (f_st f)))) = 7 &
      f_data f = nseq 3 None].
Proof. by split; vm_compute. Qed.

(** C65: there is no deadlock of mutexes: from every state that can be reached the program can run on to a state
    in which no mutex is held. *)
Theorem C65_no_deadlock :
  forall (contrib : nat -> block -> store), (forall c b, is_map (contrib c b)) ->
  forall (jobs : seq job) (fs : seq file), jobs_wf jobs ->
  forall (kinds : seq bool) (acts : seq action) (f : fstate),
    frun contrib (fstart kinds fs (main_program jobs)) acts = Ok f ->
    exists more f', frun contrib f more = Ok f' /\ free f'.
Proof. by move=> contrib Hmap jobs fs Hwf kinds acts f; exact: can_free. Qed.
Print Assumptions C65_no_deadlock.

(** The main thread holds the mutex of the pool and waits for that of a thread; the thread goes on. *)
Definition waiting_case : seq action := nseq 21 (Main false) ++ [:: Step 0; Main false; Main false].
Example C65_deadlock_case :
  let s0 := fstart [:: false] [::] (main_program fjobs_case) in
  if frun fcontrib_case s0 waiting_case is Ok f then
    [/\ f_pool f = Some None, f_main f = NAssign2 0, f_data f = [:: Some (Some 0)] &
        if frun fcontrib_case f (nseq 3 (Step 0) ++ nseq 5 (Main false)) is Ok f' then
          (f_pool f', f_static f', f_data f', f_main f') = (None, None, [:: None], NNone) else False]
  else False.
Proof. by vm_compute. Qed.

(** C65 with C43: when runs are killed anywhere, also within critical sections, and a run then completes, every
    block is recorded once and the tables add up to the contributions of all blocks. *)
Theorem C65_restart :
  forall (contrib : nat -> block -> store), (forall c b, is_map (contrib c b)) ->
  forall (jobs : seq job) (fs : seq file), jobs_wf jobs -> fhistory contrib jobs fs ->
  forall (kinds : seq bool) (acts : seq action) (f : fstate),
    frun contrib (fstart kinds fs (main_program jobs)) acts = Ok f -> s_pc (f_st f) = PDone ->
    forall j, j \in jobs ->
      perm_eq (recorded (files (f_st f)) j.1.1) j.2 /\ add_up contrib (files (f_st f)) j.1.1 j.1.2 j.2.
Proof. by move=> contrib Hmap jobs fs Hwf Hh kinds acts f Hrun Hpc j; apply: fine_restart Hrun Hpc. Qed.
Print Assumptions C65_restart.

(** The first run is killed while a thread is adding its table to the shared store; three blocks are in the files. *)
Example C65_restart_case :
  let f := fafter_case 540 in
  [/\ f_static f = Some (Some 2), size (flatten (pmap (@f_record) (files (f_st f)))) = 3 &
    let fs := files (f_st f) in
    if frun fcontrib_case (fstart [:: false] fs (main_program fjobs_case))
         (flatten (nseq 400 [:: Main false; Step 0; Wake 0])) is Ok f' then
      [/\ s_pc (f_st f') = PDone, perm_eq (recorded (files (f_st f')) 4) fblocks_case &
          perm_eq (recorded (files (f_st f')) 2) (take 2 fblocks_case)]
    else False].
Proof. by split; vm_compute. Qed.

(** C66 is false of the code: a thread that runs again and again can be kept out of a critical section for ever.  The
    main thread asks for finished blocks in a loop, and the thread that wants to report one finds the mutex
    locked whenever it tries.  Every round below lets both of them run, wakes the thread, and ends in the state
    it began with. *)
Theorem C66_starved_refuted :
  exists (contrib : nat -> block -> store) (jobs : seq job) (kinds : seq bool) (acts r : seq action) (f : fstate),
    [/\ jobs_wf jobs, forall c b, is_map (contrib c b),
        frun contrib (fstart kinds [::] (main_program jobs)) acts = Ok f /\ s_pc (f_st f) <> PDone,
        full_round (size kinds) r & forall k, frun contrib f (flatten (nseq k r)) = Ok f].
Proof.
exists fcontrib_case, [:: (4, 0, take 1 fblocks_case)], [:: false], (nseq 28 (Main false) ++ nseq 13 (Step 0)),
  ([:: Step 0; Wake 0] ++ nseq 4 (Main false)).
eexists; split.
- by vm_compute.
- by move=> c b; vm_compute.
- by split; [vm_compute; reflexivity | vm_compute].
- by vm_compute.
- by elim=> [//|k IH]; rewrite /frun /= -/(frun _ _ _) in IH *; vm_compute in IH |- *; exact: IH.
Qed.
Print Assumptions C66_starved_refuted.

(** C66, the part that holds: being kept out at a mutex is the only further obstacle.  If from some state on there are
    enough rounds in which the main thread and every thread gets the mutex it asks for, completes what
    it does under it, and every thread is woken, the run ends.  Missing from C66: that a thread which
    runs again and again gets the mutex, which is false, see [C66_starved_refuted]. *)
Theorem C66_served_partial :
  forall (contrib : nat -> block -> store) (jobs : seq job) (fs : seq file) (kinds : seq bool) acts f,
    (forall c b, is_map (contrib c b)) -> jobs_wf jobs -> 0 < size kinds ->
    frun contrib (fstart kinds fs (main_program jobs)) acts = Ok f ->
  exists k, forall rounds, k <= size rounds -> all (woken (size kinds)) rounds ->
    all_served contrib (size kinds) f rounds ->
    exists2 f', frun contrib f (flatten rounds) = Ok f' & s_pc (f_st f') = PDone.
Proof. move=> contrib jobs fs kinds acts f Hmap Hwf Hn Hrun; exact: (fine_ends Hmap Hwf Hn Hrun). Qed.
Print Assumptions C66_served_partial.

(** C66, without any wakeups but the notifications of the program: the run ends or a notification was
    lost, and the thread that missed it waits for ever. *)
Theorem C66_served_or_lost_partial :
  forall (contrib : nat -> block -> store) (jobs : seq job) (fs : seq file) (kinds : seq bool) acts f,
    (forall c b, is_map (contrib c b)) -> jobs_wf jobs -> 0 < size kinds ->
    frun contrib (fstart kinds fs (main_program jobs)) acts = Ok f ->
  exists k, forall rounds, k <= size rounds -> all quiet rounds ->
    all_served contrib (size kinds) f rounds ->
    exists2 f', frun contrib f (flatten rounds) = Ok f' &
      s_pc (f_st f') = PDone \/ exists t, forever_lost contrib f' t.
Proof. move=> contrib jobs fs kinds acts f Hmap Hwf Hn Hrun; exact: (fine_ends_or_lost Hmap Hwf Hn Hrun). Qed.
Print Assumptions C66_served_or_lost_partial.

(** From a state within critical sections: rounds in which all are served, first woken, then not.  Both
    runs end.  A thread that found its queue empty and goes to sleep only after the notification is
    stranded, although all are served. *)
Definition fsteps (w : bool) : seq action :=
  flatten [seq nseq 12 (Step t) ++ (if w then [:: Wake t] else [::]) | t <- [:: 2; 0; 1]].
Definition fserve (w : bool) : seq action :=
  nseq 6 (Main false) ++ fsteps w ++ nseq 6 (Main false) ++ fsteps w ++ nseq 2 (Main false) ++ fsteps w.

Example C66_served_case :
  let ends w := [/\ if w then all (woken 3) (nseq 40 (fserve w)) else all quiet (nseq 40 (fserve w)),
    all_served fcontrib_case 3 (fafter_case 47) (nseq 40 (fserve w)) &
    if frun fcontrib_case (fafter_case 47) (flatten (nseq 40 (fserve w))) is Ok f then s_pc (f_st f) = PDone else False] in
  ends true /\ ends false.
Proof. by split; split; vm_compute. Qed.

Example C66_lost_case :
  let r := nseq 5 (Step 0) ++ nseq 20 (Main false) in
  if frun fcontrib_case (fstart [:: false] [::] (main_program [:: (4, 0, take 1 fblocks_case)]))
       (nseq 4 (Step 0) ++ nseq 28 (Main false)) is Ok f then
    [/\ all quiet (nseq 50 r), all_served fcontrib_case 1 f (nseq 50 r) &
      if frun fcontrib_case f (flatten (nseq 50 r)) is Ok f' then stranded (f_st f') 0 else False]
  else False.
Proof. by vm_compute; split=> //; split=> //; left. Qed.
