(** Model of StandaloneWorkerPool, /repo/src/worker_pool/standalone.{hh,cc}, driven by the main program
    /repo/src/executables/threaded.cc:131-150, with the worker threads of Pool.v.

    An execution is a list of actions chosen by the scheduler.  The main thread advances by one
    critical section or file operation at a time. *)
Set Warnings "-notation-overridden,-ambiguous-paths".
From mathcomp Require Import all_ssreflect.
From Verif Require Import Res OMap Store Pool.

Set Implicit Arguments.
Unset Strict Implicit.
Unset Printing Implicit Defensive.

(** The files of one save in the result directory [f_dir]: the store file is written first and the
    record file second (/repo/src/store/file_store.cc:71-73; names never coincide, 83-95).  Texts and names are
    modelled in Files.v. *)
Record file := File { f_dir : nat; f_store : store; f_record : option (seq block) }.

(** FileStore::FileStore, /repo/src/store/file_store.cc:37-57: the blocks of all record files of the directory,
    together with the empty block for every record file that is not empty (see C32 and C59). *)
Definition file_blocks (f : file) : seq block :=
  if f_record f is Some r then (if r is [::] then [::] else [::] :: r) else [::].
Definition read_records (files : seq file) (dir : nat) : seq block :=
  foldl (os_insert block_lt) [::] (flatten [seq file_blocks f | f <- files & f_dir f == dir]).

(** The calls made by /repo/src/executables/threaded.cc:131-150: update_config with a result directory and
    parameters, assign, and the destructor at the end. *)
Inductive cmd := CConfig of nat & nat | CAssign of block | CDestroy.
Definition main_program (jobs : seq (nat * nat * seq block)) : seq cmd :=
  flatten [seq CConfig job.1.1 job.1.2 :: [seq CAssign b | b <- job.2] | job <- jobs] ++ [:: CDestroy].

(** Where save_global_stores_to_file was called from: assign (/repo/src/worker_pool/standalone.cc:79), update_config
    (67) or the destructor (55). *)
Inductive after := AfterDelay of block | AfterConfig of nat & nat | AfterDestroy.

(** Position of the main thread in /repo/src/worker_pool/standalone.cc:
    between calls; assign, at line 79, at line 81, in fill_idle_queues at line 107 and at line 109, at line 88,
    and before the notification in Thread::assign; wait_for_assigned_blocks at line 152;
    save_global_stores_to_file at line 165, and before writing the store and the record
    (/repo/src/store/file_store.cc:72,73); after saving; ThreadPool::shutdown_threads
    (/repo/src/threaded/thread_pool.cc:72-79) before setting the flag, before notifying and before joining
    a thread; returned. *)
Inductive pc :=
  | PNext | PDelay of block | PContains of block | PFillFinished of block | PFillReady of block
  | PHand of block | PNotify of nat & block | PWait of after | PSave of after
  | PWriteStore of after & seq block & store | PWriteRecord of after & seq block | PAfter of after
  | PShut of nat | PShutNotify of nat | PJoin of nat | PDone.

(** The members of StandaloneWorkerPool, /repo/src/worker_pool/standalone.hh:75-84, with the files, the position
    and the calls still to be made.  [file_store] holds the directory and the initial record.
    [handed] and [reported] record the blocks given to the threads and those reported finished;
    they are observations and are never read. *)
Record state := State
  { s_proc : proc; ncpu : nat; nocl : nat; assigned : seq block; file_store : option (nat * seq block);
    files : seq file; s_pc : pc; prog : seq cmd;
    handed : seq (nat * block); reported : seq (nat * block) }.

(** Updates of single fields (no counterpart in /repo). *)
Definition with_proc s x := State x (ncpu s) (nocl s) (assigned s) (file_store s) (files s) (s_pc s) (prog s) (handed s) (reported s).
Definition with_ncpu s x := State (s_proc s) x (nocl s) (assigned s) (file_store s) (files s) (s_pc s) (prog s) (handed s) (reported s).
Definition with_nocl s x := State (s_proc s) (ncpu s) x (assigned s) (file_store s) (files s) (s_pc s) (prog s) (handed s) (reported s).
Definition with_assigned s x := State (s_proc s) (ncpu s) (nocl s) x (file_store s) (files s) (s_pc s) (prog s) (handed s) (reported s).
Definition with_file_store s x := State (s_proc s) (ncpu s) (nocl s) (assigned s) x (files s) (s_pc s) (prog s) (handed s) (reported s).
Definition with_files s x := State (s_proc s) (ncpu s) (nocl s) (assigned s) (file_store s) x (s_pc s) (prog s) (handed s) (reported s).
Definition goto s x := State (s_proc s) (ncpu s) (nocl s) (assigned s) (file_store s) (files s) x (prog s) (handed s) (reported s).
Definition with_prog s x := State (s_proc s) (ncpu s) (nocl s) (assigned s) (file_store s) (files s) (s_pc s) x (handed s) (reported s).
Definition with_handed s x := State (s_proc s) (ncpu s) (nocl s) (assigned s) (file_store s) (files s) (s_pc s) (prog s) x (reported s).
Definition with_reported s x := State (s_proc s) (ncpu s) (nocl s) (assigned s) (file_store s) (files s) (s_pc s) (prog s) (handed s) x.

(** The directory of the current configuration, the member [file_store] of /repo/src/worker_pool/standalone.hh:82; 0 before the
    first one. *)
Definition cur_dir (s : state) : nat := if file_store s is Some (d, _) then d else 0.

(** StandaloneWorkerPool::finished_block, /repo/src/worker_pool/standalone.cc:129-145. *)
Definition finished_block (s : state) (b : block) : res state :=
  if os_mem block_lt (assigned s) b then
    let s := with_assigned s (os_erase block_lt (assigned s) b) in
    Ok (with_reported s (rcons (reported s) (cur_dir s, b)))
  else Term.

(** StandaloneWorkerPool::flush_finished_blocks, /repo/src/worker_pool/standalone.cc:120-127. *)
Definition flush_finished_blocks (s : state) : res state :=
  let: (p, blocks) := flush_finished (s_proc s) in
  foldM finished_block (with_proc s p) blocks.

(** The last file gets its record, /repo/src/store/file_store.cc:73. *)
Fixpoint complete_last (fs : seq file) (r : seq block) : seq file :=
  match fs with
  | [::] => [::]
  | [:: f] => [:: File (f_dir f) (f_store f) (Some r)]
  | f :: fs' => f :: complete_last fs' r
  end.

(** One step of the main thread.  [save] tells whether the time for a periodic save has come
    (/repo/src/worker_pool/standalone.hh:66-73).  A counter that is zero is not decremented; [Undef] instead. *)
Definition main_step (s : state) (save : bool) : res state :=
  match s_pc s with
  | PNext =>
      match prog s with
      | [::] => Ok s
      | CConfig d c :: cs => Ok (goto (with_prog s cs) (PWait (AfterConfig d c)))
      | CAssign b :: cs => Ok (goto (with_prog s cs) (PDelay b))
      | CDestroy :: cs => Ok (goto (with_prog s cs) (PWait AfterDestroy))
      end
  | PDelay b => Ok (goto s (if save then PSave (AfterDelay b) else PContains b))
  | PContains b =>
      if file_store s is Some (_, r) then
        Ok (goto s (if os_mem block_lt r b then PNext
                    else if nocl s == 0 then PFillFinished b else PHand b))
      else Undef
  | PFillFinished b => s <- flush_finished_blocks s ;; Ok (goto s (PFillReady b))
  | PFillReady b =>
      let: (p, (c, o)) := flush_ready (s_proc s) in
      let s := with_nocl (with_ncpu (with_proc s p) (ncpu s + c)) (nocl s + o) in
      Ok (goto s (if (ncpu s == 0) && (nocl s == 0) then PFillFinished b else PHand b))
  | PHand b =>
      let opencl := nocl s != 0 in
      if ~~ opencl && (ncpu s == 0) then Undef
      else
        pt <- pool_assign (s_proc s) b opencl ;;
        let s := if opencl then with_nocl s (nocl s).-1 else with_ncpu s (ncpu s).-1 in
        let s := with_handed s (rcons (handed s) (cur_dir s, b)) in
        Ok (goto (with_proc s pt.1) (PNotify pt.2 b))
  | PNotify t b =>
      let s := with_proc s (notify (s_proc s) t) in
      Ok (goto (with_assigned s (os_insert block_lt (assigned s) b)) PNext)
  | PWait k =>
      s <- flush_finished_blocks s ;;
      Ok (goto s (if assigned s is [::] then PSave k else PWait k))
  | PSave k =>
      if file_store s is Some _ then
        let: (p, (r, st)) := flush_global (s_proc s) in
        Ok (goto (with_proc s p) (PWriteStore k r st))
      else Ok (goto s (PAfter k))
  | PWriteStore k r st =>
      Ok (goto (with_files s (rcons (files s) (File (cur_dir s) st None))) (PWriteRecord k r))
  | PWriteRecord k r => Ok (goto (with_files s (complete_last (files s) r)) (PAfter k))
  | PAfter (AfterDelay b) => Ok (goto s (PContains b))
  | PAfter (AfterConfig d c) =>
      let s := with_file_store s (Some (d, read_records (files s) d)) in
      Ok (goto (with_proc s (set_config (s_proc s) (Some c))) PNext)
  | PAfter AfterDestroy => Ok (goto s (PShut 0))
  | PShut t =>
      if t < size (p_threads (s_proc s)) then
        Ok (goto (with_proc s (set_shutdown (s_proc s) t)) (PShutNotify t))
      else Ok (goto s PDone)
  | PShutNotify t => Ok (goto (with_proc s (notify (s_proc s) t)) (PJoin t))
  | PJoin t =>
      Ok (if t_phase (nth thread0 (p_threads (s_proc s)) t) is TExit then goto s (PShut t.+1) else s)
  | PDone => Ok s
  end.

(** Which thread of the process runs next; [Wake t] is a spurious wakeup of the wait in /repo/src/threaded/thread.cc:50-106. *)
Inductive action := Main of bool | Step of nat | Wake of nat.

Section Run.
Variable contrib : nat -> block -> store.

(** One action (no counterpart in /repo: the scheduler). *)
Definition step (s : state) (a : action) : res state :=
  match a with
  | Main save => main_step s save
  | Step t => p <- thread_step contrib (s_proc s) t ;; Ok (with_proc s p)
  | Wake t => Ok (with_proc s (wake (s_proc s) t))
  end.

(** An execution: the state after the given actions (no counterpart in /repo). *)
Definition run (s : state) (acts : seq action) : res state := foldM step s acts.
End Run.

(** The state when /repo/src/executables/threaded.cc:131-134 has constructed the pool, with the files that are on
    disk and the calls to come. *)
Definition start (kinds : seq bool) (fs : seq file) (cs : seq cmd) : state :=
  State (spark kinds) 0 0 [::] None fs PNext cs [::] [::].
