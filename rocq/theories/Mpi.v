(** Model of MPIWorkerPool, /repo/src/worker_pool/mpi.{hh,cc}, of the worker processes,
    /repo/src/worker_pool/mpi_worker.cc, and of the main program /repo/src/executables/mpi.cc:144-157, with the
    threads of Pool.v in every process.

    Process 0 is the master.  MPI delivers the messages of one process to another in the order in which they were
    sent, and [probe] for any tag finds the first one; each process has a queue of messages from the master and one
    of replies to it, both unbounded (whether [send] waits for the receiver is left open by MPI; a schedule in which
    it does is among those considered here).  Starting and ending MPI, and the broadcast at the start, are not
    modelled.

    An execution is a list of actions chosen by the scheduler.  The main threads of the processes advance by one
    critical section, message or file operation at a time. *)
Set Warnings "-notation-overridden,-ambiguous-paths".
From mathcomp Require Import all_ssreflect.
From Verif Require Import Res OMap Store Pool Standalone.

Set Implicit Arguments.
Unset Strict Implicit.
Unset Printing Implicit Defensive.

(** The messages of the master, by their tags (/repo/src/worker_pool/mpi.hh:104-114), and the replies.  Messages
    that only consist of a tag carry the value [true]. *)
Inductive msg := MConfig of nat | MAssign of bool & block | MReady | MSave | MFinished | MShutdown.
Inductive reply := RReady of nat & nat | RSave of seq block & store | RFinished of seq block.

(** Position of the main thread of a worker process, /repo/src/worker_pool/mpi_worker.cc:50-114: at the call of
    probe; in Thread::assign before the notification; in ThreadPool::shutdown_threads
    (/repo/src/threaded/thread_pool.cc:72-79) before setting the flag, before notifying and before joining a
    thread; returned. *)
Inductive npc := NProbe | NNotify of nat | NShut of nat | NShutNotify of nat | NJoin of nat | NDone.

(** A process, /repo/src/worker_pool/mpi_worker.cc:40-114: its threads, the messages it has not received, the replies the master has
    not received. *)
Record node := Node { n_proc : proc; n_in : seq msg; n_out : seq reply; n_pc : npc }.
(** Updates of single fields and a process that does not exist (no counterpart in /repo). *)
Definition nset_proc w x := Node x (n_in w) (n_out w) (n_pc w).
Definition nset_in w x := Node (n_proc w) x (n_out w) (n_pc w).
Definition nset_out w x := Node (n_proc w) (n_in w) x (n_pc w).
Definition nset_pc w x := Node (n_proc w) (n_in w) (n_out w) x.
Definition node0 := Node (spark [::]) [::] [::] NProbe.

(** [send] to a process (/repo/src/worker_pool/mpi.cc:77, 111, 138, 149, 174, 202, 261) and to the master
    (/repo/src/worker_pool/mpi_worker.cc:79, 88, 97). *)
Definition post (m : msg) (w : node) : node := nset_in w (rcons (n_in w) m).
Definition answer (r : reply) (w : node) : node := nset_out w (rcons (n_out w) r).

(** One step of the main thread of a worker process, /repo/src/worker_pool/mpi_worker.cc:50-114.  Without a message
    it waits. *)
Definition node_step (w : node) : res node :=
  match n_pc w with
  | NProbe =>
      if n_in w is m :: ms then
        let w := nset_in w ms in
        match m with
        | MConfig c => Ok (nset_proc w (set_config (n_proc w) (Some c)))
        | MAssign opencl b =>
            pt <- pool_assign (n_proc w) b opencl ;;
            Ok (nset_pc (nset_proc w pt.1) (NNotify pt.2))
        | MReady =>
            let: (p, (nc, no)) := flush_ready (n_proc w) in
            Ok (answer (RReady nc no) (nset_proc w p))
        | MSave =>
            let: (p, (r, st)) := flush_global (n_proc w) in
            Ok (answer (RSave r st) (nset_proc w p))
        | MFinished =>
            let: (p, bs) := flush_finished (n_proc w) in
            Ok (answer (RFinished bs) (nset_proc w p))
        | MShutdown => Ok (nset_pc w (NShut 0))
        end
      else Ok w
  | NNotify t => Ok (nset_pc (nset_proc w (notify (n_proc w) t)) NProbe)
  | NShut t =>
      if t < size (p_threads (n_proc w)) then
        Ok (nset_pc (nset_proc w (set_shutdown (n_proc w) t)) (NShutNotify t))
      else Ok (nset_pc w NDone)
  | NShutNotify t => Ok (nset_pc (nset_proc w (notify (n_proc w) t)) (NJoin t))
  | NJoin t =>
      Ok (if t_phase (nth thread0 (p_threads (n_proc w)) t) is TExit then nset_pc w (NShut t.+1) else w)
  | NDone => Ok w
  end.

(** Where flush_finished_blocks was called from: fill_idle_queues (/repo/src/worker_pool/mpi.cc:163) or
    wait_for_assigned_blocks (234). *)
Inductive caller := FromFill of block | FromWait of after.

(** Position of the main thread of the master in /repo/src/worker_pool/mpi.cc: between calls; assign at line 120
    and at 122; flush_finished_blocks (191-207) before the request to process [ix] and before receiving the answer,
    [ix] being 0 before line 195; fill_idle_queues before the request to process [ix], [ix] being 0 at line 165,
    before receiving the answer, and at line 184; assign at line 129; Thread::assign before the notification;
    wait_for_assigned_blocks at line 236; save_global_stores_to_file before asking process [ix], [ix] being 0 at line
    250 or 255, before receiving the answer, and before writing the store and the record; after saving; shutting down as in
    Standalone.v. *)
Inductive mpc :=
  | QNext | QDelay of block | QContains of block
  | QFin of nat & caller | QFinRecv of nat & caller
  | QReady of nat & block | QReadyRecv of nat & block | QIdle of block
  | QHand of block | QNotify of nat & block | QCheck of after
  | QSave of nat & after | QSaveRecv of nat & after
  | QWriteStore of nat & after & seq block & store | QWriteRecord of nat & after & seq block | QAfter of after
  | QShut of nat | QShutNotify of nat | QJoin of nat | QDone.

(** The members of MPIWorkerPool, /repo/src/worker_pool/mpi.hh:87-99, with the processes, the files, the position
    and the calls still to be made.  [m_asg] is the map assigned_blocks; a missing entry is an empty set.
    [m_handed], [m_reported] and [m_saved] record the blocks given to a process, reported by it, and written to a
    record file from it, each with the process and the directory; they are observations and are never read. *)
Record mstate := MState
  { m_nodes : seq node; m_cpu : seq nat; m_ocl : seq nat; m_asg : seq (seq block);
    m_store : option (nat * seq block); m_files : seq file; m_pc : mpc; m_prog : seq cmd;
    m_handed : seq (nat * (nat * block)); m_reported : seq (nat * (nat * block));
    m_saved : seq (nat * (nat * block)) }.

(** Updates of single fields (no counterpart in /repo). *)
Definition mset_nodes s x := MState x (m_cpu s) (m_ocl s) (m_asg s) (m_store s) (m_files s) (m_pc s) (m_prog s) (m_handed s) (m_reported s) (m_saved s).
Definition mset_cpu s x := MState (m_nodes s) x (m_ocl s) (m_asg s) (m_store s) (m_files s) (m_pc s) (m_prog s) (m_handed s) (m_reported s) (m_saved s).
Definition mset_ocl s x := MState (m_nodes s) (m_cpu s) x (m_asg s) (m_store s) (m_files s) (m_pc s) (m_prog s) (m_handed s) (m_reported s) (m_saved s).
Definition mset_asg s x := MState (m_nodes s) (m_cpu s) (m_ocl s) x (m_store s) (m_files s) (m_pc s) (m_prog s) (m_handed s) (m_reported s) (m_saved s).
Definition mset_store s x := MState (m_nodes s) (m_cpu s) (m_ocl s) (m_asg s) x (m_files s) (m_pc s) (m_prog s) (m_handed s) (m_reported s) (m_saved s).
Definition mset_files s x := MState (m_nodes s) (m_cpu s) (m_ocl s) (m_asg s) (m_store s) x (m_pc s) (m_prog s) (m_handed s) (m_reported s) (m_saved s).
Definition mgoto s x := MState (m_nodes s) (m_cpu s) (m_ocl s) (m_asg s) (m_store s) (m_files s) x (m_prog s) (m_handed s) (m_reported s) (m_saved s).
Definition mset_prog s x := MState (m_nodes s) (m_cpu s) (m_ocl s) (m_asg s) (m_store s) (m_files s) (m_pc s) x (m_handed s) (m_reported s) (m_saved s).
Definition mset_handed s x := MState (m_nodes s) (m_cpu s) (m_ocl s) (m_asg s) (m_store s) (m_files s) (m_pc s) (m_prog s) x (m_reported s) (m_saved s).
Definition mset_reported s x := MState (m_nodes s) (m_cpu s) (m_ocl s) (m_asg s) (m_store s) (m_files s) (m_pc s) (m_prog s) (m_handed s) x (m_saved s).
Definition mset_saved s x := MState (m_nodes s) (m_cpu s) (m_ocl s) (m_asg s) (m_store s) (m_files s) (m_pc s) (m_prog s) (m_handed s) (m_reported s) x.
Definition get_node s i := nth node0 (m_nodes s) i.
Definition set_node s i w := mset_nodes s (set_nth node0 (m_nodes s) i w).

(** The directory of the current configuration, the member [file_store] of /repo/src/worker_pool/mpi.hh:98; 0 before the first
    one. *)
Definition m_dir (s : mstate) : nat := if m_store s is Some (d, _) then d else 0.

(** MPIWorkerPool::finished_block, /repo/src/worker_pool/mpi.cc:209-226. *)
Definition mfinished (i : nat) (s : mstate) (b : block) : res mstate :=
  let set := nth [::] (m_asg s) i in
  if os_mem block_lt set b then
    let s := mset_asg s (set_nth [::] (m_asg s) i (os_erase block_lt set b)) in
    Ok (mset_reported s (rcons (m_reported s) (i, (m_dir s, b))))
  else Term.

(** [assigned_blocks[process_id].insert(block)], /repo/src/worker_pool/mpi.cc:153. *)
Definition minsert (i : nat) (b : block) (s : mstate) : mstate :=
  mset_asg s (set_nth [::] (m_asg s) i (os_insert block_lt (nth [::] (m_asg s) i) b)).

(** The idle queues grow, /repo/src/worker_pool/mpi.cc:166-169 and 177-180. *)
Definition queue_up (i nc no : nat) (s : mstate) : mstate :=
  mset_ocl (mset_cpu s (m_cpu s ++ nseq nc i)) (m_ocl s ++ nseq no i).

(** One step of the main thread of the master.  [save] tells whether the time for a periodic save has come
    (/repo/src/worker_pool/mpi.hh:77-82).  To receive, it waits for an answer with the tag it asks for.  Sending a
    block and adding it to assigned_blocks is one step, as is sending the configuration or the shutdown to all
    processes: nothing else the master does comes between, and a process that has not received a message yet may
    be one that has not been scheduled. *)
Definition master_step (s : mstate) (save : bool) : res mstate :=
  let n := size (m_nodes s) in
  match m_pc s with
  | QNext =>
      match m_prog s with
      | [::] => Ok s
      | CConfig d c :: cs => Ok (mgoto (mset_prog s cs) (QFin 0 (FromWait (AfterConfig d c))))
      | CAssign b :: cs => Ok (mgoto (mset_prog s cs) (QDelay b))
      | CDestroy :: cs => Ok (mgoto (mset_prog s cs) (QFin 0 (FromWait AfterDestroy)))
      end
  | QDelay b => Ok (mgoto s (if save then QSave 0 (AfterDelay b) else QContains b))
  | QContains b =>
      if m_store s is Some (_, r) then
        Ok (mgoto s (if os_mem block_lt r b then QNext
                     else if m_ocl s is [::] then QFin 0 (FromFill b) else QHand b))
      else Undef
  | QFin ix k =>
      if ix == 0 then
        let w := get_node s 0 in
        let: (p, bs) := flush_finished (n_proc w) in
        s <- foldM (mfinished 0) (set_node s 0 (nset_proc w p)) bs ;;
        Ok (mgoto s (QFin 1 k))
      else if ix < n then Ok (mgoto (set_node s ix (post MFinished (get_node s ix))) (QFinRecv ix k))
      else Ok (mgoto s (match k with FromFill b => QReady 0 b | FromWait a => QCheck a end))
  | QFinRecv ix k =>
      let w := get_node s ix in
      if n_out w is RFinished bs :: out then
        s <- foldM (mfinished ix) (set_node s ix (nset_out w out)) bs ;;
        Ok (mgoto s (QFin ix.+1 k))
      else Ok s
  | QReady ix b =>
      if ix == 0 then
        let w := get_node s 0 in
        let: (p, (nc, no)) := flush_ready (n_proc w) in
        Ok (mgoto (queue_up 0 nc no (set_node s 0 (nset_proc w p))) (QReady 1 b))
      else if ix < n then Ok (mgoto (set_node s ix (post MReady (get_node s ix))) (QReadyRecv ix b))
      else Ok (mgoto s (QIdle b))
  | QReadyRecv ix b =>
      let w := get_node s ix in
      if n_out w is RReady nc no :: out then
        Ok (mgoto (queue_up ix nc no (set_node s ix (nset_out w out))) (QReady ix.+1 b))
      else Ok s
  | QIdle b => Ok (mgoto s (if nilp (m_cpu s) && nilp (m_ocl s) then QFin 0 (FromFill b) else QHand b))
  | QHand b =>
      qs <- match m_ocl s, m_cpu s with
            | i :: ocl, _ => Ok (true, i, mset_ocl s ocl)
            | [::], i :: cpu => Ok (false, i, mset_cpu s cpu)
            | [::], [::] => Undef
            end ;;
      let: (opencl, i, s) := qs in
      let s := mset_handed s (rcons (m_handed s) (i, (m_dir s, b))) in
      let w := get_node s i in
      if i == 0 then
        pt <- pool_assign (n_proc w) b opencl ;;
        Ok (mgoto (set_node s 0 (nset_proc w pt.1)) (QNotify pt.2 b))
      else Ok (mgoto (minsert i b (set_node s i (post (MAssign opencl b) w))) QNext)
  | QNotify t b =>
      let w := get_node s 0 in
      Ok (mgoto (minsert 0 b (set_node s 0 (nset_proc w (notify (n_proc w) t)))) QNext)
  | QCheck k => Ok (mgoto s (if all (fun bs => nilp bs) (m_asg s) then QSave 0 k else QFin 0 (FromWait k)))
  | QSave ix k =>
      if ix == 0 then
        if m_store s is Some _ then
          let w := get_node s 0 in
          let: (p, (r, st)) := flush_global (n_proc w) in
          Ok (mgoto (set_node s 0 (nset_proc w p)) (QWriteStore 0 k r st))
        else Ok (mgoto s (QAfter k))
      else if ix < n then Ok (mgoto (set_node s ix (post MSave (get_node s ix))) (QSaveRecv ix k))
      else Ok (mgoto s (QAfter k))
  | QSaveRecv ix k =>
      let w := get_node s ix in
      if n_out w is RSave r st :: out then
        Ok (mgoto (set_node s ix (nset_out w out)) (QWriteStore ix k r st))
      else Ok s
  | QWriteStore ix k r st =>
      Ok (mgoto (mset_files s (rcons (m_files s) (File (m_dir s) st None))) (QWriteRecord ix k r))
  | QWriteRecord ix k r =>
      let s := mset_saved s (m_saved s ++ [seq (ix, (m_dir s, b)) | b <- r]) in
      Ok (mgoto (mset_files s (complete_last (m_files s) r)) (QSave ix.+1 k))
  | QAfter (AfterDelay b) => Ok (mgoto s (QContains b))
  | QAfter (AfterConfig d c) =>
      let s := mset_store s (Some (d, read_records (m_files s) d)) in
      let w := get_node s 0 in
      Ok (mgoto (mset_nodes s (nset_proc w (set_config (n_proc w) (Some c)) ::
                               [seq post (MConfig c) w | w <- behead (m_nodes s)])) QNext)
  | QAfter AfterDestroy =>
      Ok (mgoto (mset_nodes s (get_node s 0 :: [seq post MShutdown w | w <- behead (m_nodes s)])) (QShut 0))
  | QShut t =>
      let w := get_node s 0 in
      if t < size (p_threads (n_proc w)) then
        Ok (mgoto (set_node s 0 (nset_proc w (set_shutdown (n_proc w) t))) (QShutNotify t))
      else Ok (mgoto s QDone)
  | QShutNotify t =>
      let w := get_node s 0 in
      Ok (mgoto (set_node s 0 (nset_proc w (notify (n_proc w) t))) (QJoin t))
  | QJoin t =>
      Ok (if t_phase (nth thread0 (p_threads (n_proc (get_node s 0))) t) is TExit then mgoto s (QShut t.+1) else s)
  | QDone => Ok s
  end.

(** The choice of the scheduler (no counterpart in /repo): the main thread of the master, the main thread of worker process [i], a thread of a process; or
    a thread wakes up spuriously. *)
Inductive maction := AMaster of bool | ANode of nat | AStep of nat & nat | AWake of nat & nat.

Section Run.
Variable contrib : nat -> block -> store.

(** One action; see [master_step], [node_step] and, for the threads, Pool.v (/repo/src/threaded/thread.cc). *)
Definition mstep (s : mstate) (a : maction) : res mstate :=
  match a with
  | AMaster save => master_step s save
  | ANode i =>
      if (0 < i) && (i < size (m_nodes s)) then w <- node_step (get_node s i) ;; Ok (set_node s i w) else Ok s
  | AStep i t =>
      if i < size (m_nodes s) then
        p <- thread_step contrib (n_proc (get_node s i)) t ;; Ok (set_node s i (nset_proc (get_node s i) p))
      else Ok s
  | AWake i t =>
      if i < size (m_nodes s) then
        Ok (set_node s i (nset_proc (get_node s i) (wake (n_proc (get_node s i)) t)))
      else Ok s
  end.

(** An execution: the state after the given actions (no counterpart in /repo). *)
Definition mrun (s : mstate) (acts : seq maction) : res mstate := foldM mstep s acts.
End Run.

(** The state when the pools have been constructed (/repo/src/executables/mpi.cc:139-142 in the master,
    /repo/src/worker_pool/mpi_worker.cc:40-47 in the other processes), with the kinds of the threads of each process, the
    files that are on disk and the calls to come. *)
Definition mstart (kinds : seq (seq bool)) (fs : seq file) (cs : seq cmd) : mstate :=
  MState [seq Node (spark k) [::] [::] NProbe | k <- kinds] [::] [::] [::] None fs QNext cs [::] [::] [::].
