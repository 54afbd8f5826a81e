(** Model of one process: the worker threads of /repo/src/threaded/thread.cc, the ThreadPool of
    /repo/src/threaded/thread_pool.cc and the shared store of /repo/src/store/store.cc.

    Threads interleave arbitrarily between the critical sections; each critical section (a lock of
    Thread::data_mutex, ThreadPool::data_mutex or Store::static_mutex) is one step.  What a worker
    computes for a block between taking it from its queue and adding the result to the shared
    store is given by [contrib]; parameters (the tables of Thread::update_config,
    /repo/src/threaded/thread.cc:108-119) are numbered. *)
Set Warnings "-notation-overridden,-ambiguous-paths".
From mathcomp Require Import all_ssreflect.
From Verif Require Import Res OMap Store.

Set Implicit Arguments.
Unset Strict Implicit.
Unset Printing Implicit Defensive.

(** Position of a thread in Thread::main_thread, /repo/src/threaded/thread.cc:50-106:
    before the test of lines 61-64; between that test and the wait of line 70; waiting; before
    lines 80-84; before line 93 with a block and its tables; before line 98; returned. *)
Inductive phase := TTest | TPreWait | TWait | TPop | TWork of block & option nat | TFlushed of block | TExit.

(** Thread, /repo/src/threaded/thread.hh: is_opencl_thread, blocks with the tables they were assigned with,
    position, shutting_down. *)
Record thread := Thread
  { t_opencl : bool; t_queue : seq (block * option nat); t_phase : phase; t_shut : bool }.

(** ThreadPool, /repo/src/threaded/thread_pool.hh:68-78, with the static members of Store.  Threads are
    numbered by their position in [threads].  [p_config] stands for the tables held by the threads,
    which are the same for all of them (/repo/src/threaded/thread_pool.cc:81-89); [None] if there are none yet.
    [p_done] records the results added to the shared store; it is an observation and is never
    read. *)
Record proc := Proc
  { p_threads : seq thread; p_idle : seq nat; p_ready : seq nat; p_busy : seq (block * nat);
    p_finished : seq block; p_shared : shared; p_config : option nat; p_done : seq (block * option nat) }.

(** Updates of single fields (no counterpart in /repo). *)
Definition set_threads p x := Proc x (p_idle p) (p_ready p) (p_busy p) (p_finished p) (p_shared p) (p_config p) (p_done p).
Definition set_idle p x := Proc (p_threads p) x (p_ready p) (p_busy p) (p_finished p) (p_shared p) (p_config p) (p_done p).
Definition set_ready p x := Proc (p_threads p) (p_idle p) x (p_busy p) (p_finished p) (p_shared p) (p_config p) (p_done p).
Definition set_busy p x := Proc (p_threads p) (p_idle p) (p_ready p) x (p_finished p) (p_shared p) (p_config p) (p_done p).
Definition set_finished p x := Proc (p_threads p) (p_idle p) (p_ready p) (p_busy p) x (p_shared p) (p_config p) (p_done p).
Definition set_shared p x := Proc (p_threads p) (p_idle p) (p_ready p) (p_busy p) (p_finished p) x (p_config p) (p_done p).
Definition set_config p x := Proc (p_threads p) (p_idle p) (p_ready p) (p_busy p) (p_finished p) (p_shared p) x (p_done p).
Definition set_done p x := Proc (p_threads p) (p_idle p) (p_ready p) (p_busy p) (p_finished p) (p_shared p) (p_config p) x.

(** A thread that does not exist, only for the defaults of [nth], and the update of one thread (no counterpart in /repo). *)
Definition thread0 := Thread false [::] TExit false.
Definition upd (p : proc) (t : nat) (x : thread) : proc := set_threads p (set_nth thread0 (p_threads p) t x).

(** ThreadPool::spark_threads, /repo/src/threaded/thread_pool.cc:35-70: the kinds of the threads (true for
    OpenCL) in order, given the number of OpenCL devices and of hardware threads; [nmb] is the
    argument nmb_working_threads, [None] if negative.  ([spark], /repo/src/threaded/thread.cc:30-36.) *)
Definition spark_kinds (devices hardware : nat) (nmb : option nat) (per_gpu : nat) : seq bool :=
  let gpu := nseq (devices * per_gpu) true in
  let nmb := if nmb is Some n then n else hardware in
  gpu ++ nseq (nmb - size gpu %/ 8) false.
Definition spark (kinds : seq bool) : proc :=
  Proc [seq Thread k [::] TTest false | k <- kinds] [::] (iota 0 (size kinds)) [::] [::] shared_empty None [::].

(** ThreadPool::assign, /repo/src/threaded/thread_pool.cc:91-117, with Thread::assign, /repo/src/threaded/thread.cc:121-129,
    up to the notification; the result names the thread to be notified. *)
Definition pool_assign (p : proc) (b : block) (opencl : bool) : res (proc * nat) :=
  let idle := p_idle p in
  if idle is t0 :: _ then
    let: (t, idle') := if opencl then (t0, behead idle)
                       else (last t0 idle, rev (behead (rev idle))) in
    thr <- vget (p_threads p) t ;;
    if opencl != t_opencl thr then Term
    else
      let p := set_idle p idle' in
      let p := set_busy p (om_set block_lt (p_busy p) b t) in
      Ok (upd p t (Thread (t_opencl thr) (rcons (t_queue thr) (b, p_config p)) (t_phase thr) (t_shut thr)), t)
  else Undef.

(** [main_cond_var.notify_one()] and [notify_all()], /repo/src/threaded/thread.cc:46,131: at most one thread
    waits on the condition variable. *)
Definition notify (p : proc) (t : nat) : proc :=
  let thr := nth thread0 (p_threads p) t in
  if t_phase thr is TWait then upd p t (Thread (t_opencl thr) (t_queue thr) TTest (t_shut thr)) else p.

(** ThreadPool::finished_block, /repo/src/threaded/thread_pool.cc:119-136. *)
Definition pool_finished (p : proc) (b : block) : res proc :=
  if om_find block_lt (p_busy p) b is Some t then
    let p := set_ready p (rcons (p_ready p) t) in
    let p := set_finished p (rcons (p_finished p) b) in
    Ok (set_busy p (om_erase block_lt (p_busy p) b))
  else Term.

(** ThreadPool::flush_ready_threads, /repo/src/threaded/thread_pool.cc:138-162; the result is
    (process, number of CPU threads, number of OpenCL threads). *)
Definition flush_ready_step (ts : seq thread) (x : seq nat * (nat * nat)) (t : nat) : seq nat * (nat * nat) :=
  let: (idle, (ncpu, nocl)) := x in
  if t_opencl (nth thread0 ts t) then (t :: idle, (ncpu, nocl.+1)) else (rcons idle t, (ncpu.+1, nocl)).
Definition flush_ready (p : proc) : proc * (nat * nat) :=
  let: (idle, n) := foldl (flush_ready_step (p_threads p)) (p_idle p, (0, 0)) (p_ready p) in
  (set_ready (set_idle p idle) [::], n).

(** ThreadPool::flush_finished_blocks, /repo/src/threaded/thread_pool.cc:164-170. *)
Definition flush_finished (p : proc) : proc * seq block := (set_finished p [::], p_finished p).

(** ThreadPool::flush_global_store, /repo/src/threaded/thread_pool.hh:61-66. *)
Definition flush_global (p : proc) : proc * (seq block * store) :=
  let: (out, sh) := flush_static (p_shared p) in (set_shared p sh, out).

(** Thread::shutdown, /repo/src/threaded/thread.cc:38-44. *)
Definition set_shutdown (p : proc) (t : nat) : proc :=
  let thr := nth thread0 (p_threads p) t in
  upd p t (Thread (t_opencl thr) (t_queue thr) (t_phase thr) true).

Section Steps.
(** What the loop of /repo/src/threaded/thread.cc:87-92 computes for a block with given tables. *)
Variable contrib : nat -> block -> store.

(** One step of thread [t] in Thread::main_thread, /repo/src/threaded/thread.cc:50-106.  A waiting thread makes
    no step of its own (see [notify] and [wake]), nor does one that has returned. *)
Definition thread_step (p : proc) (t : nat) : res proc :=
  let thr := nth thread0 (p_threads p) t in
  let goto ph := upd p t (Thread (t_opencl thr) (t_queue thr) ph (t_shut thr)) in
  if t < size (p_threads p) then
    match t_phase thr with
    | TTest =>
        if t_shut thr then Ok (goto TExit)
        else if t_queue thr is [::] then Ok (goto TPreWait) else Ok (goto TPop)
    | TPreWait => Ok (goto TWait)
    | TPop =>
        if t_queue thr is (b, c) :: q then
          Ok (upd p t (Thread (t_opencl thr) q (TWork b c) (t_shut thr)))
        else Undef
    | TWork b (Some c) =>
        let p := goto (TFlushed b) in
        Ok (set_done (set_shared p (flush_to_static (p_shared p) (contrib c b) b).1)
                     (rcons (p_done p) (b, Some c)))
    | TWork _ None => Undef
    | TFlushed b => pool_finished (goto TTest) b
    | TWait | TExit => Ok p
    end
  else Ok p.

(** A spurious wakeup, which the wait of /repo/src/threaded/thread.cc:70 allows at any time. *)
Definition wake (p : proc) (t : nat) : proc := notify p t.
End Steps.
