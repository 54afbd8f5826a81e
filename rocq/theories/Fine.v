(** The process of Pool.v and Standalone.v with critical sections taken apart: locking a mutex,
    every single access to the data it protects and unlocking it are steps of their own, and the steps of the other
    threads come in between.  An access to such data by a thread that does not hold the mutex is a data race,
    hence [Undef]; so are locking a mutex that the thread holds itself and unlocking one it does not hold.

    The mutexes are ThreadPool::data_mutex (/repo/src/threaded/thread_pool.hh:71), Thread::data_mutex
    of every thread (/repo/src/threaded/thread.hh:85) and Store::static_mutex (/repo/src/store/store.hh:132).
    Thread::main_mutex is locked by no one but the thread itself and is left out.

    Memory is the state of Standalone.v: ThreadPool::data_mutex protects [p_idle], [p_ready], [p_busy] and
    [p_finished], Thread::data_mutex of a thread its [t_queue] and [t_shut], Store::static_mutex [p_shared].
    The remaining fields are used by the main thread only, or are positions of threads. *)
Set Warnings "-notation-overridden,-ambiguous-paths".
From mathcomp Require Import all_ssreflect.
From Verif Require Import Res OMap Store Pool Standalone.

Set Implicit Arguments.
Unset Strict Implicit.
Unset Printing Implicit Defensive.

(** Who runs: [None] is the main thread, [Some t] the thread number [t] of the pool (no counterpart in /repo). *)
Definition actor := option nat.

(** Position of a thread within a critical section, with its local variables; [MNone] if in none.
    - [MTest*]: /repo/src/threaded/thread.cc:61-64, at lines 62, 63 and 64;
    - [MPop*]: /repo/src/threaded/thread.cc:80-84, at lines 82, 83 and 84;
    - [MFlush*]: Store::flush_to_static_store, /repo/src/store/store.cc:79-90, at line 81, and at line 83 before the entry
      of the worker's table with the given number;
    - [MFin*]: ThreadPool::finished_block, /repo/src/threaded/thread_pool.cc:125-136, at lines 127, 133, 134, 135, 136. *)
Inductive tmicro :=
  | MNone
  | MTest0 | MTest1 of bool | MTest2 of bool & bool
  | MPop0 | MPop1 of block * option nat | MPop2 of block * option nat
  | MFlush0 | MFlush1 of nat
  | MFin0 | MFin1 of nat | MFin2 | MFin3 | MFin4.

(** Position of the main thread within a critical section.
    - [NFin*]: ThreadPool::flush_finished_blocks, /repo/src/threaded/thread_pool.cc:168-170: before the vector is
      read, before it is emptied, before unlocking;
    - [NReady*]: ThreadPool::flush_ready_threads, /repo/src/threaded/thread_pool.cc:142-162, at line 147 before the
      entry with the given number, with the two counters; before unlocking;
    - [NAssign*]: ThreadPool::assign with Thread::assign, /repo/src/threaded/thread_pool.cc:98-117 and
      /repo/src/threaded/thread.cc:127-131: at lines 101; 110; /repo/src/threaded/thread.cc:127; 128; 129; 131; before unlocking;
    - [NGlob*]: Store::flush_static_store, /repo/src/store/store.cc:100-111, at lines 103, 104, 107, 108, 110;
    - [NShut*]: Thread::shutdown, /repo/src/threaded/thread.cc:42-44, at lines 43 and 44. *)
Inductive mmicro :=
  | NNone
  | NFin0 | NFin1 of seq block | NFin2 of seq block
  | NReady of nat & nat & nat | NReadyEnd of nat & nat
  | NAssign0 | NAssign1 of nat | NAssign2 of nat | NAssign3 of nat | NAssign4 of nat | NAssign5 | NAssign6
  | NGlob0 | NGlob1 of seq block | NGlob2 of seq block | NGlob3 of seq block & store | NGlob4 of seq block & store
  | NShut0 | NShut1.

(** Memory and positions, the holders (/repo/src/threaded/thread_pool.hh:71, /repo/src/threaded/thread.hh:85,
    /repo/src/store/store.hh:132) of the mutexes (pool, shared store, and one for every thread), and the
    positions within critical sections. *)
Record fstate := FState
  { f_st : state; f_pool : option actor; f_static : option actor; f_data : seq (option actor);
    f_main : mmicro; f_thr : seq tmicro }.

(** Updates of single fields (no counterpart in /repo). *)
Definition fset_st f x := FState x (f_pool f) (f_static f) (f_data f) (f_main f) (f_thr f).
Definition fset_pool f x := FState (f_st f) x (f_static f) (f_data f) (f_main f) (f_thr f).
Definition fset_static f x := FState (f_st f) (f_pool f) x (f_data f) (f_main f) (f_thr f).
Definition fset_data f t x := FState (f_st f) (f_pool f) (f_static f) (set_nth None (f_data f) t x) (f_main f) (f_thr f).
Definition fset_main f x := FState (f_st f) (f_pool f) (f_static f) (f_data f) x (f_thr f).
Definition fset_thr f t x := FState (f_st f) (f_pool f) (f_static f) (f_data f) (f_main f) (set_nth MNone (f_thr f) t x).
Definition fset_proc f p := fset_st f (with_proc (f_st f) p).
Definition f_proc f := s_proc (f_st f).

(** [lock()] and the constructor of [unique_lock], e.g. /repo/src/threaded/thread.cc:61 and
    /repo/src/threaded/thread_pool.cc:98: if the mutex is free, the thread gets it and continues
    ([next]); if another thread holds it, nothing happens and the thread will try again. *)
Definition acquire (f : fstate) (holder : option actor) (me : actor) (next : fstate) : res fstate :=
  if holder is Some a then (if a == me then Undef else Ok f) else Ok next.

(** An access to protected data and [unlock()], e.g. /repo/src/threaded/thread.cc:62-64: the thread must hold the mutex. *)
Definition owning (holder : option actor) (me : actor) (k : res fstate) : res fstate :=
  if holder == Some me then k else Undef.

(** The rest of StandaloneWorkerPool::flush_finished_blocks, /repo/src/worker_pool/standalone.cc:125-126, and what follows it
    at lines 107-109 and 152-157; it works on members of the main thread only. *)
Definition after_finished (s : state) (bs : seq block) : res state :=
  s <- foldM finished_block s bs ;;
  Ok (match s_pc s with
      | PFillFinished b => goto s (PFillReady b)
      | PWait k => goto s (if assigned s is [::] then PSave k else PWait k)
      | _ => s
      end).

(** The rest of fill_idle_queues, /repo/src/worker_pool/standalone.cc:110-116. *)
Definition after_ready (s : state) (c o : nat) : state :=
  let s := with_nocl (with_ncpu s (ncpu s + c)) (nocl s + o) in
  if s_pc s is PFillReady b then
    goto s (if (ncpu s == 0) && (nocl s == 0) then PFillFinished b else PHand b)
  else s.

(** The block that is assigned, at /repo/src/worker_pool/standalone.cc:88-95; [[::]] elsewhere. *)
Definition hand_block (s : state) : block := if s_pc s is PHand b then b else [::].

(** StandaloneWorkerPool::assign, /repo/src/worker_pool/standalone.cc:88-95, as far as members of the main thread are
    concerned; in the code the counter is decremented just before the call of ThreadPool::assign. *)
Definition after_push (s : state) (t : nat) : state :=
  let b := hand_block s in
  let s := if nocl s != 0 then with_nocl s (nocl s).-1 else with_ncpu s (ncpu s).-1 in
  goto (with_handed s (rcons (handed s) (cur_dir s, b))) (PNotify t b).

(** One step of the main thread, /repo/src/worker_pool/standalone.cc.  Outside of critical sections it is that of Standalone.v. *)
Definition fmain (f : fstate) (save : bool) : res fstate :=
  let s := f_st f in
  let p := f_proc f in
  let coarse := s <- main_step s save ;; Ok (fset_st f s) in
  let pool := owning (f_pool f) None in
  let static := owning (f_static f) None in
  let data t := owning (nth None (f_data f) t) None in
  match f_main f with
  | NNone =>
      match s_pc s with
      | PFillFinished _ | PWait _ => acquire f (f_pool f) None (fset_main (fset_pool f (Some None)) NFin0)
      | PFillReady _ => acquire f (f_pool f) None (fset_main (fset_pool f (Some None)) (NReady 0 0 0))
      | PHand _ =>
          if (nocl s == 0) && (ncpu s == 0) then Undef
          else acquire f (f_pool f) None (fset_main (fset_pool f (Some None)) NAssign0)
      | PSave _ =>
          if file_store s is Some _ then
            acquire f (f_static f) None (fset_main (fset_static f (Some None)) NGlob0)
          else coarse
      | PShut t =>
          if t < size (p_threads p) then
            acquire f (nth None (f_data f) t) None (fset_main (fset_data f t (Some None)) NShut0)
          else coarse
      | _ => coarse
      end
  | NFin0 => pool (Ok (fset_main f (NFin1 (p_finished p))))
  | NFin1 bs => pool (Ok (fset_main (fset_proc f (set_finished p [::])) (NFin2 bs)))
  | NFin2 bs =>
      pool (s <- after_finished s bs ;; Ok (fset_main (fset_st (fset_pool f None) s) NNone))
  | NReady i c o =>
      pool (if i < size (p_ready p) then
              let t := nth 0 (p_ready p) i in
              if t_opencl (nth thread0 (p_threads p) t)
              then Ok (fset_main (fset_proc f (set_idle p (t :: p_idle p))) (NReady i.+1 c o.+1))
              else Ok (fset_main (fset_proc f (set_idle p (rcons (p_idle p) t))) (NReady i.+1 c.+1 o))
            else Ok (fset_main (fset_proc f (set_ready p [::])) (NReadyEnd c o)))
  | NReadyEnd c o => pool (Ok (fset_main (fset_st (fset_pool f None) (after_ready s c o)) NNone))
  | NAssign0 =>
      pool (if p_idle p is t0 :: idle then
              if nocl s != 0 then Ok (fset_main (fset_proc f (set_idle p idle)) (NAssign1 t0))
              else Ok (fset_main (fset_proc f (set_idle p (rev (behead (rev (p_idle p))))))
                                 (NAssign1 (last t0 (p_idle p))))
            else Undef)
  | NAssign1 t =>
      thr <- vget (p_threads p) t ;;
      if (nocl s != 0) != t_opencl thr then Term
      else pool (Ok (fset_main (fset_proc f (set_busy p (om_set block_lt (p_busy p) (hand_block s) t))) (NAssign2 t)))
  | NAssign2 t => acquire f (nth None (f_data f) t) None (fset_main (fset_data f t (Some None)) (NAssign3 t))
  | NAssign3 t =>
      let thr := nth thread0 (p_threads p) t in
      data t (Ok (fset_main (fset_proc f (upd p t (Thread (t_opencl thr) (rcons (t_queue thr) (hand_block s, p_config p))
                                                          (t_phase thr) (t_shut thr)))) (NAssign4 t)))
  | NAssign4 t => data t (Ok (fset_main (fset_st (fset_data f t None) (after_push s t)) NAssign5))
  | NAssign5 => s <- main_step s save ;; Ok (fset_main (fset_st f s) NAssign6)
  | NAssign6 => pool (Ok (fset_main (fset_pool f None) NNone))
  | NGlob0 => static (Ok (fset_main f (NGlob1 (sh_record (p_shared p)))))
  | NGlob1 r => static (Ok (fset_main (fset_proc f (set_shared p (Shared [::] (sh_store (p_shared p))))) (NGlob2 r)))
  | NGlob2 r => static (Ok (fset_main f (NGlob3 r (sh_store (p_shared p)))))
  | NGlob3 r st => static (Ok (fset_main (fset_proc f (set_shared p (Shared (sh_record (p_shared p)) [::]))) (NGlob4 r st)))
  | NGlob4 r st =>
      static (Ok (fset_main (fset_st (fset_static f None) (if s_pc s is PSave k then goto s (PWriteStore k r st) else s))
                            NNone))
  | NShut0 =>
      if s_pc s is PShut t then data t (Ok (fset_main (fset_proc f (set_shutdown p t)) NShut1)) else Undef
  | NShut1 =>
      if s_pc s is PShut t then data t (Ok (fset_main (fset_st (fset_data f t None) (goto s (PShutNotify t))) NNone))
      else Undef
  end.

Section Steps.
(** What the loop of /repo/src/threaded/thread.cc:87-92 computes for a block with given tables. *)
Variable contrib : nat -> block -> store.

(** The table of the worker at /repo/src/threaded/thread.cc:93. *)
Definition work_store (ph : phase) : store := if ph is TWork b (Some c) then contrib c b else [::].
(** The variable [block] of /repo/src/threaded/thread.cc:76. *)
Definition work_block (ph : phase) : block := match ph with TWork b _ | TFlushed b => b | _ => [::] end.

(** One step of thread [t] in Thread::main_thread, /repo/src/threaded/thread.cc:50-106. *)
Definition fthread (f : fstate) (t : nat) : res fstate :=
  let p := f_proc f in
  let thr := nth thread0 (p_threads p) t in
  let ph := t_phase thr in
  let me := Some t : actor in
  let micro m := fset_thr f t m in
  let pool := owning (f_pool f) me in
  let static := owning (f_static f) me in
  let data := owning (nth None (f_data f) t) me in
  (* leave the critical section and go on in Thread::main_thread *)
  let leave f q ph :=
    fset_thr (fset_proc f (upd (f_proc f) t (Thread (t_opencl thr) q ph (t_shut thr)))) t MNone in
  if t < size (p_threads p) then
    match nth MNone (f_thr f) t with
    | MNone =>
        match ph with
        | TTest => acquire f (nth None (f_data f) t) me (fset_thr (fset_data f t (Some me)) t MTest0)
        | TPop => acquire f (nth None (f_data f) t) me (fset_thr (fset_data f t (Some me)) t MPop0)
        | TWork _ (Some _) => acquire f (f_static f) me (fset_thr (fset_static f (Some me)) t MFlush0)
        | TWork _ None => Undef
        | TFlushed _ => acquire f (f_pool f) me (fset_thr (fset_pool f (Some me)) t MFin0)
        | TPreWait | TWait | TExit => p <- thread_step contrib p t ;; Ok (fset_proc f p)
        end
    | MTest0 => data (Ok (micro (MTest1 (t_shut thr))))
    | MTest1 shut => data (Ok (micro (MTest2 shut (nilp (t_queue thr)))))
    | MTest2 shut empty =>
        data (Ok (leave (fset_data f t None) (t_queue thr) (if shut then TExit else if empty then TPreWait else TPop)))
    | MPop0 => data (if t_queue thr is x :: _ then Ok (micro (MPop1 x)) else Undef)
    | MPop1 x =>
        data (if t_queue thr is _ :: q then
                Ok (fset_thr (fset_proc f (upd p t (Thread (t_opencl thr) q ph (t_shut thr)))) t (MPop2 x))
              else Undef)
    | MPop2 (b, c) => data (Ok (leave (fset_data f t None) (t_queue thr) (TWork b c)))
    | MFlush0 =>
        static (Ok (fset_thr (fset_proc f (set_shared p
          (Shared (os_insert block_lt (sh_record (p_shared p)) (work_block ph)) (sh_store (p_shared p))))) t (MFlush1 0)))
    | MFlush1 i =>
        let st := work_store ph in
        static (if i < size st then
                  Ok (fset_thr (fset_proc f (set_shared p
                    (Shared (sh_record (p_shared p)) (merge_entry (sh_store (p_shared p)) (nth ([::], [::], 0) st i)))))
                    t (MFlush1 i.+1))
                else if ph is TWork b c then
                  let f := leave (fset_static f None) (t_queue thr) (TFlushed b) in
                  Ok (fset_proc f (set_done (f_proc f) (rcons (p_done p) (b, c))))
                else Undef)
    | MFin0 => pool (if om_find block_lt (p_busy p) (work_block ph) is Some t' then Ok (micro (MFin1 t')) else Term)
    | MFin1 t' => pool (Ok (fset_thr (fset_proc f (set_ready p (rcons (p_ready p) t'))) t MFin2))
    | MFin2 => pool (Ok (fset_thr (fset_proc f (set_finished p (rcons (p_finished p) (work_block ph)))) t MFin3))
    | MFin3 => pool (Ok (fset_thr (fset_proc f (set_busy p (om_erase block_lt (p_busy p) (work_block ph)))) t MFin4))
    | MFin4 => pool (Ok (leave (fset_pool f None) (t_queue thr) TTest))
    end
  else Ok f.

(** One step of the given thread; the actions are those of Standalone.v (no counterpart in /repo). *)
Definition fstep (f : fstate) (a : action) : res fstate :=
  match a with
  | Main save => fmain f save
  | Step t => fthread f t
  | Wake t => Ok (fset_proc f (wake (f_proc f) t))
  end.

(** An execution: the state after the given steps (no counterpart in /repo). *)
Definition frun (f : fstate) (acts : seq action) : res fstate := foldM fstep f acts.
End Steps.

(** The state when /repo/src/executables/threaded.cc:131-134 has constructed the pool: as in Standalone.v, with all
    mutexes free. *)
Definition fstart (kinds : seq bool) (fs : seq file) (cs : seq cmd) : fstate :=
  FState (start kinds fs cs) None None (nseq (size kinds) None) NNone (nseq (size kinds) MNone).
