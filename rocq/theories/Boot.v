(** Model of the start of hycu-mpi: the processes before they have worker pools.
    /repo/src/executables/mpi.cc:53-57 and 139-142, /repo/src/worker_pool/mpi.cc:50-67 and 82-95,
    /repo/src/worker_pool/mpi_worker.cc:40-47.

    What MPI provides: the k-th broadcast of a process other than the master returns the value of the k-th broadcast
    of the master, and does not return before the master has called it; the master may or may not be held until the
    others have the value.  The initialisation of MPI (/repo/src/executables/mpi.cc:53-54) has taken place. *)
Set Warnings "-notation-overridden,-ambiguous-paths".
From mathcomp Require Import all_ssreflect ssralg ssrnum ssrint.
From Verif Require Import Res OMap Store Pool Standalone Mpi Worker Main.

Set Implicit Arguments.
Unset Strict Implicit.
Unset Printing Implicit Defensive.

(** The arguments of the constructor of MPIWorkerPool, /repo/src/executables/mpi.cc:139-142.  The store type is the number of
    an enumerator, 0 for EC (/repo/src/store/store_factory.hh:71); a negative number of threads is [None]. *)
Record arguments := Arguments { a_store : nat; a_threads : option nat; a_per_gpu : nat }.

(** What is broadcast, with its type, /repo/src/worker_pool/mpi.cc:92-94. *)
Inductive value := VStore of nat | VThreads of option nat | VPerGpu of nat.
Definition values (a : arguments) : seq value := [:: VStore (a_store a); VThreads (a_threads a); VPerGpu (a_per_gpu a)].

(** The variables of a process, /repo/src/worker_pool/mpi_worker.cc:40-42, [None] as long as they have no value; the
    number of broadcasts that have returned; the store type and the kinds of the threads of its pool. *)
Record locals := Locals
  { l_pos : nat; l_store : option nat; l_threads : option (option nat); l_per_gpu : option nat;
    l_pool : option (nat * seq bool) }.
Definition locals0 := Locals 0 None None None None.

(** Position of the master: in [main] before the pool (/repo/src/executables/mpi.cc:60-137); before and in the k-th broadcast
    (/repo/src/worker_pool/mpi.cc:92-94); before spark_threads (66); in the loop of [main]; returned. *)
Inductive mboot := BMain | BCast of nat | BHold of nat | BSpark | BRun | BBack of nat.

(** All processes of /repo/src/executables/mpi.cc; [b_sent] are the values broadcast so far. *)
Record bstate := BState { b_pos : mboot; b_sent : seq value; b_locals : seq locals; b_pools : mstate }.
(** Access and updates (no counterpart in /repo). *)
Definition get_locals (s : bstate) (i : nat) : locals := nth locals0 (b_locals s) i.
Definition set_locals (s : bstate) (i : nat) (l : locals) : bstate :=
  BState (b_pos s) (b_sent s) (set_nth locals0 (b_locals s) i l) (b_pools s).
Definition bgoto (s : bstate) (x : mboot) : bstate := BState x (b_sent s) (b_locals s) (b_pools s).
Definition set_pools (s : bstate) (x : mstate) : bstate := BState (b_pos s) (b_sent s) (b_locals s) x.

(** The k-th broadcast returns in a process other than the master, /repo/src/worker_pool/mpi.cc:92-94: the type must
    agree. *)
Definition receive (v : value) (l : locals) : res locals :=
  match l_pos l, v with
  | 0, VStore x => Ok (Locals 1 (Some x) (l_threads l) (l_per_gpu l) (l_pool l))
  | 1, VThreads x => Ok (Locals 2 (l_store l) (Some x) (l_per_gpu l) (l_pool l))
  | 2, VPerGpu x => Ok (Locals 3 (l_store l) (l_threads l) (Some x) (l_pool l))
  | _, _ => Undef
  end.

Section Boot.
Variable contrib : nat -> block -> store.
(** [waits]: the master is held in a broadcast until all processes have the value.  [machine i]: the numbers of OpenCL
    devices and of hardware threads of process [i].  [o]: what the command line and the files lead [main] to do. *)
Variables (waits : bool) (machine : nat -> nat * nat) (a : arguments) (o : outcome).

(** [make_shared<ThreadPool>(create_store_factory(store_type))] and spark_threads of process [i],
    /repo/src/worker_pool/mpi_worker.cc:46-47 and /repo/src/worker_pool/mpi.cc:64-66.  The use of a variable without a
    value is undefined; another store type throws (/repo/src/store/store_factory.hh:79-88). *)
Definition make_pool (s : bstate) (i : nat) : res bstate :=
  let l := get_locals s i in
  match l_store l, l_threads l, l_per_gpu l with
  | Some (S _), _, _ => Term
  | Some 0, Some t, Some g =>
      let k := spark_kinds (machine i).1 (machine i).2 t g in
      let m := b_pools s in
      Ok (set_locals (set_pools s (set_node m i (nset_proc (get_node m i) (spark k)))) i
           (Locals (l_pos l) (l_store l) (l_threads l) (l_per_gpu l) (Some (0, k))))
  | _, _, _ => Undef
  end.

(** One step of the master, /repo/src/executables/mpi.cc:60-137, /repo/src/worker_pool/mpi.cc:64-94. *)
Definition boot_master (s : bstate) (save : bool) : res bstate :=
  match b_pos s with
  | BMain => Ok (bgoto s (if o is Refused n then BBack n else BCast 0))
  | BCast k =>
      v <- vget (values a) k ;;
      Ok (BState (BHold k) (rcons (b_sent s) v) (b_locals s) (b_pools s))
  | BHold k =>
      Ok (if waits && has (fun l => l_pos l <= k) (behead (b_locals s)) then s
          else bgoto s (if k.+1 < size (values a) then BCast k.+1 else BSpark))
  | BSpark => s <- make_pool s 0 ;; Ok (bgoto s BRun)
  | BRun => m <- master_step (b_pools s) save ;; Ok (set_pools s m)
  | BBack _ => Ok s
  end.

(** One step of the main thread of another process, /repo/src/worker_pool/mpi_worker.cc:40-114. *)
Definition boot_worker (s : bstate) (i : nat) : res bstate :=
  let l := get_locals s i in
  if l_pos l < 3 then
    if l_pos l < size (b_sent s) then
      v <- vget (b_sent s) (l_pos l) ;; l <- receive v l ;; Ok (set_locals s i l)
    else Ok s
  else if l_pool l is None then make_pool s i
  else
    let m := b_pools s in
    w <- node_step (get_node m i) ;; Ok (set_pools s (set_node m i w)).

(** One action (no counterpart in /repo); threads exist when the pool of their process does. *)
Definition bstep (s : bstate) (x : maction) : res bstate :=
  let n := size (b_locals s) in
  match x with
  | AMaster save => boot_master s save
  | ANode i => if (0 < i) && (i < n) then boot_worker s i else Ok s
  | AStep i _ | AWake i _ =>
      if (i < n) && (l_pool (get_locals s i) != None) then m <- mstep contrib (b_pools s) x ;; Ok (set_pools s m) else Ok s
  end.

(** An execution (no counterpart in /repo). *)
Definition brun (s : bstate) (acts : seq maction) : res bstate := foldM bstep s acts.

(** [n] processes after the initialisation of MPI, /repo/src/executables/mpi.cc:60, with the files [fs] on disk.  The master has its arguments from the
    command line.  The calls of [main] are put down here already. *)
Definition bstart (n : nat) (fs : seq file) : bstate :=
  BState BMain [::]
    (Locals 3 (Some (a_store a)) (Some (a_threads a)) (Some (a_per_gpu a)) None :: nseq n.-1 locals0)
    (mstart (nseq n [::]) fs (if o is Ran _ calls _ then calls else [::])).
End Boot.
