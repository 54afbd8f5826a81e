(** Specification vocabulary for the MPI worker pool. *)
Set Warnings "-notation-overridden,-ambiguous-paths".
From mathcomp Require Import all_ssreflect.
From Verif Require Import Res OMap Store StoreSpec Pool Standalone StandaloneSpec Mpi.

Set Implicit Arguments.
Unset Strict Implicit.
Unset Printing Implicit Defensive.

(** The observations of one process, and those of all processes. *)
Definition of_proc (l : seq (nat * (nat * block))) (i : nat) : seq (nat * block) := [seq x.2 | x <- l & x.1 == i].
Definition of_all (l : seq (nat * (nat * block))) : seq (nat * block) := [seq x.2 | x <- l].

(** The blocks of a directory that were given to a process, that it reported, and that were written to a record file
    from it; the blocks that were given to any process. *)
Definition given (s : mstate) (i d : nat) : seq block := at_dir (of_proc (m_handed s) i) d.
Definition reported_by (s : mstate) (i d : nat) : seq block := at_dir (of_proc (m_reported s) i) d.
Definition saved_from (s : mstate) (i d : nat) : seq block := at_dir (of_proc (m_saved s) i) d.
Definition given_any (s : mstate) (d : nat) : seq block := at_dir (of_all (m_handed s)) d.

(** The blocks whose results a process added to its shared store with given parameters. *)
Definition computed (s : mstate) (i c : nat) : seq block := done_at (n_proc (get_node s i)) c.
Definition computed_any (s : mstate) (c : nat) : seq block :=
  flatten [seq computed s i c | i <- iota 0 (size (m_nodes s))].

(** The blocks of a directory that are done but not in a record file yet: those of a save in progress, those on the
    way to the master, and those of the shared stores. *)
Definition in_replies (out : seq reply) : seq block := flatten [seq (if r is RSave bs _ then bs else [::]) | r <- out].
Definition in_save (x : mpc) : seq block := match x with QWriteStore _ _ r _ | QWriteRecord _ _ r => r | _ => [::] end.
Definition munsaved (s : mstate) (d : nat) : seq block :=
  if m_dir s == d then
    in_save (m_pc s) ++ flatten [seq in_replies (n_out w) ++ sh_record (p_shared (n_proc w)) | w <- m_nodes s]
  else [::].

(** The files written by an execution that found the files [fs]. *)
Definition mnew_files (fs : seq file) (s : mstate) : seq file := drop (size fs) (m_files s).

(** The configuration of a job was left: update_config for one of the later jobs has returned, or the
    destructor. *)
Definition mleft (s : mstate) (later : seq job) : Prop :=
  m_pc s = QDone \/ if m_store s is Some (d, _) then d \in [seq j.1.1 | j <- later] else False.

(** The files that can be on disk when runs of the same jobs were killed one after the other, each with the standalone
    program or with the MPI program and its own threads and processes, starting without files. *)
Inductive any_history (contrib : nat -> block -> store) (jobs : seq job) : seq file -> Prop :=
  | AnyStart : any_history contrib jobs [::]
  | AnyRun fs kinds acts s : any_history contrib jobs fs ->
      run contrib (start kinds fs (main_program jobs)) acts = Ok s -> any_history contrib jobs (files s)
  | AnyMpi fs kinds acts s : any_history contrib jobs fs -> 0 < size kinds ->
      mrun contrib (mstart kinds fs (main_program jobs)) acts = Ok s -> any_history contrib jobs (m_files s).

(** Which part of the program an action runs. *)
Definition runs_master (a : maction) : bool := if a is AMaster _ then true else false.
Definition runs_worker (i : nat) (a : maction) : bool := if a is ANode j then j == i else false.
Definition runs_thread (i t : nat) (a : maction) : bool := if a is AStep j u then (j == i) && (u == t) else false.
Definition wakes_thread (i t : nat) (a : maction) : bool := if a is AWake j u then (j == i) && (u == t) else false.

(** A round: the main thread of every process runs, and every thread of every process runs and is woken, at least once
    and in any order. *)
Definition mfull_round (kinds : seq (seq bool)) (acts : seq maction) : bool :=
  has runs_master acts &&
  all (fun i => ((i == 0) || has (runs_worker i) acts) &&
                all (fun t => has (runs_thread i t) acts && has (wakes_thread i t) acts) (iota 0 (size (nth [::] kinds i))))
      (iota 0 (size kinds)).

(** A round without spurious wakeups: the main thread of every process and every thread of every process runs at least
    once. *)
Definition spurious (a : maction) : bool := if a is AWake _ _ then true else false.
Definition mplain_round (kinds : seq (seq bool)) (acts : seq maction) : bool :=
  [&& has runs_master acts, ~~ has spurious acts &
   all (fun i => ((i == 0) || has (runs_worker i) acts) &&
                 all (fun t => has (runs_thread i t) acts) (iota 0 (size (nth [::] kinds i)))) (iota 0 (size kinds))].

(** All processes have returned from their main functions. *)
Definition mended (s : mstate) : Prop :=
  m_pc s = QDone /\ forall i, 0 < i < size (m_nodes s) -> n_pc (get_node s i) = NDone.

(** The thread that the main thread of a process is about to notify. *)
Definition mnotify (x : mpc) : option nat := match x with QNotify t _ | QShutNotify t => Some t | _ => None end.
Definition nnotify (x : npc) : option nat := match x with NNotify t | NShutNotify t => Some t | _ => None end.
Definition notif_at (s : mstate) (i : nat) : option nat :=
  if i == 0 then mnotify (m_pc s) else nnotify (n_pc (get_node s i)).

(** A thread that waits although it has a block to compute or is to return, and that the main thread of its process
    is not about to notify. *)
Definition mstranded (s : mstate) (i t : nat) : Prop :=
  let ts := p_threads (n_proc (get_node s i)) in let thr := nth thread0 ts t in
  i < size (m_nodes s) /\
  [/\ t < size ts, t_phase thr = TWait, t_queue thr <> [::] \/ t_shut thr = true & notif_at s i <> Some t].
