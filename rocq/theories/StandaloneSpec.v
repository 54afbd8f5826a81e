(** Specification vocabulary for the worker pools: jobs, what the files of a directory record, and
    what a scheduler has seen. *)
Set Warnings "-notation-overridden,-ambiguous-paths".
From mathcomp Require Import all_ssreflect.
From Verif Require Import Res OMap Store StoreSpec Pool Standalone.

Set Implicit Arguments.
Unset Strict Implicit.
Unset Printing Implicit Defensive.

(** One configuration of the input file: result directory, parameters, blocks. *)
Definition job := (nat * nat * seq block)%type.

(** Result directories are different, parameters are numbered differently, and the blocks of each
    configuration are different and not empty. *)
Definition jobs_wf (jobs : seq job) : bool :=
  [&& uniq [seq j.1.1 | j <- jobs], uniq [seq j.1.2 | j <- jobs] &
      all (fun j => uniq j.2 && ([::] \notin j.2)) jobs].

(** The blocks in the record files of a directory, with multiplicity. *)
Definition recorded (fs : seq file) (d : nat) : seq block :=
  flatten [seq (if f_record f is Some r then r else [::]) | f <- fs & f_dir f == d].
(** The blocks of a job that are not recorded in the given files. *)
Definition remaining (fs : seq file) (j : job) : seq block :=
  [seq b <- j.2 | b \notin recorded fs j.1.1].

(** The blocks observed for a directory, and the blocks whose results were added to the shared store
    with given parameters. *)
Definition at_dir (l : seq (nat * block)) (d : nat) : seq block := [seq x.2 | x <- l & x.1 == d].
Definition done_at (p : proc) (c : nat) : seq block := [seq x.1 | x <- p_done p & x.2 == Some c].

(** Every thread is in exactly one of the three states. *)
Definition partitioned (p : proc) : Prop :=
  perm_eq (p_idle p ++ p_ready p ++ [seq bt.2 | bt <- p_busy p]) (iota 0 (size (p_threads p))).

Section Contributions.
Variable contrib : nat -> block -> store.

(** The table [st] is the sum of the contributions of the blocks [r]. *)
Definition sums (c : nat) (r : seq block) (st : store) : Prop :=
  is_map st /\ forall k, st_find st k = sum_opt [seq st_find (contrib c b) k | b <- r].

(** The tables of the complete pairs of files in a directory add up to the contributions of [bs]. *)
Definition tables (fs : seq file) (d : nat) : seq store :=
  pmap (fun f => if f_record f is Some _ then Some (f_store f) else None) [seq f <- fs | f_dir f == d].
Definition add_up (fs : seq file) (d c : nat) (bs : seq block) : Prop :=
  forall k, sum_opt [seq st_find st k | st <- tables fs d] = sum_opt [seq st_find (contrib c b) k | b <- bs].

(** Every complete pair of files in the result directory of a job is consistent. *)
Definition consistent (jobs : seq job) (fs : seq file) : Prop :=
  forall f r j, List.In f fs -> f_record f = Some r -> j \in jobs -> f_dir f = j.1.1 ->
    sums j.1.2 r (f_store f).

(** The files that can be on disk when runs of the same jobs, each with its own threads, were
    killed one after the other, starting without files. *)
Inductive history (jobs : seq job) : seq file -> Prop :=
  | HistStart : history jobs [::]
  | HistRun fs kinds acts s : history jobs fs ->
      run contrib (start kinds fs (main_program jobs)) acts = Ok s -> history jobs (files s).
End Contributions.

(** The blocks a thread has been given and has not finished. *)
Definition held (thr : thread) : seq block :=
  [seq bc.1 | bc <- t_queue thr] ++
  match t_phase thr with TWork b _ | TFlushed b => [:: b] | _ => [::] end.

(** The blocks of a directory that are done but not in a record file yet: those of a save in
    progress and those of the shared store. *)
Definition unsaved (s : state) (d : nat) : seq block :=
  if cur_dir s == d then
    match s_pc s with PWriteStore _ r _ | PWriteRecord _ r => r | _ => [::] end ++
    sh_record (p_shared (s_proc s))
  else [::].

(** The files written by an execution that found the files [fs]. *)
Definition new_files (fs : seq file) (s : state) : seq file := drop (size fs) (files s).

(** The configuration of a job was left: update_config for one of the later jobs has returned, or
    the destructor. *)
Definition left (s : state) (later : seq job) : Prop :=
  s_pc s = PDone \/ if file_store s is Some (d, _) then d \in [seq j.1.1 | j <- later] else False.

(** Actions other than the spurious wakeup of a thread. *)
Definition not_woken (t : nat) (a : action) : bool := if a is Wake t' then t' != t else true.

(** A stretch of an execution in which the main thread and each of [n] threads runs and each of the threads,
    if it waits, is woken. *)
Definition is_main (a : action) : bool := if a is Main _ then true else false.
Definition is_step (t : nat) (a : action) : bool := if a is Step t' then t' == t else false.
Definition is_wake (t : nat) (a : action) : bool := if a is Wake t' then t' == t else false.
Definition full_round (n : nat) (acts : seq action) : bool :=
  has is_main acts && all (fun t => has (is_step t) acts && has (is_wake t) acts) (iota 0 n).

(** The same without wakeups: only the main thread and the threads run. *)
Definition plain_round (n : nat) (acts : seq action) : bool :=
  [&& has is_main acts, all (fun t => has (is_step t) acts) (iota 0 n) &
      all (fun a => if a is Wake _ then false else true) acts].

(** A thread that waits although it has a block to compute or is to return, and that the main thread is not about
    to notify. *)
Definition stranded (s : state) (t : nat) : Prop :=
  let thr := nth thread0 (p_threads (s_proc s)) t in
  [/\ t < size (p_threads (s_proc s)), t_phase thr = TWait, t_queue thr <> [::] \/ t_shut thr = true &
      match s_pc s with PNotify t' _ | PShutNotify t' => t' <> t | _ => True end].
