(** Specification vocabulary for executions in which critical sections are taken apart. *)
Set Warnings "-notation-overridden,-ambiguous-paths".
From mathcomp Require Import all_ssreflect.
From Verif Require Import Res OMap Store Pool Standalone StandaloneSpec Fine.

Set Implicit Arguments.
Unset Strict Implicit.
Unset Printing Implicit Defensive.

(** No mutex is held. *)
Definition free (f : fstate) : Prop :=
  [/\ f_pool f = None, f_static f = None & forall t, nth None (f_data f) t = None].

(** The files that can be on disk when runs of the same jobs, each with its own threads, were
    killed one after the other, starting without files; the runs may be killed within critical sections. *)
Inductive fhistory (contrib : nat -> block -> store) (jobs : seq job) : seq file -> Prop :=
  | FHistStart : fhistory contrib jobs [::]
  | FHistRun fs kinds acts f : fhistory contrib jobs fs ->
      frun contrib (fstart kinds fs (main_program jobs)) acts = Ok f -> fhistory contrib jobs (files (f_st f)).

(** The thread is in no critical section; [None] is the main thread. *)
Definition outside (f : fstate) (a : actor) : bool :=
  if a is Some t then (if nth MNone (f_thr f) t is MNone then true else false)
  else (if f_main f is NNone then true else false).

(** The thread is about to lock a mutex that is held. *)
Definition blocked (f : fstate) (a : actor) : bool :=
  let p := f_proc f in
  isSome (if a is Some t then
            match t_phase (nth thread0 (p_threads p) t) with
            | TTest | TPop => nth None (f_data f) t
            | TWork _ _ => f_static f
            | TFlushed _ => f_pool f
            | _ => None
            end
          else
            match s_pc (f_st f) with
            | PFillFinished _ | PWait _ | PFillReady _ | PHand _ => f_pool f
            | PSave _ => if file_store (f_st f) is Some _ then f_static f else None
            | PShut t => if t < size (p_threads p) then nth None (f_data f) t else None
            | _ => None
            end).

(** Whose step it is. *)
Definition steps_of (a : actor) (x : action) : bool :=
  match a, x with None, Main _ => true | Some t, Step t' => t' == t | _, _ => false end.

Section Served.
Variable contrib : nat -> block -> store.

(** Within the given steps the thread begins a critical section, or a step outside of them, without finding the
    mutex held, and then is outside of critical sections again.  [begun]: it has begun. *)
Fixpoint served_from (begun : bool) (f : fstate) (acts : seq action) (a : actor) : bool :=
  if acts is x :: acts' then
    if fstep contrib f x is Ok f' then
      let begun' := begun || [&& steps_of a x, outside f a & ~~ blocked f a] in
      (begun' && outside f' a) || served_from begun' f' acts' a
    else false
  else false.

(** In each of the given rounds the main thread and each of the [n] threads is served. *)
Fixpoint all_served (n : nat) (f : fstate) (rounds : seq (seq action)) : bool :=
  if rounds is r :: rounds' then
    [&& served_from false f r None, all (fun t => served_from false f r (Some t)) (iota 0 n) &
        if frun contrib f r is Ok f' then all_served n f' rounds' else false]
  else true.
End Served.

(** Every thread is woken; no thread is woken. *)
Definition woken (n : nat) (r : seq action) : bool := all (fun t => has (is_wake t) r) (iota 0 n).
Definition quiet (r : seq action) : bool := all (fun a => if a is Wake _ then false else true) r.

(** The thread waits although it has a block to compute or is to return, and as long as it is not woken spuriously
    this stays so and the run does not end. *)
Definition forever_lost (contrib : nat -> block -> store) (f : fstate) (t : nat) : Prop :=
  forall acts, all (not_woken t) acts ->
  exists f', [/\ frun contrib f acts = Ok f', stranded (f_st f') t & s_pc (f_st f') <> PDone].
