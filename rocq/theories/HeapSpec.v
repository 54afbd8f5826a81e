(** Specification of the memory behaviour: the same calls with counts that are plain numbers (the functions of
    Store.v, without a heap). *)
Set Warnings "-notation-overridden,-ambiguous-paths".
From mathcomp Require Import all_ssreflect ssralg ssrnum ssrint.
From Verif Require Import Res OMap Store FmpzHeap.

Set Implicit Arguments.
Unset Strict Implicit.
Unset Printing Implicit Defensive.

(** The worker stores and the shared store. *)
Definition plain := (seq store * store)%type.
Definition plain_step (s : plain) (op : sop) : plain * store :=
  let: (ms, st) := s in
  match op with
  | Register t k n => ((set_nth [::] ms t (register (nth [::] ms t) (k, n)), st), [::])
  | FlushTo t => ((set_nth [::] ms t [::], merge_into st (nth [::] ms t)), [::])
  | FlushStatic => ((ms, [::]), st)
  | Extract t k n => ((set_nth [::] ms t (merge_entry (nth [::] ms t) (k, n)), st), [::])
  | Insert t => (s, nth [::] ms t)
  | Destroy t => ((set_nth [::] ms t [::], st), [::])
  end.

(** What is printed by a sequence of calls. *)
Fixpoint plain_out (s : plain) (ops : seq sop) : seq store :=
  if ops is op :: ops' then (plain_step s op).2 :: plain_out (plain_step s op).1 ops' else [::].

(** No count ever reaches the limit. *)
Definition below (lim : nat) (s : plain) : bool :=
  all (all (fun kn => kn.2 < lim)) s.1 && all (fun kn => kn.2 < lim) s.2.
Fixpoint stays_below (lim : nat) (s : plain) (ops : seq sop) : bool :=
  if ops is op :: ops' then
    below lim (plain_step s op).1 && stays_below lim (plain_step s op).1 ops'
  else true.
