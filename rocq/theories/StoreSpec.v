(** Specification vocabulary for stores: counts credited by registrations, pointwise sums, and
    what was handed in between two flushes of the shared store. *)
Set Warnings "-notation-overridden,-ambiguous-paths".
From mathcomp Require Import all_ssreflect ssralg ssrnum ssrint.
From Verif Require Import OMap Store.

Set Implicit Arguments.
Unset Strict Implicit.
Unset Printing Implicit Defensive.

(** The count the registrations [kns] give to the key [k]: each contributes its multiplicity to
    its own key and again to the twisted key; [None] if neither ever equals [k]. *)
Definition credit (kns : seq (key * nat)) (k : key) : option nat :=
  if has (fun kn => (kn.1 == k) || (twist kn.1 == k)) kns
  then Some (sumn [seq kn.2 | kn <- kns & kn.1 == k] + sumn [seq kn.2 | kn <- kns & twist kn.1 == k])
  else None.

(** Sum of counts, an absent entry being different from a zero one. *)
Definition add_opt (a b : option nat) : option nat :=
  match a, b with
  | Some m, Some n => Some (m + n)
  | Some m, None => Some m
  | None, b => b
  end.
Definition sum_opt (l : seq (option nat)) : option nat := foldr add_opt None l.
Definition count_of (s : store) (k : key) : nat := if st_find s k is Some n then n else 0.

(** A store whose entries are in strictly increasing order, as in a [std::map]. *)
Definition is_map (s : store) : bool := sorted key_lt [seq kn.1 | kn <- s].
Definition is_set (r : seq block) : bool := sorted block_lt r.

(** Calls on the shared store in the order in which they obtain the mutex. *)
Inductive shared_op := FlushTo of store & block | FlushStatic.

(** Run the calls; the results of the [FlushStatic] calls are collected in order. *)
Fixpoint run_shared (ops : seq shared_op) (sh : shared) : seq (seq block * store) * shared :=
  match ops with
  | [::] => ([::], sh)
  | FlushTo s b :: ops' => run_shared ops' (flush_to_static sh s b).1
  | FlushStatic :: ops' =>
      let: (out, sh') := flush_static sh in
      let: (outs, sh'') := run_shared ops' sh' in (out :: outs, sh'')
  end.

(** The contributions between consecutive [FlushStatic] calls, and those after the last one;
    [acc] holds what was handed in before. *)
Fixpoint segments (ops : seq shared_op) (acc : seq (store * block)) :
    seq (seq (store * block)) * seq (store * block) :=
  match ops with
  | [::] => ([::], acc)
  | FlushTo s b :: ops' => segments ops' (rcons acc (s, b))
  | FlushStatic :: ops' => let: (closed, last) := segments ops' [::] in (acc :: closed, last)
  end.

(** The record and the table hold exactly the contributions [seg]. *)
Definition collects (seg : seq (store * block)) (out : seq block * store) : Prop :=
  [/\ is_set out.1, is_map out.2, out.1 =i [seq sb.2 | sb <- seg] &
      forall k, st_find out.2 k = sum_opt [seq st_find sb.1 k | sb <- seg]].

(** Everything ever handed in. *)
Definition handed_in (ops : seq shared_op) : seq store :=
  pmap (fun op => if op is FlushTo s _ then Some s else None) ops.
