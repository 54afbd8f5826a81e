(** [std::map] and [std::set] with an arbitrary comparison, and the comparisons used in /repo.

    Models no function of /repo by itself: it fixes the meaning of the containers of
    /repo/src/store/store.hh:116,133-134 and /repo/src/store/file_store.hh:127.  A container is the
    list of its elements in order; two keys are identified when neither is less than the other,
    as the standard prescribes. *)
Set Warnings "-notation-overridden,-ambiguous-paths".
From mathcomp Require Import all_ssreflect ssralg ssrnum ssrint.

Set Implicit Arguments.
Unset Strict Implicit.
Unset Printing Implicit Defensive.

Section Containers.
Variables (K V : Type) (lt : K -> K -> bool).

(** [m.find(k)] and [m.count(k)], e.g. /repo/src/store/store.cc:54. *)
Fixpoint om_find (m : seq (K * V)) (k : K) : option V :=
  if m is (k', v) :: m' then
    if lt k' k then om_find m' k else if lt k k' then None else Some v
  else None.

(** [m[k] = v], e.g. /repo/src/store/store.cc:59-65: replacement, or insertion at the place given by the order. *)
Fixpoint om_set (m : seq (K * V)) (k : K) (v : V) : seq (K * V) :=
  if m is (k', v') :: m' then
    if lt k' k then (k', v') :: om_set m' k v
    else if lt k k' then (k, v) :: m
    else (k', v) :: m'
  else [:: (k, v)].

(** [m.erase(m.find(k))], /repo/src/threaded/thread_pool.cc:125-136. *)
Fixpoint om_erase (m : seq (K * V)) (k : K) : seq (K * V) :=
  if m is (k', v') :: m' then
    if lt k' k then (k', v') :: om_erase m' k else if lt k k' then m else m'
  else [::].

(** [s.count(k)] and [s.insert(k)] of a set, e.g. /repo/src/store/store.cc:81. *)
Fixpoint os_mem (s : seq K) (k : K) : bool :=
  if s is k' :: s' then if lt k' k then os_mem s' k else ~~ lt k k' else false.
Fixpoint os_insert (s : seq K) (k : K) : seq K :=
  if s is k' :: s' then
    if lt k' k then k' :: os_insert s' k else if lt k k' then k :: s else s
  else [:: k].
(** [s.erase(k)], /repo/src/worker_pool/standalone.cc:129-145. *)
Fixpoint os_erase (s : seq K) (k : K) : seq K :=
  if s is k' :: s' then
    if lt k' k then k' :: os_erase s' k else if lt k k' then s else s'
  else [::].
End Containers.

(** [operator<] of [std::vector], used by the containers of /repo/src/store/store.hh:133-134: lexicographical comparison. *)
Fixpoint vec_lt (T : Type) (lt : T -> T -> bool) (v w : seq T) : bool :=
  match v, w with
  | _, [::] => false
  | [::], _ :: _ => true
  | x :: v', y :: w' => if lt x y then true else if lt y x then false else vec_lt lt v' w'
  end.

(** [operator<] of [std::tuple<unsigned int, unsigned int>], the components of /repo/src/block_iterator.hh:39. *)
Definition tup_lt (a b : nat * nat) : bool :=
  if a.1 < b.1 then true else if b.1 < a.1 then false else a.2 < b.2.

(** Comparison of [int], used for the offsets of /repo/src/store/curve_data.hh. *)
Definition int_lt (a b : int) : bool := (a < b)%R.

(** [vuu_block], /repo/src/block_iterator.hh:39, with the comparison used by [std::set] and
    [std::map]. *)
Definition block := seq (nat * nat).
Definition block_lt : block -> block -> bool := vec_lt tup_lt.
