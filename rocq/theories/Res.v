(** Outcomes of C++ computations and the few container operations the model uses.

    Models no function of /repo by itself; it fixes how the constructs used all over
    /repo/src are read.  The correspondence is:
    - [Ok a]       the statement completes normally with value [a];
    - [Undef]      undefined behaviour (out-of-range [operator[]], [back()] of an empty
                   vector, division by zero, ...);
    - [Term]       the process ends: [throw;] without an active exception calls
                   [std::terminate] (e.g. /repo/src/block_iterator.cc:91), or an exception
                   leaves [main];
    - [OutOfFuel]  the explicit bound on the number of loop iterations is exhausted; used
                   to state non-termination. *)
Set Warnings "-notation-overridden,-ambiguous-paths".
From mathcomp Require Import all_ssreflect.

Set Implicit Arguments.
Unset Strict Implicit.
Unset Printing Implicit Defensive.

Inductive res (A : Type) : Type :=
  | Ok of A
  | Undef
  | Term
  | OutOfFuel.
Arguments Undef {A}.
Arguments Term {A}.
Arguments OutOfFuel {A}.

(** Sequencing of statements, in every function of /repo/src; an exception is caught nowhere there. *)
Definition bind {A B : Type} (m : res A) (k : A -> res B) : res B :=
  match m with
  | Ok a => k a
  | Undef => Undef
  | Term => Term
  | OutOfFuel => OutOfFuel
  end.

Declare Scope res_scope.
Delimit Scope res_scope with res.
Notation "x <- m ;; k" := (bind m (fun x => k))
  (at level 100, m at next level, right associativity) : res_scope.
Notation "' p <- m ;; k" := (bind m (fun p => k))
  (at level 100, p pattern, m at next level, right associativity, only parsing) : res_scope.
Open Scope res_scope.

(** A range-based [for] loop whose body may fail, e.g. /repo/src/block_iterator.cc:117-118. *)
Fixpoint foldM {S T : Type} (f : S -> T -> res S) (s : S) (l : seq T) : res S :=
  if l is x :: l' then s' <- f s x ;; foldM f s' l' else Ok s.

(** A loop that appends one value per round to a vector, e.g. /repo/src/curve.cc:544-561. *)
Fixpoint mapM {S T : Type} (f : T -> res S) (l : seq T) : res (seq S) :=
  if l is x :: l' then y <- f x ;; ys <- mapM f l' ;; Ok (y :: ys) else Ok [::].

(** [v[i]] of a [std::vector], e.g. /repo/src/block_iterator.cc:188: undefined out of range. *)
Definition vget {T : Type} (v : seq T) (i : nat) : res T :=
  if drop i v is x :: _ then Ok x else Undef.

(** [v[i] = x] of a [std::vector], e.g. /repo/src/block_iterator.cc:118-122: undefined out of range. *)
Definition vset {T : Type} (v : seq T) (i : nat) (x : T) : res (seq T) :=
  if i < size v then Ok (set_nth x v i x) else Undef.

(** [std::map<size_t or unsigned int, V>], e.g. /repo/src/block_iterator.hh:82-84, /repo/src/curve.hh:91: the list of its entries in key order.
    A value of that C++ type always satisfies [sm_wf]. *)
Definition smap (V : Type) := seq (nat * V).
Definition sm_keys {V : Type} (m : smap V) : seq nat := [seq kv.1 | kv <- m].
Definition sm_wf {V : Type} (m : smap V) : bool := sorted ltn (sm_keys m).

(** [m.find(k)] and [m.count(k)], e.g. /repo/src/curve.hh:74. *)
Fixpoint sm_find {V : Type} (m : smap V) (k : nat) : option V :=
  if m is (k', v) :: m' then if k == k' then Some v else sm_find m' k else None.

(** [m.at(k)], e.g. /repo/src/curve.cc:544-561: throws [std::out_of_range] when missing; the exception is nowhere caught. *)
Definition sm_at {V : Type} (m : smap V) (k : nat) : res V :=
  if sm_find m k is Some v then Ok v else Term.

(** [m[k] = v], e.g. /repo/src/block_iterator.cc:201-203: insertion keeping the key order, or replacement. *)
Fixpoint sm_set {V : Type} (m : smap V) (k : nat) (v : V) : smap V :=
  if m is (k', v') :: m' then
    if k < k' then (k, v) :: m
    else if k == k' then (k, v) :: m'
    else (k', v') :: sm_set m' k v
  else [:: (k, v)].
