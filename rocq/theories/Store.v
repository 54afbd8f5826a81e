(** Model of /repo/src/store/curve_data.{hh,cc}, store_data.{hh,cc} and store.{hh,cc}: keys,
    counts and stores.  The text formats are in Text.v and the memory behaviour of FLINT's
    integers in FmpzHeap.v; here a count is a natural number and [int] offsets are integers
    (negation is exact except for the least [int], which [q^k+1-#points] never reaches). *)
Set Warnings "-notation-overridden,-ambiguous-paths".
From mathcomp Require Import all_ssreflect ssralg ssrnum ssrint.
From Verif Require Import Res Tables Curve OMap.

Set Implicit Arguments.
Unset Strict Implicit.
Unset Printing Implicit Defensive.

(** ExplicitRamificationHasseWeil::ValueType, /repo/src/store/curve_data.hh:62-80: ramification type and
    Hasse-Weil offsets. *)
Definition key := (seq nat * seq int)%type.

(** [less<ValueType>], /repo/src/store/curve_data.cc:32-46. *)
Definition key_lt (lhs rhs : key) : bool :=
  if vec_lt ltn lhs.1 rhs.1 then true
  else if lhs.1 == rhs.1 then vec_lt int_lt lhs.2 rhs.2
  else false.

(** The loop of ExplicitRamificationHasseWeil::twist, /repo/src/store/curve_data.cc:54-61. *)
Fixpoint twist_offsets (odd : bool) (offsets : seq int) : seq int :=
  if offsets is x :: offsets' then
    (if odd then (- x)%R else x) :: twist_offsets (~~ odd) offsets'
  else [::].

(** ExplicitRamificationHasseWeil::twist, /repo/src/store/curve_data.cc:48-64. *)
Definition twist (k : key) : key := (k.1, twist_offsets true k.2).

(** ExplicitRamificationHasseWeil(const Curve &), /repo/src/store/curve_data.hh:54-58. *)
Definition curve_key (W fuel : nat) (factor : seq nat -> seq (nat * nat)) (c : curve) : res key :=
  m <- max_prime_exponent fuel c ;;
  Ok (ramification_type W factor c, hasse_weil_offsets W c m).

(** The member [store], /repo/src/store/store.hh:116. *)
Definition store := seq (key * nat).
(** Lookup and assignment in it, as used in /repo/src/store/store.cc:54-65,84-87. *)
Definition st_find : store -> key -> option nat := om_find key_lt.
Definition st_set : store -> key -> nat -> store := om_set key_lt.
(** [store[k]] for reading, /repo/src/store/store.cc:59,65: a missing entry is created with the default value zero. *)
Definition st_get (s : store) (k : key) : nat := if st_find s k is Some n then n else 0.

(** [store[k] += n], /repo/src/store/store.cc:59,65,85. *)
Definition st_add (s : store) (k : key) (n : nat) : store := st_set s k (st_get s k + n).

(** Store::register_curve, /repo/src/store/store.cc:39-67, applied to the key and the multiplicity of the
    curve; StoreData::Count::twist (/repo/src/store/store_data.hh:56) is the identity. *)
Definition register (s : store) (kn : key * nat) : store :=
  let: (k, n) := kn in
  let tk := twist k in
  if st_find s k is Some m then
    let s := st_set s k (m + n) in
    st_add s tk n
  else
    let s := st_set s k n in
    if tk == k then st_add s k n else st_set s tk n.

(** The static members [static_record] and [static_store], /repo/src/store/store.hh:132-134. *)
Record shared := Shared { sh_record : seq block; sh_store : store }.
Definition shared_empty := Shared [::] [::].

(** The loop of /repo/src/store/store.cc:83-88, also the body of Store::extract, /repo/src/store/store.cc:134-137: add the
    entries of one store to another. *)
Definition merge_entry (s : store) (kn : key * nat) : store :=
  if st_find s kn.1 is Some m then st_set s kn.1 (m + kn.2) else st_set s kn.1 kn.2.
Definition merge_into (s : store) (entries : seq (key * nat)) : store := foldl merge_entry s entries.

(** Store::flush_to_static_store, /repo/src/store/store.cc:69-90; the whole call holds [static_mutex].  The result
    is (shared store, worker store). *)
Definition flush_to_static (sh : shared) (s : store) (b : block) : shared * store :=
  (Shared (os_insert block_lt (sh_record sh) b) (merge_into (sh_store sh) s), [::]).

(** Store::flush_static_store, /repo/src/store/store.cc:92-111, before formatting; the whole call holds
    [static_mutex].  The result is ((record, store) to be written, shared store). *)
Definition flush_static (sh : shared) : (seq block * store) * shared :=
  ((sh_record sh, sh_store sh), shared_empty).
