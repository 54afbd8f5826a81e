(** Vocabulary for damaged store files. *)
Set Warnings "-notation-overridden,-ambiguous-paths".
From mathcomp Require Import all_ssreflect ssralg ssrnum ssrint poly finalg.
From Verif Require Import Res FinField CurveSpec OMap Store StoreSpec Text Files FilesSpec Pool Standalone Config Worker WorkerSpec TableSpec.

Set Implicit Arguments.
Unset Strict Implicit.
Unset Printing Implicit Defensive.

(** The directory [d'] is [d] with some store files shortened. *)
Definition shortened (d d' : directory) : Prop :=
  names d' = names d /\
  forall f, lookup d' f = lookup d f \/
    f.2 = store_ext /\ exists t n, lookup d f = Some (Regular t) /\ lookup d' f = Some (Regular (take n t)).

(** No count is larger. *)
Definition below (s s' : store) : Prop := forall k, count_of s k <= count_of s' k.

(** What the counts of a table sum up to. *)
Definition total (s : store) : nat := \sum_(kn <- s) kn.2.

(** Merging the result directory of a configuration after store files were shortened gives a table in which no count is
    too large, and in which all counts are right if they sum up to the number that is known in advance. *)
Definition certified (M W : nat) (flint : nat -> nat -> flint_field) (dir : seq char -> nat) (c : config) (fs : seq file) : Prop :=
  forall d0 ids cuts d d' listing, fresh d0 -> replay (dir (g_path c)) fs ids cuts d0 = Ok d -> shortened d d' ->
    perm_eq listing (names d') ->
  exists T R N, [/\ is_map T,
    forall fuel, N <= fuel -> merge M W fuel d' listing = Ok (Some (print_store T, print_record R)),
    total T <= grand_total (g_prime c ^ g_exponent c) (g_genus c) (g_marked c) &
    forall (L : nat -> finFieldType) (emb : forall j, {rmorphism field_of flint c -> L j}),
    tower (field_of flint c) L ->
    let right := brute_force (point_key emb (g_count c)) (g_genus c) (g_marked c) in
    (forall k, count_of T k <= right k) /\
    (total T = grand_total (g_prime c ^ g_exponent c) (g_genus c) (g_marked c) -> forall k, count_of T k = right k)].
