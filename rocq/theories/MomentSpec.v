(** Vocabulary for the sums of the offsets in the tables. *)
Set Warnings "-notation-overridden,-ambiguous-paths".
From mathcomp Require Import all_ssreflect ssralg ssrnum ssrint.
From Verif Require Import Res OMap Store StoreSpec Text Files FilesSpec Pool Standalone Config WorkerSpec.

Set Implicit Arguments.
Unset Strict Implicit.
Unset Printing Implicit Defensive.
Import GRing.Theory.
Local Open Scope ring_scope.

(** The sum of a quantity [h] of the offsets of a row over all curves counted by a table. *)
Definition total_of (h : seq int -> int) (T : store) : int := \sum_(kn <- T) (kn.2)%:Z * h kn.1.2.

(** The first offset is the deviation of the number of points over the field with [q] elements from [q + 1].  Over all equations
    the mean of its square is [q - q ^ (1 - 2 genus)]; multiplied by the number of equations this is the second line. *)
Definition first_moment_check (q genus : nat) (marked : bool) (T : store) : Prop :=
  let Q := q%:Z in
  let squares := total_of (fun offsets => nth 0 offsets 0 ^+ 2) T in
  if marked then (Q + 1) * squares = Q * (Q - 1) ^+ 2 * (Q ^+ (2 * genus).+1 + 1 + (Q + 1) * ((Q - 1) * genus%:Z - 1))
  else squares = Q * (Q - 1) ^+ 2 * (Q + 1) * (Q ^+ (2 * genus) - 1).

(** The second offset is the one over the extension of degree 2.  Over all equations its mean is
    [(-1) ^ genus * q ^ (1 - 2 genus) - q]. *)
Definition second_moment_check (q genus : nat) (marked : bool) (T : store) : Prop :=
  let Q := q%:Z in
  let seconds := total_of (fun offsets => nth 0 offsets 1) T in
  if marked then (Q + 1) * seconds = - (Q * (Q - 1) ^+ 2 * (Q ^+ (2 * genus).+1 + 1 + (Q + 1) * (if odd genus then Q else -1)))
  else seconds = - (Q * (Q - 1) ^+ 2 * (Q + 1) * (Q ^+ (2 * genus) - (-1) ^+ genus)).

(** The checks that apply to a table with the offsets over [n] fields. *)
Definition moments_check (q genus : nat) (marked : bool) (n : nat) (T : store) : Prop :=
  ((0 < n)%N -> first_moment_check q genus marked T) /\ ((1 < n)%N -> second_moment_check q genus marked T).

(** Merging the result directory of a configuration gives a table which passes these checks. *)
Definition moments_checked (M W : nat) (dir : seq char -> nat) (c : config) (fs : seq file) : Prop :=
  forall d0 ids cuts d listing, fresh d0 -> replay (dir (g_path c)) fs ids cuts d0 = Ok d ->
    perm_eq listing (names d) ->
  exists T R N, [/\ is_map T,
    forall fuel, (N <= fuel)%N -> merge M W fuel d listing = Ok (Some (print_store T, print_record R)) &
    moments_check (g_prime c ^ g_exponent c) (g_genus c) (g_marked c) (g_count c) T].
