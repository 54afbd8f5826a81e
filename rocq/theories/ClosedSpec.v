(** Vocabulary for the rows of the tables: which numbers are numbers of points of a curve over the extensions of a field. *)
Set Warnings "-notation-overridden,-ambiguous-paths".
From mathcomp Require Import all_ssreflect ssralg ssrnum ssrint.
From Verif Require Import Res OMap Store StoreSpec Text Files FilesSpec Pool Standalone Config WorkerSpec.

Set Implicit Arguments.
Unset Strict Implicit.
Unset Printing Implicit Defensive.
Import GRing.Theory.
Local Open Scope ring_scope.

(** The number of points over the extension of degree [j] according to a row. *)
Definition row_points (q : nat) (k : key) (j : nat) : int := (q ^ j + 1)%:Z - nth 0 k.2 j.-1.

(** There are numbers [U e] of closed points of degree [e] that are not ramified, such that the points over the extension
    of degree [j] are the [e] conjugates of the closed points of the degrees [e] that divide [j].  The ramified ones are those
    listed in the row. *)
Definition closed_check (q n : nat) (k : key) : Prop :=
  exists U : nat -> nat, forall j, (0 < j <= n)%N ->
    row_points q k j = (\sum_(e <- divisors j) e * U e + sumn [seq e <- k.1 | (e %| j)%N])%:Z.

(** Merging the result directory of a configuration gives a table all of whose rows pass the check. *)
Definition closed_checked (M W : nat) (dir : seq char -> nat) (c : config) (fs : seq file) : Prop :=
  forall d0 ids cuts d listing, fresh d0 -> replay (dir (g_path c)) fs ids cuts d0 = Ok d ->
    perm_eq listing (names d) ->
  exists T R N, [/\ is_map T,
    forall fuel, (N <= fuel)%N -> merge M W fuel d listing = Ok (Some (print_store T, print_record R)) &
    forall kn, kn \in T -> closed_check (g_prime c ^ g_exponent c) (g_count c) kn.1].
