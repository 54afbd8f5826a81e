(** Vocabulary for the checks which every table of results has to pass. *)
Set Warnings "-notation-overridden,-ambiguous-paths".
From mathcomp Require Import all_ssreflect ssralg ssrnum ssrint.
From Verif Require Import Res OMap Store StoreSpec Text Files FilesSpec Pool Standalone Config WorkerSpec.

Set Implicit Arguments.
Unset Strict Implicit.
Unset Printing Implicit Defensive.
Import GRing.Theory.
Local Open Scope ring_scope.

(** The number of squarefree polynomials of degree [d > 1] over a field with [q] elements. *)
Definition squarefree_number (q d : nat) : nat := (q.-1 * (q ^ d - q ^ d.-1))%N.

(** What a table of curves of a genus counts in total. *)
Definition grand_total (q genus : nat) (marked : bool) : nat :=
  (squarefree_number q (2 * genus + 1) + (if marked then 0 else squarefree_number q (2 * genus + 2)))%N.

(** A row, given by its key, in a table for [n] extensions: the degrees of the ramification points are ordered, positive, and
    sum up to [2 genus + 2]; a marked point is a rational one of them; there are [n] numbers, the [j]-th of which is at most
    [q^(j+1)+1] in absolute value and has the parity of the number of ramification points over the extension of
    degree [j+1], in which points of degree [e] split if [e] divides [j+1]. *)
Definition row_check (q genus : nat) (marked : bool) (n : nat) (k : key) : Prop :=
  [/\ sorted leq k.1 && all (ltn 0%N) k.1, sumn k.1 = (2 * genus + 2)%N, marked -> 1%N \in k.1, size k.2 = n &
      forall j, (j < n)%N -> (absz (nth 0%R k.2 j) <= q ^ j.+1 + 1)%N /\
        odd (absz (nth 0%R k.2 j)) = odd (sumn [seq e <- k.1 | (e %| j.+1)%N])].

(** A table: the counts are positive and sum up to the number of squarefree polynomials, twists have the same count, every
    row is as above, and the numbers for extensions of odd degree cancel. *)
Definition table_check (q genus : nat) (marked : bool) (n : nat) (T : store) : Prop :=
  [/\ (\sum_(kn <- T) kn.2)%N = grand_total q genus marked,
      forall k, st_find T (twist k) = st_find T k,
      forall kn, kn \in T -> (0 < kn.2)%N /\ row_check q genus marked n kn.1 &
      forall j, (j < n)%N -> odd j.+1 -> \sum_(kn <- T) (kn.2)%:Z * nth 0 kn.1.2 j = 0].

(** Merging the result directory of a configuration gives a table which passes the checks. *)
Definition checked (M W : nat) (dir : seq char -> nat) (c : config) (fs : seq file) : Prop :=
  forall d0 ids cuts d listing, fresh d0 -> replay (dir (g_path c)) fs ids cuts d0 = Ok d ->
    perm_eq listing (names d) ->
  exists T R N, [/\ is_map T,
    forall fuel, (N <= fuel)%N -> merge M W fuel d listing = Ok (Some (print_store T, print_record R)) &
    table_check (g_prime c ^ g_exponent c) (g_genus c) (g_marked c) (g_count c) T].
