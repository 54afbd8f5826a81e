(** Vocabulary for the numbers of curves with given ramification. *)
Set Warnings "-notation-overridden,-ambiguous-paths".
From mathcomp Require Import all_ssreflect ssralg ssrnum ssrint.
From Verif Require Import Res OMap Store StoreSpec Text Files FilesSpec Pool Standalone Config WorkerSpec.

Set Implicit Arguments.
Unset Strict Implicit.
Unset Printing Implicit Defensive.

(** [N e] is, for [0 < e <= B], the number of closed points of degree [e] of the affine line over a field with [q] elements: every
    point with coordinates in the extension of degree [e] is one of the [d] conjugates of a closed point whose degree [d] divides
    [e].  These equations determine the numbers. *)
Definition closed_points (q B : nat) (N : nat -> nat) : Prop :=
  forall e, 0 < e <= B -> \sum_(d <- divisors e) d * N d = q ^ e.

(** The number of equations with ramification of degrees [r]: a leading coefficient, and for every degree a choice of closed
    points of the projective line, which has one more point of degree 1 than the affine line.  A marked point is the point at infinity;
    then the others are chosen from the affine line. *)
Definition ramified_number (q genus : nat) (marked : bool) (N : nat -> nat) (r : seq nat) : nat :=
  q.-1 * \prod_(e <- iota 1 (2 * genus + 2))
    (if marked then 'C(N e, count_mem e (rem 1 r)) else 'C(N e + (e == 1), count_mem e r)).

(** The counts of the rows with the same ramification sum up to these numbers. *)
Definition ramification_check (q genus : nat) (marked : bool) (T : store) : Prop :=
  forall N, closed_points q (2 * genus + 2) N ->
  forall r, sorted leq r -> all (ltn 0) r -> sumn r = 2 * genus + 2 -> (marked -> 1 \in r) ->
    \sum_(kn <- T | kn.1.1 == r) kn.2 = ramified_number q genus marked N r.

(** Merging the result directory of a configuration gives a table which passes this check. *)
Definition ramification_checked (M W : nat) (dir : seq char -> nat) (c : config) (fs : seq file) : Prop :=
  forall d0 ids cuts d listing, fresh d0 -> replay (dir (g_path c)) fs ids cuts d0 = Ok d ->
    perm_eq listing (names d) ->
  exists T R N, [/\ is_map T,
    forall fuel, N <= fuel -> merge M W fuel d listing = Ok (Some (print_store T, print_record R)) &
    ramification_check (g_prime c ^ g_exponent c) (g_genus c) (g_marked c) T].
