(** Model of /repo/src/curve_iterator.{hh,cc}: the enumeration of equations up to
    isomorphism and twist, and the weight of each representative. *)
Set Warnings "-notation-overridden,-ambiguous-paths".
From mathcomp Require Import all_ssreflect.
From Verif Require Import Res Tables BlockIter.

Set Implicit Arguments.
Unset Strict Implicit.
Unset Printing Implicit Defensive.

(** Arguments handed to the BlockIterator constructor: length, blocks, sets, dependent sets;
    the package size is the same for all (/repo/src/curve_iterator.cc:103-104, 118, 146, 165, 187). *)
Definition bargs : Type := nat * blk_arg * set_arg * dep_arg.

(** [for (int kx = hi; kx > lo - 1; --kx)], /repo/src/curve_iterator.cc:61, 63, 70, 78, 100, 114, 142, 161, 183, i.e. [kx = hi, hi-1, ..., lo]; [hi1] is [hi+1], so
    that [hi = -1] is representable. *)
Definition down (hi1 lo : nat) : seq nat := rev (iota lo (hi1 - lo)).

(** [for kx: sets[kx] = {table.zero_index()}], /repo/src/curve_iterator.cc:70-71, 78-79, 114-115. *)
Definition set_zeros (q : nat) (sets : set_arg) (ks : seq nat) : set_arg :=
  foldl (fun s kx => sm_set s kx [:: zero_index q]) sets ks.

(** [for kx: blocks[kx] = table.block_complete()], /repo/src/curve_iterator.cc:100-101, 142-143,
    161-162, 183-184. *)
Definition set_complete (q : nat) (blocks : blk_arg) (ks : seq nat) : blk_arg :=
  foldl (fun b kx => sm_set b kx (block_complete q)) blocks ks.

(** /repo/src/curve_iterator.cc:87-95: for every value [s] of [sets[ix]] (its ordinal is the key) the
    [std::set] of the reduced sums with the representatives, as an ascending vector. *)
Definition coset_products (q : nat) (vals cosets : seq nat) : smap (seq nat) :=
  foldl (fun m sx => sm_set m sx (sort leq (undup [seq reduce_index q (nth 0 vals sx + b) | b <- cosets])))
        [::] (iota 0 (size vals)).

(** /repo/src/curve_iterator.cc:63-105: the body for [ix] and [jx]; [jx1] is [jx+1]. *)
Definition args_two (q degree ix jx1 : nat) : bargs :=
  let blocks := sm_set [::] degree (block_non_zero q) in
  let sets := set_zeros q [::] (down degree ix.+1) in
  let sets := sm_set sets ix (power_coset_representatives q 1) in
  let sets := set_zeros q sets (down ix jx1) in
  let deps := if jx1 is jx.+1
              then sm_set [::] jx (ix, coset_products q (choices sets ix)
                                         (power_coset_representatives q (ix - jx)))
              else [::] in
  let blocks := set_complete q blocks (down jx1.-1 0) in
  (degree.+1, blocks, sets, deps).

(** /repo/src/curve_iterator.cc:108-119: the monomial. *)
Definition args_monomial (q degree : nat) : bargs :=
  (degree.+1, [::],
   set_zeros q (sm_set [::] degree (power_coset_representatives q 1)) (down degree 0), [::]).

(** /repo/src/curve_iterator.cc:126-147. *)
Definition args_div_nonzero (q degree : nat) : bargs :=
  let sets := sm_set [::] degree (power_coset_representatives q 1) in
  let blocks := sm_set [::] (degree - 1) (block_non_zero q) in
  let sets := sm_set sets (degree - 2) [:: zero_index q] in
  let sets := sm_set sets (degree - 3) (rcons (power_coset_representatives q 3) (zero_index q)) in
  (degree.+1, set_complete q blocks (down (degree - 3) 0), sets, [::]).

(** /repo/src/curve_iterator.cc:149-166, and 167-188, which builds the same arguments. *)
Definition args_square (q degree : nat) : bargs :=
  let sets := sm_set [::] degree (power_coset_representatives q 1) in
  let sets := sm_set sets (degree - 1) [:: zero_index q] in
  let sets := sm_set sets (degree - 2) (rcons (power_coset_representatives q 2) (zero_index q)) in
  (degree.+1, set_complete q [::] (down (degree - 2) 0), sets, [::]).

(** Body of the loop over degrees, /repo/src/curve_iterator.cc:54-189. *)
Definition args_degree (p q degree : nat) : seq bargs :=
  if degree < p then
    flatten [seq [seq args_two q degree ix jx1 | jx1 <- down ix.+1 0] | ix <- down (degree - 1) 0]
    ++ [:: args_monomial q degree]
  else if degree %% p == 0 then [:: args_div_nonzero q degree; args_square q degree]
  else [:: args_square q degree].

(** The degrees of /repo/src/curve_iterator.cc:54. *)
Definition degrees (genus : nat) (with_marked_point : bool) : seq nat :=
  iota (2 * genus + 1) (if with_marked_point then 1 else 2).

(** The members [enumerators] and [enumerator_it], /repo/src/curve_iterator.hh:63-64: the enumerators
    from [enumerator_it] on (earlier ones are never accessed again). *)
Definition citer := seq biter.

(** CurveIterator::CurveIterator, /repo/src/curve_iterator.cc:32-192. *)
Definition mk_citer (p q genus : nat) (with_marked_point : bool) (package_size : nat) : res citer :=
  if p == 2 then Term else
  if genus == 0 then Term else
  mapM (fun a : bargs => let: (len, blocks, sets, deps) := a in
          mk_biter len blocks package_size sets deps)
       (flatten [seq args_degree p q d | d <- degrees genus with_marked_point]).

(** CurveIterator::is_end, /repo/src/curve_iterator.cc:207-213. *)
Definition ci_is_end (ci : citer) : bool := if ci is [::] then true else false.

(** CurveIterator::step, /repo/src/curve_iterator.cc:194-205. *)
Definition ci_step (W : nat) (ci : citer) : res citer :=
  if ci is it :: rest then
    it' <- bi_step W it ;;
    if bi_end it' then Ok rest else Ok (it' :: rest)
  else Ok ci.

(** CurveIterator::as_block, /repo/src/curve_iterator.hh:54; dereferencing the end iterator is
    undefined. *)
Definition ci_as_block (W : nat) (ci : citer) : res (seq (nat * nat)) :=
  if ci is it :: _ then as_block W it else Undef.

(** CurveIterator::as_position and as_block_enumerator, /repo/src/curve_iterator.hh:53 and 56. *)
Definition ci_as_position (ci : citer) : res (seq nat) :=
  if ci is it :: _ then as_position it else Undef.
Definition ci_as_block_enumerator (W : nat) (ci : citer) : res biter :=
  if ci is it :: _ then as_block_enumerator W it else Undef.

(** The loop [for (; !iter.is_end(); iter.step()) ... iter.as_block()] of
    /repo/src/executables/threaded.cc:141-146 and /repo/src/executables/mpi.cc:149-155. *)
Fixpoint ci_iterate (W : nat) {A : Type} (f : citer -> res A) (fuel : nat) (ci : citer)
    : res (seq A) :=
  if ci_is_end ci then Ok [::] else
  if fuel is n.+1 then
    x <- f ci ;; ci' <- ci_step W ci ;; xs <- ci_iterate W f n ci' ;; Ok (x :: xs)
  else OutOfFuel.

(** The positions a worker visits for one block, /repo/src/threaded/thread.cc:87-88. *)
Definition block_positions (W fuel : nat) (b : seq (nat * nat)) : res (seq (seq nat)) :=
  it <- mk_biter_bounds b ;; iterate W as_position fuel it.

(** [fmpz_divexact_ui], /repo/src/curve_iterator.cc:248, 263: undefined unless the division is exact. *)
Definition divexact (a b : nat) : res nat :=
  if (b == 0) || ~~ (b %| a) then Undef else Ok (a %/ b).

(** [fmpz_fdiv_q_2exp(mult, mult, k)], /repo/src/curve_iterator.cc:234, 246, 261, 271, 281, 287, 299, 306. *)
Definition shiftr (a k : nat) : nat := a %/ 2 ^ k.

(** [*(coeff_support.rbegin()+i)], /repo/src/curve_iterator.cc:241-242, 253-255, 276, 293; never read out of range. *)
Definition rnth (s : seq nat) (i : nat) : nat := nth 0 (rev s) i.

(** CurveIterator::multiplicity, /repo/src/curve_iterator.cc:215-310; [coeff_support] is ascending.
    [coeff_support.back()] of an empty vector is undefined. *)
Definition multiplicity (p q : nat) (coeff_support : seq nat) : res nat :=
  if coeff_support is [::] then Undef else
  let degree := rnth coeff_support 0 in
  let n := size coeff_support in
  if degree < p then
    if n <= 2 then Ok (shiftr (q * q.-1) 1)
    else divexact (shiftr (q * q.-1) 1 * q.-1)
                  (gcdn q.-1 (rnth coeff_support 1 - rnth coeff_support 2))
  else if degree %% p == 0 then
    if (2 <= n) && (rnth coeff_support 1 == degree - 1) then
      if (3 <= n) && (rnth coeff_support 2 == degree - 3) then
        divexact (shiftr (q * q.-1) 1 * q.-1) (gcdn q.-1 3)
      else Ok (shiftr (q * q.-1) 1)
    else if (2 <= n) && (rnth coeff_support 1 == degree - 2) then Ok (shiftr (q.-1 * q.-1) 2)
    else Ok (shiftr q.-1 1)
  else
    if (2 <= n) && (rnth coeff_support 1 == degree - 2) then Ok (shiftr (q * q.-1 * q.-1) 2)
    else Ok (shiftr (q * q.-1) 1).

(** The coefficient vectors visited by a whole computation: the dispatcher loop over the
    packages followed by the worker loop over each package (/repo/src/executables/threaded.cc:141-146,
    /repo/src/threaded/thread.cc:86-93), in dispatch order. *)
Definition visited (W fuel p q genus : nat) (with_marked_point : bool) (package_size : nat)
    : res (seq (seq nat)) :=
  ci <- mk_citer p q genus with_marked_point package_size ;;
  boxes <- ci_iterate W (ci_as_block W) fuel ci ;;
  pss <- mapM (block_positions W fuel) boxes ;;
  Ok (flatten pss).
