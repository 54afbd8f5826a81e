(** Model of /repo/src/fq_element_table.{hh,cc} and of the table part of
    /repo/src/reduction_table.cc.

    FLINT's field context ([fq_nmod_ctx_init], /repo/src/fq_element_table.cc:45, /repo/src/reduction_table.cc:120)
    is an arbitrary finite field [F : finFieldType]; [fq_nmod_mul], [fq_nmod_equal],
    [fq_nmod_one] and [fq_nmod_zero] are its operations and [fq_nmod_reduce] is the identity
    (elements are values, not representatives).  The candidates for a multiplicative
    generator, [fq_nmod_gen] first and then successive [fq_nmod_randtest] results, are an
    arbitrary stream [cand : nat -> F].  [q] stands for the member [prime_power]; the
    conversion of [pow(prime, prime_exponent)] (a double) to [unsigned int]
    (/repo/src/fq_element_table.cc:40, /repo/src/reduction_table.cc:49) is taken to be exact, which holds below
    2^32.  Memory management of the elements is not modelled. *)
Set Warnings "-notation-overridden,-ambiguous-paths".
From mathcomp Require Import all_ssreflect ssralg finalg.
From Verif Require Import Res.

Set Implicit Arguments.
Unset Strict Implicit.
Unset Printing Implicit Defensive.
Import GRing.Theory.
Local Open Scope ring_scope.

Section FqElementTable.
Variable F : finFieldType.

(** Inner loop of the constructor, /repo/src/fq_element_table.cc:75-92; [n] is the number of rounds
    left.  The result is ([is_gen], [fq_elements], the variable [a]). *)
Fixpoint fq_inner (n : nat) (gen : F) (elts : seq F) (a : F) : bool * seq F * F :=
  if n is n'.+1 then
    if a == head 0 elts then (false, elts, a)
    else fq_inner n' gen (rcons elts a) (a * gen)
  else (true, elts, a).

(** Outer loop, /repo/src/fq_element_table.cc:62-93.  The variable [a] is set to one only before the
    loop (line 54) and carried from one round to the next; the elements collected in a
    rejected round are freed (78-81) and cleared at the beginning of the next (65). *)
Fixpoint fq_outer (fuel : nat) (q : nat) (cand : nat -> F) (i : nat) (a : F) : res (seq F) :=
  if fuel is fuel'.+1 then
    let: (is_gen, elts, a') := fq_inner (q.-1).-1 (cand i) [:: a] (a * cand i) in
    if is_gen then Ok elts else fq_outer fuel' q cand i.+1 a'
  else OutOfFuel.

(** FqElementTable::FqElementTable, /repo/src/fq_element_table.cc:32-106; the zero element is appended
    at 95-101. *)
Definition fq_elements (fuel q : nat) (cand : nat -> F) : res (seq F) :=
  elts <- fq_outer fuel q cand 0 1 ;; Ok (rcons elts 0).

(** FqElementTable::at and operator[], /repo/src/fq_element_table.hh:54-55.  at_nmod (50-53) differs
    in throwing when out of range and in returning the residue of the element. *)
Definition fq_at (tbl : seq F) (ix : nat) : res F := vget tbl ix.

End FqElementTable.

(** FqElementTable::zero_index, /repo/src/fq_element_table.hh:57. *)
Definition zero_index (q : nat) : nat := q.-1.

(** FqElementTable::block_non_zero, /repo/src/fq_element_table.hh:58.  The conversion to [int] and
    back is the identity below 2^31. *)
Definition block_non_zero (q : nat) : nat * nat := (0%N, q.-1).

(** FqElementTable::block_complete, /repo/src/fq_element_table.hh:59. *)
Definition block_complete (q : nat) : nat * nat := (0%N, q).

(** FqElementTable::power_coset_representatives, /repo/src/fq_element_table.cc:120-135. *)
Definition power_coset_representatives (q n : nat) : seq nat := iota 0 (gcdn n q.-1).

(** FqElementTable::reduce_index, /repo/src/fq_element_table.hh:62; the division by zero for [q = 1]
    is not reached since [q] is a prime power. *)
Definition reduce_index (q ix : nat) : nat := (ix %% q.-1)%N.

(** ReductionTable::compute_exponent_reduction_table, /repo/src/reduction_table.cc:92-106. *)
Definition exponent_reduction_table (q : nat) : seq nat :=
  flatten [seq iota 0 q.-1 | _ <- iota 0 2].

Section ReductionTable.
Variable L : finFieldType.
(** [nmod_poly_get_coeff_ui(a, dx)], /repo/src/reduction_table.cc:148: the coordinates FLINT stores for a field element. *)
Variable coeff : L -> nat -> nat.

(** The Horner loop of /repo/src/reduction_table.cc:145-149, from [dx = r-1] down to 0. *)
Definition coeff_sum (p r : nat) (a : L) : nat :=
  foldl (fun s dx => (s * p + coeff a dx)%N) 0%N (rev (iota 0 r)).

(** /repo/src/reduction_table.cc:144-159: [n] rounds are left, [ix] is the loop variable.  The
    resulting map is [gen_powers]. *)
Fixpoint gp_inner (n ix p r : nat) (gen : L) (gp : smap nat) (a : L) : bool * smap nat :=
  if n is n'.+1 then
    if sm_find gp (coeff_sum p r a) is Some _ then (false, gp)
    else gp_inner n' ix.+1 p r gen (sm_set gp (coeff_sum p r a) ix) (a * gen)
  else (true, gp).

(** /repo/src/reduction_table.cc:137-160. *)
Fixpoint gp_outer (fuel p r q : nat) (cand : nat -> L) (i : nat) : res (smap nat) :=
  if fuel is fuel'.+1 then
    let: (is_gen, gp) := gp_inner q.-1 0 p r (cand i) [:: (0%N, q.-1)] 1 in
    if is_gen then Ok gp else gp_outer fuel' p r q cand i.+1
  else OutOfFuel.

(** [gen_powers[k]], /repo/src/reduction_table.cc:168-169: [operator[]] of [std::map] default-inserts
    0 for a missing key. *)
Definition gp_get (gp : smap nat) (k : nat) : nat := if sm_find gp k is Some v then v else 0%N.

(** [incrementations->at(i) = v], /repo/src/reduction_table.cc:164, 168-169: throws when out of range. *)
Definition vat_set (v : seq nat) (i x : nat) : res (seq nat) :=
  if (i < size v)%N then Ok (set_nth 0%N v i x) else Term.

(** One round of /repo/src/reduction_table.cc:166-170. *)
Definition inc_round (p : nat) (gp : smap nat) (inc : seq nat) (pix : nat) : res (seq nat) :=
  inc <- foldM (fun inc ix => vat_set inc (gp_get gp ix) (gp_get gp ix.+1))
               inc (iota pix p.-1) ;;
  vat_set inc (gp_get gp (pix + p.-1)%N) (gp_get gp pix).

(** The values [0, p, 2p, ...] below [q-1] taken by [pix], /repo/src/reduction_table.cc:166. *)
Definition pix_values (p q : nat) : seq nat := [seq pix <- [seq (i * p)%N | i <- iota 0 q] | (pix < q.-1)%N].

(** ReductionTable::compute_incrementation_table, /repo/src/reduction_table.cc:108-179. *)
Definition incrementation_table (fuel p r q : nat) (cand : nat -> L) : res (seq nat) :=
  gp <- gp_outer fuel p r q cand 0 ;;
  inc <- vat_set (nseq q 0%N) q.-1 0 ;;
  foldM (inc_round p gp) inc (pix_values p q).

End ReductionTable.
