(** Model of ReductionTable's constructor with the machine types it uses, /repo/src/reduction_table.cc:41-179, and of the
    conversions in /repo/src/fq_element_table.hh:58-59.

    Tables.v computes with natural numbers; here the same functions are written again with the types of the code:
    [unsigned int] are the numbers below [W = 2 M], [int32_t] the integers from [-M] to [M-1], and [size_t] the numbers
    below [S]; [M] stands for 2^31 and [S] for 2^64.  Conversions keep the value modulo [W] or [S]: for a conversion to
    a signed type that is what the compilers in use define.  Memory is unbounded.  As in Tables.v, FLINT's
    field is an arbitrary finite field with coordinates and a stream of candidates for a generator. *)
Set Warnings "-notation-overridden,-ambiguous-paths".
From mathcomp Require Import all_ssreflect ssralg ssrint finalg.
From Verif Require Import Res Tables Curve Text Config Worker.

Set Implicit Arguments.
Unset Strict Implicit.
Unset Printing Implicit Defensive.

Section Words.
Variables (M S : nat).

(** The number of values of [unsigned int], /repo/src/reduction_table.hh:67-70. *)
Definition words : nat := M + M.

(** [prime_power( pow(prime,prime_exponent) )], /repo/src/reduction_table.cc:49, 70: the conversion of a [double] that is too
    large for [unsigned int] is undefined; smaller powers are exact, as a [double] has 53 bits. *)
Definition pow_word (p r : nat) : res nat := if p ^ r < words then Ok (p ^ r) else Undef.

(** The conversion of a value of type [unsigned int] or [size_t] to [int32_t], /repo/src/reduction_table.cc:103, 141, 151, 155, 168-169. *)
Definition to_int32 (n : nat) : int :=
  let n := n %% words in if n < M then Posz n else (Posz n - Posz words)%R.

(** The conversion of a value of type [int32_t] to [size_t], in the calls of [at] in /repo/src/reduction_table.cc:168-169. *)
Definition int32_to_size (x : int) : nat := if x is Negz n then S - n.+1 else absz x.

(** [std::map<int32_t,int32_t>], /repo/src/reduction_table.cc:135: [count], [m[k] = v] and the value of [m[k]], which is 0 for a
    missing key.  The order of the entries is not used in the code, and is not kept here. *)
Definition wmap := seq (int * int).
Fixpoint wm_find (m : wmap) (k : int) : option int :=
  if m is (k', v) :: m' then if k == k' then Some v else wm_find m' k else None.
Definition wm_set (m : wmap) (k v : int) : wmap := (k, v) :: m.
Definition wm_get (m : wmap) (k : int) : int := if wm_find m k is Some v then v else Posz 0.

(** ReductionTable::compute_exponent_reduction_table, /repo/src/reduction_table.cc:92-106. *)
Definition word_exponent_table (q : nat) : seq int :=
  flatten [seq [seq to_int32 ix | ix <- iota 0 q.-1] | _ <- iota 0 2].

Section Field.
Variable L : finFieldType.
Variable coeff : L -> nat -> nat.

(** The loop of /repo/src/reduction_table.cc:145-149. *)
Definition word_coeff_sum (p r : nat) (a : L) : nat :=
  foldl (fun s dx => uadd words (umul words s p) (coeff a dx)) 0 (rev (iota 0 r)).

(** /repo/src/reduction_table.cc:144-159: [n] rounds are left, [ix] is the loop variable. *)
Fixpoint word_inner (n ix p r : nat) (gen : L) (gp : wmap) (a : L) : bool * wmap :=
  if n is n'.+1 then
    let k := to_int32 (word_coeff_sum p r a) in
    if wm_find gp k is Some _ then (false, gp)
    else word_inner n' ix.+1 p r gen (wm_set gp k (to_int32 ix)) (a * gen)%R
  else (true, gp).

(** /repo/src/reduction_table.cc:137-160. *)
Fixpoint word_outer (fuel p r q : nat) (cand : nat -> L) (i : nat) : res wmap :=
  if fuel is fuel'.+1 then
    let: (is_gen, gp) := word_inner q.-1 0 p r (cand i) (wm_set [::] (Posz 0) (to_int32 q.-1)) 1%R in
    if is_gen then Ok gp else word_outer fuel' p r q cand i.+1
  else OutOfFuel.

(** [incrementations->at(i) = x], /repo/src/reduction_table.cc:164, 168-169: throws when out of range; the exception is not caught. *)
Definition word_at_set (v : seq int) (i : nat) (x : int) : res (seq int) :=
  if i < size v then Ok (set_nth (Posz 0) v i x) else Term.

(** One round of /repo/src/reduction_table.cc:166-170. *)
Definition word_round (p : nat) (gp : wmap) (inc : seq int) (pix : nat) : res (seq int) :=
  inc <- foldM (fun inc ix => word_at_set inc (int32_to_size (wm_get gp (to_int32 ix))) (wm_get gp (to_int32 ix.+1)))
               inc (iota pix p.-1) ;;
  word_at_set inc (int32_to_size (wm_get gp (to_int32 (pix + p.-1)))) (wm_get gp (to_int32 pix)).

(** ReductionTable::compute_incrementation_table, /repo/src/reduction_table.cc:108-179; [pix] is of type [size_t] and does not
    wrap around. *)
Definition word_incrementation_table (fuel p r q : nat) (cand : nat -> L) : res (seq int) :=
  gp <- word_outer fuel p r q cand 0 ;;
  inc <- word_at_set (nseq q (Posz 0)) q.-1 (Posz 0) ;;
  foldM (word_round p gp) inc (pix_values p q).

(** ReductionTable::ReductionTable without OpenCL, /repo/src/reduction_table.cc:41-90: [prime_power] and the two tables. *)
Definition word_tables (fuel p r : nat) (cand : nat -> L) : res (nat * seq int * seq int) :=
  q <- pow_word p r ;;
  inc <- word_incrementation_table fuel p r q cand ;;
  Ok (q, word_exponent_table q, inc).
End Field.

(** Reading an entry into a variable of type [unsigned int], /repo/src/curve.cc:264-283. *)
Definition read_word (x : int) : nat := to_unsigned words x.

(** FqElementTable::block_non_zero and block_complete, /repo/src/fq_element_table.hh:58-59. *)
Definition word_block_non_zero (q : nat) : nat * nat := (0, read_word (to_int32 q.-1)).
Definition word_block_complete (q : nat) : nat * nat := (0, read_word (to_int32 q)).

(** Thread::update_config, /repo/src/threaded/thread.cc:108-119, the reduction tables, as Curve reads
    them; called by [main] before any thread works.  Compare [mk_redtable] and [thread_redtables] in Worker.v. *)
Definition word_redtable (flint : nat -> nat -> flint_field) (fuel p k : nat) : res redtable :=
  t <- word_tables (@ff_coeff (flint p k)) fuel p k (@ff_cand (flint p k)) ;;
  Ok (RedTable p k t.1.1 [seq read_word x | x <- t.1.2] [seq read_word x | x <- t.2]).
Definition word_thread_tables (flint : nat -> nat -> flint_field) (fuel : nat) (c : config) : res (seq redtable) :=
  fxs <- config_exponents words S fuel c ;; mapM (word_redtable flint fuel (g_prime c)) fxs.
End Words.
