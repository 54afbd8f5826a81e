(** Functions that stand for FLINT when the computations of the test suite, /repo/test, are replayed on the model
    in PropReplay.v.  They are no part of the model: there FLINT is an argument.  They replace the functions called in
    /repo/src/curve.cc:110-128 (squarefree) and 616-694 (factorisation), /repo/src/fq_element_table.cc:45-72 and
    /repo/src/reduction_table.cc:120-142 (fields). *)
Set Warnings "-notation-overridden,-ambiguous-paths".
From mathcomp Require Import all_ssreflect ssralg ssrint poly finalg zmodp.
From Verif Require Import Res OMap Tables BlockIter CurveIter Curve Store Text Config Worker Single.

Set Implicit Arguments.
Unset Strict Implicit.
Unset Printing Implicit Defensive.

(** Polynomials over the field with [p] elements are lists of residues, lowest degree first; reversed where said. *)
(** Without leading zeros, for /repo/src/curve.cc:696-713. *)
Fixpoint trim_rev (rv : seq nat) : seq nat := if rv is 0 :: rv' then trim_rev rv' else rv.
Definition trim (f : seq nat) : seq nat := rev (trim_rev (rev f)).
Definition inverse (p a : nat) : nat := (a ^ (p - 2)) %% p.
(** Division with remainder: one step on reversed lists, the divisor monic. *)
Fixpoint sub_scaled (p c : nat) (f h : seq nat) : seq nat :=
  match f, h with
  | a :: f', b :: h' => ((a + (p - (c * b) %% p)) %% p) :: sub_scaled p c f' h'
  | _, _ => f
  end.
Fixpoint division (p n : nat) (f h quotient : seq nat) : seq nat * seq nat :=
  if n is n'.+1 then
    if size f < size h then (quotient, f)
    else let c := head 0 f in division p n' (behead (sub_scaled p c f h)) h (rcons quotient c)
  else (quotient, f).
Definition monic_rev (p : nat) (f : seq nat) : seq nat :=
  let i := inverse p (head 0 f) in [seq (i * a) %% p | a <- f].
(** Quotient and remainder of [f] by [h <> 0], on reversed lists. *)
Definition divide (p : nat) (f h : seq nat) : seq nat * seq nat :=
  let: (a, b) := division p (size f) f (monic_rev p h) [::] in (a, trim_rev b).
Fixpoint common (p n : nat) (f h : seq nat) : seq nat :=
  if n is n'.+1 then if h is [::] then f else common p n' h (divide p f h).2 else f.
Definition derivative (p : nat) (f : seq nat) : seq nat :=
  trim (behead [seq (ia.1 * ia.2) %% p | ia <- zip (iota 0 (size f)) f]).
(** nmod_poly_is_squarefree: the polynomial and its derivative have no common divisor. *)
Definition squarefree_test (p : nat) (f : seq nat) : bool :=
  let f := rev (trim f) in
  if f is [::] then false else size (common p (size f) f (rev (derivative p (rev f)))) == 1.

(** nmod_poly_factor for squarefree polynomials, by trial division: the degrees of the factors with multiplicity 1. *)
Fixpoint monics_of (p d : nat) : seq (seq nat) :=
  if d is d'.+1 then [seq rcons f a | f <- monics_of p d', a <- iota 0 p] else [:: [:: 1]].
Definition try_divisor (p : nat) (s : seq nat * seq nat) (h : seq nat) : seq nat * seq nat :=
  if size s.2 < size h then s
  else let: (quotient, r) := divide p s.2 h in
    if r is [::] then (rcons s.1 (size h).-1, quotient) else s.
Definition factor_degrees (p : nat) (f : seq nat) : seq nat :=
  let f := rev (trim f) in
  let s := foldl (fun s d => if s.2 is [:: _] then s else foldl (try_divisor p) s (monics_of p d))
                 ([::], f) (iota 1 (size f)./2) in
  if s.2 is [:: _] then s.1 else rcons s.1 (size s.2).-1.

(** fq_nmod contexts for prime fields: residues, and the residue [g] as the generator. *)
Definition prime_field (p g : nat) : flint_field :=
  @FlintField [the finFieldType of 'F_p] (fun a _ => val a) (fun _ => inZp g).
Definition prime_fields (g p r : nat) : flint_field := prime_field p g.
(** The residue for an exponent, as FqElementTable::at_nmod, /repo/src/fq_element_table.hh:50-53. *)
Definition residue (p g e : nat) : nat := if e == p.-1 then 0 else (g ^ e) %% p.
(** The test and the factorisation in the form the model takes them, /repo/src/curve.cc:110-128, 616-694. *)
Definition replay_squarefree (g p r : nat) (cs : seq (ff_field (prime_fields g p r))) : bool :=
  squarefree_test p [seq val x | x <- cs].
Definition replay_factor (g p r : nat) (cs : seq nat) : seq (nat * nat) :=
  [seq (d, 1) | d <- factor_degrees p [seq residue p g e | e <- cs]].

(** The loop of the tests, /repo/test/threaded.cc:56-61: every block is worked on and added to the shared store. *)
Definition replay_threaded (g : nat) (c : config) : res store :=
  bs <- config_blocks 1000 1000 c ;;
  ss <- mapM (work_block 1000 1000 (@replay_squarefree g) (replay_factor g) 1000 c) bs ;;
  Ok (foldl merge_into [::] ss).
(** The same with given reduction tables, for extensions that are not a prime field. *)
Definition replay_with_tables (g : nat) (c : config) (tables : seq redtable) : res store :=
  bs <- config_blocks 1000 1000 c ;;
  tbl <- thread_table (prime_fields g) 1000 c ;;
  ss <- mapM (fun b =>
    vs <- block_positions 1000 1000 b ;;
    foldM (work_curve 1000 (@replay_squarefree g) (replay_factor g) 1000 tbl tables) [::] vs) bs ;;
  Ok (foldl merge_into [::] ss).

(** A reduction table from the exponents of [a + 1] for the powers [a] of a generator and for zero,
    /repo/src/reduction_table.cc:41-90. *)
Definition given_table (p k : nat) (inc : seq nat) : redtable :=
  RedTable p k (p ^ k) (exponent_reduction_table (p ^ k)) inc.
Definition inc_5 : seq nat := [:: 1; 3; 4; 2; 0].
Definition inc_7 : seq nat := [:: 2; 4; 1; 6; 5; 3; 0].
(** The field generated over F_5 by [x] with x^2 = x + 3, and over F_7 by [x] with x^2 = x + 4. *)
Definition inc_25 : seq nat :=
  [:: 6; 22; 17; 10; 23; 14; 18; 8; 4; 11; 13; 16; 24; 5; 3; 2; 20; 1; 12; 9; 19; 7; 15; 21; 0].
Definition inc_49 : seq nat :=
  [:: 16; 5; 11; 45; 17; 38; 47; 35; 32; 19; 46; 31; 14; 39; 29; 37; 8; 18; 21; 44; 43; 27; 34; 30; 48; 7; 12; 6; 23;
      25; 3; 1; 40; 22; 15; 26; 2; 20; 36; 10; 24; 28; 41; 33; 13; 42; 9; 4; 0].

(** The exponents of [a + 1] in the field with x^2 = u x + v over F_p, for the powers [a] of [x] and for zero; elements
    c + d x are pairs.  This is what /repo/src/reduction_table.cc:108-179 computes with FLINT. *)
Definition quadratic_powers (p u v : nat) : seq (nat * nat) :=
  traject (fun a : nat * nat => ((a.2 * v) %% p, (a.1 + a.2 * u) %% p)) (1, 0) (p ^ 2).-1.
Definition quadratic_inc (p u v : nat) : seq nat :=
  let els := rcons (quadratic_powers p u v) (0, 0) in
  [seq index (a.1.+1 %% p, a.2) els | a <- els].

(** The curve of /repo/test/small_curves.cc after counting, as in single_curve_fp with the tables above. *)
Definition replay_curve (g p : nat) (cs : seq nat) (tables : seq redtable) : res curve :=
  c <- mk_curve p 1 p (coeff_exponents (conversion_map 1000 p g) cs) ;; foldM (count 1000) c tables.

(** The positions an iterator runs through in /repo/test/block_iterator.cc:46-49. *)
Definition collect (A : Type) (f : biter -> res A) (r : res biter) : res (seq A) :=
  it <- r ;; iterate 1000 f 100 it.
