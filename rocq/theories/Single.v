(** Model of /repo/src/single_curve_fp.{hh,cc} and of /repo/src/executables/single.cc, in terms of the
    functions of Tables.v, Curve.v and Worker.v.

    [W] is the number of values of [unsigned int].  FLINT's fields and its factorisation of polynomials
    are arguments as in Worker.v.  Not modelled: the parsing of the command line by boost, the text
    printed for the curve itself (/repo/src/executables/single.cc:134) and the layout of the other
    lines, the messages for the time taken, and OpenCL (the program is taken to be built without it). *)
Set Warnings "-notation-overridden,-ambiguous-paths".
From mathcomp Require Import all_ssreflect ssralg ssrint finalg.
From Verif Require Import Res Tables Curve Worker.

Set Implicit Arguments.
Unset Strict Implicit.
Unset Printing Implicit Defensive.

(** SingleCurveCountImplementation, /repo/src/single_curve_fp.hh:36-42. *)
Inductive implementation := CPU | OpenCL | NaiveNMod | NaiveZech.

(** The loop that builds [fp_conversion_map], /repo/src/single_curve_fp.cc:47-53; the state is the map
    and the variable [a].  The product is one of unsigned values. *)
Definition conversion_step (W p gen : nat) (s : smap nat * nat) (ex : nat) : smap nat * nat :=
  (sm_set s.1 s.2 ex, umul W s.2 gen %% p).
Definition conversion_map (W p gen : nat) : smap nat :=
  (foldl (conversion_step W p gen) ([:: (0, p.-1)], 1) (iota 0 p.-1)).1.

(** [fp_conversion_map[c]] for every coefficient, /repo/src/single_curve_fp.cc:55-57: [operator[]] inserts
    and returns 0 for a missing key; finding that entry later gives 0 again. *)
Definition coeff_exponents (m : smap nat) (cs : seq nat) : seq nat := [seq gp_get m c | c <- cs].

(** The values of [fx] in both loops, /repo/src/single_curve_fp.cc:80 and 99. *)
Definition fx_values (genus : nat) : seq nat := rev (iota 1 genus).

Section Single.
Variable W : nat.
Variable flint : nat -> nat -> flint_field.
Variable factor : nat -> nat -> seq nat -> seq (nat * nat).

(** [enumeration_table->at_nmod(1)], /repo/src/single_curve_fp.cc:46, /repo/src/fq_element_table.hh:50-53:
    the residue of an element of the prime field; [at] throws when out of range. *)
Definition at_nmod (p : nat) (tbl : seq (ff_field (flint p 1))) (ix : nat) : res nat :=
  if drop ix tbl is x :: _ then Ok (@ff_coeff (flint p 1) x 0) else Term.

(** One round of the loops of /repo/src/single_curve_fp.cc:80-96 and 99-119.  The naive functions set up
    FLINT's field and use [fq_nmod_gen] (/repo/src/curve.cc:321-330, 445-454). *)
Definition count_round (fuel p : nat) (impl : implementation) (c : curve) (fx : nat) : res curve :=
  match impl with
  | NaiveNMod | NaiveZech => count_naive (@ff_cand (flint p fx) 0) W c fx
  | _ => t <- mk_redtable flint fuel p fx ;; count W c t
  end.

(** single_curve_fp, /repo/src/single_curve_fp.cc:37-122. *)
Definition single_curve_fp (fuel p : nat) (cs : seq nat) (impl : implementation) : res curve :=
  tbl <- fq_elements fuel p (@ff_cand (flint p 1)) ;;
  gen <- at_nmod tbl 1 ;;
  let exponents := coeff_exponents (conversion_map W p gen) cs in
  if impl is OpenCL then Term
  else
    c <- mk_curve p 1 p exponents ;;
    foldM (count_round fuel p impl) c (fx_values (genus W c)).

(** What main prints, /repo/src/executables/single.cc:134-161. *)
Record output := Output {
  o_exponents : seq nat;
  o_points : seq (nat * nat);
  o_offsets : seq int;
  o_ramification : seq nat }.

(** The choice of the implementation, /repo/src/executables/single.cc:105-129. *)
Definition choose_implementation (naivenmod naivezech : bool) : option implementation :=
  if naivenmod && naivezech then None
  else Some (if naivenmod then NaiveNMod else if naivezech then NaiveZech else CPU).

(** main, /repo/src/executables/single.cc:38-165, once the command line is parsed; [None] stands for an error
    message and the return value 1.  [n_is_prime] is FLINT's test for primality. *)
Definition single_main (fuel p : nat) (cs : seq nat) (naivenmod naivezech : bool) : res (option output) :=
  if size cs < 2 then Ok None
  else if ~~ prime p then Ok None
  else if choose_implementation naivenmod naivezech is Some impl then
    c <- single_curve_fp fuel p cs impl ;;
    t <- mk_redtable flint fuel p 1 ;;
    exps <- convert_coeffs W c t ;;
    pts <- number_of_points c (genus W c) ;;
    Ok (Some (Output exps pts (hasse_weil_offsets W c (genus W c)) (ramification_type W (factor p 1) c)))
  else Ok None.
End Single.
