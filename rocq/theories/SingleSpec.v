(** Specification vocabulary for hycu-single: the polynomial that was typed, and the contract of FLINT's
    fields over a prime field. *)
Set Warnings "-notation-overridden,-ambiguous-paths".
From mathcomp Require Import all_ssreflect ssralg poly finalg.
From Verif Require Import FinField TablesSpec PointSpec RamSpec Worker.

Set Implicit Arguments.
Unset Strict Implicit.
Unset Printing Implicit Defensive.
Import GRing.Theory.
Local Open Scope ring_scope.

(** The polynomial with the given integers as coefficients, over any field. *)
Definition typed (L : fieldType) (cs : seq nat) : {poly L} := Poly [seq c%:R : L | c <- cs].

Section Flint.
Variable flint : nat -> nat -> flint_field.

(** FLINT's prime field and the element [fq_nmod_gen] of it. *)
Definition prime_field (p : nat) : finFieldType := ff_field (flint p 1).
Definition prime_gen (p : nat) : prime_field p := @ff_cand (flint p 1) 0%N.

(** Contract of FLINT's fields of order [p], ..., [p^n]: the [fq_nmod_gen] are generators and compatible,
    as Conway polynomials provide, and elements have coordinates with respect to a basis that contains 1. *)
Definition prime_tower (p n : nat) : Prop :=
  #|prime_field p| = p /\ generator (prime_gen p) /\
  forall j, (0 < j <= n)%N ->
    let K := flint p j in
    coordinates p j (@ff_coeff K) /\
    exists emb : {rmorphism prime_field p -> ff_field K}, compatible emb (prime_gen p) (@ff_cand K 0%N).

(** Contract of FLINT's factorisation over the prime field: coefficients are given by exponents. *)
Definition prime_factors (p : nat) (factor : nat -> nat -> seq nat -> seq (nat * nat)) : Prop :=
  forall v, all (fun x => (x < p)%N) v -> (1 < size v)%N -> last 0%N v != p.-1 ->
    factorisation (Poly [seq elt_of (prime_gen p) x | x <- v]) (factor p 1%N v).
End Flint.
