(** Specification vocabulary for the enumeration: polynomials over a finite field and the
    substitutions that identify isomorphic and twisted curves. *)
Set Warnings "-notation-overridden,-ambiguous-paths".
From mathcomp Require Import all_ssreflect ssralg poly polydiv matrix mxpoly finalg.
From Verif Require Import FinField TablesSpec.

Set Implicit Arguments.
Unset Strict Implicit.
Unset Printing Implicit Defensive.
Import GRing.Theory.
Local Open Scope ring_scope.

(** All polynomials of degree [d], each once. *)
Definition polys (F : finFieldType) (d : nat) : seq {poly F} :=
  filter (fun f : {poly F} => size f == d.+1)
         [seq rVpoly u | u <- enum [finType of 'rV[F]_d.+1]].

(** The substitution [c f(ax+b)]. *)
Definition affine (F : finFieldType) (c a b : F) (f : {poly F}) : {poly F} :=
  c *: (f \Po (a *: 'X + b%:P)).

(** [y] is one of the chosen representatives of the classes modulo [n]-th powers. *)
Definition is_rep (F : finFieldType) (g : F) (n : nat) (y : F) : bool :=
  has (fun i => g ^+ i == y) (iota 0 (gcdn n #|F|.-1)).

(** The polynomial with the given coefficient vector (lowest coefficient first). *)
Definition poly_of (F : finFieldType) (g : F) (v : seq nat) : {poly F} :=
  Poly [seq elt_of g i | i <- v].

(** The degrees of the equations asked for. *)
Definition requested_degrees (genus : nat) (with_marked_point : bool) : seq nat :=
  if with_marked_point then [:: 2 * genus + 1]%N else [:: 2 * genus + 1; 2 * genus + 2]%N.

(** [f] is not divisible by the square of a non-constant polynomial (for [f] non-zero the
    degrees up to that of [f] suffice). *)
Definition squarefree (F : finFieldType) (f : {poly F}) : bool :=
  all (fun d => all (fun h => ~~ (h ^+ 2 %| f)) (polys F d)) (iota 1 (size f)).
