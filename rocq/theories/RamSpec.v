(** Specification vocabulary for ramification types: irreducible factors of a polynomial over a
    finite field and the degrees of the ramification points of [y^2 = f(x)]. *)
Set Warnings "-notation-overridden,-ambiguous-paths".
From mathcomp Require Import all_ssreflect ssralg poly polydiv finalg.
From Verif Require Import CurveSpec.

Set Implicit Arguments.
Unset Strict Implicit.
Unset Printing Implicit Defensive.
Import GRing.Theory.
Local Open Scope ring_scope.

Section Ramification.
Variable F : finFieldType.
Implicit Types f P : {poly F}.

(** Not constant and not divisible by a polynomial of smaller positive degree. *)
Definition irreducible P : bool :=
  (1 < size P)%N && all (fun d => all (fun h => ~~ (h %| P)) (polys F d)) (iota 1 (size P - 2)).

(** The monic irreducible divisors, each once. *)
Definition prime_divisors f : seq {poly F} :=
  [seq P <- flatten [seq polys F d | d <- iota 1 (size f)]
  | [&& P \is monic, irreducible P & P %| f]].

(** The degrees of the closed ramification points in increasing order: those of the irreducible
    factors, and 1 for the point at infinity if the degree is odd. *)
Definition ramification f : seq nat :=
  sort leq ((if odd (size f).-1 then [:: 1%N] else [::]) ++ [seq (size (P : {poly F})).-1 | P <- prime_divisors f]).

(** Contract of FLINT's factorisation: [fs] lists degree and multiplicity of the distinct monic
    irreducible factors. *)
Definition factorisation f (fs : seq (nat * nat)) : Prop :=
  exists Ps : seq ({poly F} * nat),
    [/\ uniq [seq Pm.1 | Pm <- Ps],
        all (fun Pm => [&& Pm.1 \is monic, irreducible Pm.1 & (0 < Pm.2)%N]) Ps,
        f = lead_coef f *: \prod_(Pm <- Ps) Pm.1 ^+ Pm.2 &
        fs = [seq ((size (Pm.1 : {poly F})).-1, Pm.2) | Pm <- Ps]].
End Ramification.
