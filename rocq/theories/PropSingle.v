(** Property C51: hycu-single.  Statements use FinField.v, TablesSpec.v, CurveSpec.v ([squarefree]),
    PointSpec.v, RamSpec.v, SingleSpec.v and the model functions of Single.v only.  [M] and [W] stand for
    2^31 and 2^32. *)
Set Warnings "-notation-overridden,-ambiguous-paths".
From mathcomp Require Import all_ssreflect ssralg ssrint poly finalg zmodp zify.
From Verif Require Import Res FinField TablesSpec CurveSpec PointSpec RamSpec Worker FlintExists Single SingleSpec SingleProofs.

Set Implicit Arguments.
Unset Strict Implicit.
Unset Printing Implicit Defensive.
Import GRing.Theory.
Local Open Scope ring_scope.

(** C51, the part that holds: for an odd prime, coefficients below the prime and a polynomial that is not
    constant, the program prints the exponents of the coefficients, for every [j] from 1 to the genus the
    counts and the offset over each field of order [p^j], and the ramification type if the polynomial is
    squarefree; whatever implementation is chosen.

    Missing from the full statement: [p^genus + 1] fits an [int]; the product of [p] and the smallest
    primitive root used by FLINT fits an [unsigned int] (this follows if the genus is at least two);
    FLINT has Conway polynomials for the fields; OpenCL; and what the next two theorems refute. *)
Theorem C51_residues_partial :
  forall (W M : nat) (flint : nat -> nat -> flint_field) (factor : nat -> nat -> seq nat -> seq (nat * nat))
    (p n : nat),
    (2 * M <= W)%N -> prime p -> odd p -> (0 < n)%N -> (p ^ n + 1 < M)%N -> prime_tower flint p n ->
    (p * @ff_coeff (flint p 1) (prime_gen flint p) 0 <= W)%N ->
  forall cs : seq nat, let f := typed (prime_field flint p) cs in let genus := ((size f).-2./2)%N in
    all (fun c => (c < p)%N) cs -> (1 < size f)%N -> (size cs < M)%N -> (genus <= n)%N ->
    prime_factors flint p factor ->
  forall naivenmod naivezech, ~~ (naivenmod && naivezech) ->
  exists out,
    (forall fuel, (0 < fuel)%N -> single_main W flint factor fuel p cs naivenmod naivezech = Ok (Some out)) /\
    [/\ size (o_exponents out) = size f /\
          (forall i, (i < size f)%N -> (nth 0%N (o_exponents out) i < p)%N /\
             elt_of (prime_gen flint p) (nth 0%N (o_exponents out) i) = (nth 0%N cs i)%:R),
        size (o_points out) = genus, size (o_offsets out) = genus,
        forall j (L : finFieldType), (j < genus)%N -> #|L| = (p ^ j.+1)%N ->
          nth (0%N, 0%N) (o_points out) j = true_counts (typed L cs) /\
          nth 0 (o_offsets out) j = (#|L| + 1)%:Z - (curve_points (typed L cs))%:Z &
        squarefree f -> o_ramification out = ramification f].
Proof. exact: single_output. Qed.
Print Assumptions C51_residues_partial.

(** The curve [y^2 = x^5 + 3 x^2 + 2] of genus two modulo 7, with two leading zeros. *)
Example C51_case :
  exists flint factor, let cs := [:: 2; 0; 3; 0; 0; 1; 0; 0]%N in
  [/\ prime_tower flint 7 2, prime_factors flint 7 factor,
      size (typed (prime_field flint 7) cs) = 6%N, all (fun c => (c < 7)%N) cs &
      [/\ (7 ^ 2 + 1 < 100)%N, (7 * @ff_coeff (flint 7%N 1%N) (prime_gen flint 7) 0 <= 200)%N &
          exists out, single_main 200 flint factor 1 7 cs false false = Ok (Some out) /\ size (o_points out) = 2%N]].
Proof.
have [flint Ht] := @prime_tower_exists 7 2 isT; exists flint, (factor_in flint).
have Hf := prime_factors_exist Ht isT.
have Hs : size (typed (prime_field flint 7) [:: 2; 0; 3; 0; 0; 1; 0; 0]%N) = 6%N.
  rewrite -[[:: 2; 0; 3; 0; 0; 1; 0; 0]%N]/([:: 2; 0; 3; 0; 0; 1] ++ nseq 2 0)%N /typed map_cat map_nseq mulr0n.
  by rewrite CurveTheorems.Poly_zeros (@PolyK _ 0) //= mulr1n oner_eq0.
have Hgen : (7 * @ff_coeff (flint 7%N 1%N) (prime_gen flint 7) 0 <= 200)%N.
  by have [_ [_ /(_ 1%N isT) [[_ _ H _ _] _]]] := Ht; have := H (prime_gen flint 7) 0%N; lia.
split; [exact: Ht|exact: Hf|exact: Hs|by []|split; [by []|exact: Hgen|]].
have [||out [H1 [_ H2 _ _ _]]] := @C51_residues_partial 200 100 flint (factor_in flint) 7 2 isT isT isT isT isT Ht Hgen
  [:: 2; 0; 3; 0; 0; 1; 0; 0]%N isT _ isT _ Hf false false isT; rewrite ?Hs //.
by exists out; split; [exact: H1|rewrite H2 Hs].
Qed.

(** C51, the part that fails: a coefficient that is not smaller than the prime (-1 is read as 2^32-1) is
    treated as 1. *)
Theorem C51_large_coefficients :
  forall (W : nat) (flint : nat -> nat -> flint_field) (factor : nat -> nat -> seq nat -> seq (nat * nat))
    (p n : nat) (cs : seq nat) (fuel : nat) (naivenmod naivezech : bool),
    odd p -> (0 < n)%N -> prime_tower flint p n ->
    (p * @ff_coeff (flint p 1) (prime_gen flint p) 0 <= W)%N ->
    single_main W flint factor fuel.+1 p cs naivenmod naivezech =
    single_main W flint factor fuel.+1 p [seq if (c < p)%N then c else 1%N | c <- cs] naivenmod naivezech.
Proof. exact: single_main_large. Qed.
Print Assumptions C51_large_coefficients.

(** So the counts printed for [y^2 = x^3 + x + 5] modulo 5 are not those of this curve. *)
Theorem C51_large_coefficients_refuted :
  forall (W M : nat) (flint : nat -> nat -> flint_field) (factor : nat -> nat -> seq nat -> seq (nat * nat)),
    (2 * M <= W)%N -> (25 <= M)%N -> prime_tower flint 5 1 -> prime_factors flint 5 factor ->
    exists out,
      (forall fuel, (0 < fuel)%N ->
         single_main W flint factor fuel 5 [:: 5; 1; 0; 1]%N false false = Ok (Some out)) /\
      nth (0%N, 0%N) (o_points out) 0 <> true_counts (typed [finFieldType of 'F_5] [:: 5; 1; 0; 1]%N).
Proof. exact: large_wrong. Qed.
Print Assumptions C51_large_coefficients_refuted.

Example C51_large_case : exists flint factor, prime_tower flint 5 1 /\ prime_factors flint 5 factor.
Proof.
have [flint Ht] := @prime_tower_exists 5 1 isT; exists flint, (factor_in flint); split=> //.
exact: prime_factors_exist Ht isT.
Qed.

(** The prime 2 is accepted, and the counts are wrong: [y^2 = x^3 + x + 1] has one point over each [x] and one
    at infinity. *)
Theorem C51_two_refuted :
  exists flint, prime_tower flint 2 1 /\
  forall factor naivenmod naivezech, ~~ (naivenmod && naivezech) ->
  exists out, single_main 1000 flint factor 1 2 [:: 1; 1; 0; 1]%N naivenmod naivezech = Ok (Some out) /\
    nth (0%N, 0%N) (o_points out) 0 <> true_counts (typed [finFieldType of 'F_2] [:: 1; 1; 0; 1]%N).
Proof. by exists flint2; split; [exact: two_tower|exact: two_wrong]. Qed.
Print Assumptions C51_two_refuted.
