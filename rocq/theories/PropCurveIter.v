(** Properties C21-C26: CurveIterator.  Statements use FinField.v ([generator], [elt_of]),
    CurveSpec.v and the model functions only.  [visited W fuel p q genus marked psz] is the
    list of coefficient vectors seen by the workers of a whole run; [W] is the number of values
    of [unsigned int]. *)
Set Warnings "-notation-overridden,-ambiguous-paths".
From mathcomp Require Import all_ssreflect ssralg poly polydiv finalg zmodp zify.
From Verif Require Import Res FinField TablesSpec Tables BlockIter CurveIter Curve CurveSpec PolyOrbit EnumTheorems.

Set Implicit Arguments.
Unset Strict Implicit.
Unset Printing Implicit Defensive.
Import GRing.Theory.
Local Open Scope ring_scope.

(** The smallest case: the field with three elements, generated by 2. *)
Example F3_card : #|'F_3| = 3%N.
Proof. by rewrite card_Fp. Qed.
Example F3_gen : generator (2%:R : 'F_3).
Proof.
apply: generator_test; first by vm_compute.
by rewrite F3_card => -[|[|[|i]]] //= _; vm_compute.
Qed.
Example F3_char : 3%N \in [char 'F_3].
Proof. exact: char_Fp. Qed.
Example F3_hyps :
  [/\ generator (2%:R : 'F_3), 3%N \in [char 'F_3], (3 != 2)%N, (2 * #|'F_3| <= 100)%N & (0 < 5)%N].
Proof. by split; [exact: F3_gen|exact: F3_char| |rewrite F3_card| ]. Qed.

(** A field in which the degrees 3 and 4 are less than the characteristic: seven elements, generated by 3. *)
Example F7_hyps :
  [/\ #|'F_7| = 7%N, generator (3%:R : 'F_7), 7%N \in [char 'F_7], (2 * #|'F_7| <= 100)%N & (0 < 20)%N].
Proof.
have E : #|'F_7| = 7%N by rewrite card_Fp.
split; [exact: E| |exact: char_Fp|by rewrite E|by []].
apply: generator_test; first by vm_compute.
have H : all (fun i => (3%:R : 'F_7) ^+ i != 1) [:: 1; 2; 3; 4; 5]%N by vm_compute.
move=> i; rewrite E => Hi; apply: (allP H); rewrite !inE; move: Hi; clear; lia.
Qed.
Definition visited_7 : seq (seq nat) := if visited 100 200 7 7 1 false 20 is Ok vs then vs else [::].
Definition weight_7 (v : seq nat) : nat :=
  (if multiplicity 7 7 (rhs_support (Curve 7 1 7 v [::])) is Ok m then 2 * m else 0)%N.

(** C21: the vectors are pairwise different, of the requested lengths, with valid indices and
    a leading coefficient that is not zero (index [q-1] stands for zero). *)
Theorem C21_well_formed :
  forall (F : finFieldType) (p W genus : nat) (marked : bool) (psz : nat),
    (1 < #|F|)%N -> p != 2%N -> (2 * #|F| <= W)%N -> (0 < genus)%N -> (0 < psz)%N ->
    exists vs N,
      [/\ forall fuel, (N <= fuel)%N -> visited W fuel p #|F| genus marked psz = Ok vs,
          uniq vs &
          forall v, v \in vs ->
            [/\ (size v).-1 \in requested_degrees genus marked,
                all (fun x => (x < #|F|)%N) v & last 0%N v != #|F|.-1]].
Proof. exact: enum_wellformed. Qed.
Print Assumptions C21_well_formed.

(** There are 19 vectors for degree 3 and 79 for degree 4; among them those of [y^2 = 3^i (x^4 + ...)]. *)
Example C21_case :
  [/\ visited 100 200 7 7 1 false 20 = Ok visited_7, uniq visited_7,
      ([seq seq.count (fun v => size v == d) visited_7 | d <- [:: 4; 5]] = [:: 19; 79])%N,
      all (fun v => all (fun x => x < 7)%N v && (last 0%N v != 6%N)) visited_7 & requested_degrees 1 false = [:: 3; 4]%N].
Proof. by vm_compute. Qed.

(** C22: every polynomial of a requested degree is [c e(ax+b)] for a visited [e]. *)
Theorem C22_every_equation_covered :
  forall (F : finFieldType) (g : F) (p W genus : nat) (marked : bool) (psz : nat),
    generator g -> p \in [char F] -> p != 2%N -> (2 * #|F| <= W)%N ->
    (0 < genus)%N -> (0 < psz)%N ->
    exists vs N,
      (forall fuel, (N <= fuel)%N -> visited W fuel p #|F| genus marked psz = Ok vs) /\
      forall f : {poly F}, (size f).-1 \in requested_degrees genus marked ->
        exists v c a b, [/\ v \in vs, c != 0, a != 0 & f = affine c a b (poly_of g v)].
Proof. exact: enum_complete. Qed.
Print Assumptions C22_every_equation_covered.

(** The hypotheses are met in [F3_hyps] and [F7_hyps].  The cubic [2 e(3x+1)], where [e = x^3 + x] is visited; it is not
    visited itself, for its coefficient of [x^2] is not zero. *)
Example C22_case :
  let g : 'F_7 := 3%:R in let f := affine 2%:R 3%:R 1 (poly_of g [:: 6; 0; 6; 0]%N) in
  [/\ [:: 6; 0; 6; 0]%N \in visited_7, (size f).-1 \in requested_degrees 1 false, f`_2 != 0 &
      all (fun v => (size v != 4) || (nth 0 v 2 == 6))%N visited_7].
Proof.
move=> g f.
have E : poly_of g [:: 6; 0; 6; 0]%N = 'X + 'X^3.
  rewrite /poly_of /map /elt_of card_Fp // (negbTE (_ : 0 != 6)%N) // eqxx expr0; apply/polyP => i; rewrite coef_Poly coefD coefX coefXn.
  by case: i => [|[|[|[|i]]]]; rewrite /= ?addr0 ?add0r ?nth_nil.
split.
- by vm_compute.
- by rewrite /f size_affine // E addrC size_addl ?size_polyXn ?size_polyX.
- rewrite /f /affine E comp_polyD comp_polyX rmorphX /= comp_polyX exprSr sqrrD1 mulrDr mulr1 !mulrDl exprZn -scalerAl -scalerAr -exprSr.
  by rewrite -expr2 exprZn mul1r !(coefD, coefZ, coefX, coefXn, coefC, coefMn, coef1); vm_compute.
- by vm_compute.
Qed.

(** C23: crediting the multiplicity of every visited vector to its class and to the class of
    its twist counts every polynomial of the requested degrees exactly once. *)
Theorem C23_multiplicities :
  forall (F : finFieldType) (g : F) (p W genus : nat) (marked : bool) (psz : nat),
    generator g -> p \in [char F] -> p != 2%N -> (2 * #|F| <= W)%N ->
    (0 < genus)%N -> (0 < psz)%N ->
    forall r, exists vs N mult,
      [/\ forall fuel, (N <= fuel)%N -> visited W fuel p #|F| genus marked psz = Ok vs,
          forall v, v \in vs ->
            multiplicity p #|F| (rhs_support (Curve p r #|F| v [::])) = Ok (mult v) &
          forall (K : eqType) (key : {poly F} -> K) (twist : K -> K), involutive twist ->
            (forall (f : {poly F}) c a b, (size f).-1 \in requested_degrees genus marked ->
               c != 0 -> a != 0 -> key (affine (c ^+ 2) a b f) = key f) ->
            (forall (f : {poly F}) c, (size f).-1 \in requested_degrees genus marked -> c != 0 ->
               (forall s, s ^+ 2 != c) -> key (c *: f) = twist (key f)) ->
            forall k,
              (\sum_(d <- requested_degrees genus marked)
                  seq.count (fun f => key f == k) (polys F d) =
               \sum_(v <- vs)
                  mult v * ((key (poly_of g v) == k) + (twist (key (poly_of g v)) == k)))%N].
Proof. exact: enum_weights. Qed.
Print Assumptions C23_multiplicities.

(** A function meeting the hypotheses (the size, with the identity as twist), and the sums of the doubled multiplicities over the 19
    vectors of degree 3 and the 79 of degree 4: the numbers of all polynomials of these degrees. *)
Example C23_case :
  [/\ involutive (@id nat),
      forall (f : {poly 'F_7}) c a b, c != 0 -> a != 0 -> size (affine (c ^+ 2) a b f) = size f,
      forall (f : {poly 'F_7}) c, c != 0 -> size (c *: f) = size f &
      ([seq sumn [seq weight_7 v | v <- visited_7 & size v == d] | d <- [:: 4; 5]] = [:: 6 * 7 ^ 3; 6 * 7 ^ 4])%N].
Proof.
split=> //.
- by move=> f c a b Hc Ha; rewrite size_affine // expf_neq0.
- by move=> f c Hc; rewrite size_scale.
Qed.

(** C24: on every non-empty support [multiplicity] meets no inexact division, and twice its
    value times a divisor of [q-1] is the order of the affine group times [q-1], or (when only
    scalings act) [(q-1)^2]; in particular no shift drops a set bit. *)
Theorem C24_exact_divisions :
  forall (p q : nat) (support : seq nat), odd q -> (1 < q)%N -> support != [::] ->
    exists m k, [/\ multiplicity p q support = Ok m, (k %| q.-1)%N &
      (2 * m * k = q * q.-1 ^ 2)%N \/ (2 * m * k = q.-1 ^ 2)%N].
Proof. exact: mult_exact. Qed.
Print Assumptions C24_exact_divisions.

Example C24_case :
  (multiplicity 13 13 [:: 0; 2; 5] = Ok 468 /\ multiplicity 3 9 [:: 1; 4; 6] = Ok 16)%N.
Proof. by vm_compute. Qed.

(** C25: prime 2 and genus 0 end the program; otherwise the iterator is constructed, is not at
    its end, and the loop over its blocks ends. *)
Theorem C25_refuses_two_and_genus_zero :
  forall (p q genus : nat) (marked : bool) (psz : nat), p = 2%N \/ genus = 0%N ->
    mk_citer p q genus marked psz = Term.
Proof. by move=> p q genus marked psz [->|->]; rewrite /mk_citer ?eqxx //; case: eqP. Qed.
Print Assumptions C25_refuses_two_and_genus_zero.

Theorem C25_iteration_ends :
  forall (W p q genus : nat) (marked : bool) (psz : nat),
    p != 2%N -> (1 < q)%N -> (2 * q <= W)%N -> (0 < genus)%N -> (0 < psz)%N ->
    exists ci N blocks,
      [/\ mk_citer p q genus marked psz = Ok ci, ~~ ci_is_end ci, size blocks != 0%N &
          forall fuel, (N <= fuel)%N -> ci_iterate W (ci_as_block W) fuel ci = Ok blocks].
Proof. exact: ctor_total. Qed.
Print Assumptions C25_iteration_ends.

(** Prime 2 and genus 0 are refused; for 25 elements and genus 2 there are enumerators for both degrees, 5 being a multiple of the
    characteristic; and the loop for [F_3] in packages of 5 ends after five blocks. *)
Example C25_case :
  [/\ mk_citer 2 4 1 false 7 = Term, mk_citer 5 5 0 true 7 = Term,
      (if mk_citer 5 25 2 false 7 is Ok ci then ~~ ci_is_end ci else false) &
      (if mk_citer 3 3 1 true 5 is Ok ci then
         if ci_iterate 100 (ci_as_block 100) 100 ci is Ok bs then size bs == 5 else false
       else false)%N].
Proof. by vm_compute. Qed.

(** C26: the doubled multiplicities of the visited squarefree equations. *)
Theorem C26_squarefree_total :
  forall (F : finFieldType) (g : F) (p W genus psz : nat),
    generator g -> p \in [char F] -> p != 2%N -> (2 * #|F| <= W)%N ->
    (0 < genus)%N -> (0 < psz)%N ->
    forall r, exists vs N mult,
      [/\ forall fuel, (N <= fuel)%N -> visited W fuel p #|F| genus false psz = Ok vs,
          forall v, v \in vs ->
            multiplicity p #|F| (rhs_support (Curve p r #|F| v [::])) = Ok (mult v) &
          (\sum_(v <- vs | squarefree (poly_of g v)) 2 * mult v =
           #|F|.-1 * (#|F| ^ (2 * genus + 1) - #|F| ^ (2 * genus)) +
           #|F|.-1 * (#|F| ^ (2 * genus + 2) - #|F| ^ (2 * genus + 1)))%N].
Proof. exact: enum_squarefree. Qed.
Print Assumptions C26_squarefree_total.

(** The hypotheses for the field with seven elements, and the number for genus 1: six times [7^3 - 7^2] and six times [7^4 - 7^3]. *)
Example C26_case :
  [/\ generator (3%:R : 'F_7), 7%N \in [char 'F_7], (2 * #|'F_7| <= 100)%N &
      (#|'F_7|.-1 * (#|'F_7| ^ (2 * 1 + 1) - #|'F_7| ^ (2 * 1)) + #|'F_7|.-1 * (#|'F_7| ^ (2 * 1 + 2) - #|'F_7| ^ (2 * 1 + 1)) =
       6 * 294 + 6 * 2058)%N].
Proof. by have [E H1 H2 H3 _] := F7_hyps; split=> //; rewrite E. Qed.

(** A complete small run: [F_3], genus 1, degree 3 only, packages of 5; a vector
    lists the logarithms of [a0], ..., [a3], 2 standing for zero.  Twice the multiplicities sum to
    the number [2 * 3^3] of cubics. *)
Example visited_F3 :
  visited 100 100 3 3 1 true 5 =
  Ok [:: [:: 0; 2; 0; 0]; [:: 0; 2; 1; 0]; [:: 2; 2; 0; 0]; [:: 2; 2; 1; 0]; [:: 0; 0; 2; 0];
         [:: 1; 0; 2; 0]; [:: 2; 0; 2; 0]; [:: 0; 1; 2; 0]; [:: 1; 1; 2; 0]; [:: 2; 1; 2; 0];
         [:: 0; 2; 2; 0]; [:: 1; 2; 2; 0]; [:: 2; 2; 2; 0]]%N /\
  (if visited 100 100 3 3 1 true 5 is Ok vs then
     sumn [seq (if multiplicity 3 3 (rhs_support (Curve 3 1 3 v [::])) is Ok m then 2 * m else 0) | v <- vs]
   else 0)%N = (2 * 27)%N.
Proof. by vm_compute. Qed.
