(** Properties C11-C18: Curve.  Statements use FinField.v ([generator]), TablesSpec.v,
    CurveSpec.v, PointSpec.v and the model functions only.  [W] is the number of values of
    [unsigned int]. *)
Set Warnings "-notation-overridden,-ambiguous-paths".
From mathcomp Require Import all_ssreflect ssralg ssrint poly polydiv finalg zmodp zify.
From Verif Require Import Res FinField Tables TablesSpec CurveSpec Curve PointSpec CurveHistory
  CurveTheorems FieldExt.

Set Implicit Arguments.
Unset Strict Implicit.
Unset Printing Implicit Defensive.
Import GRing.Theory.
Local Open Scope ring_scope.

(** The cases below: the field with five elements, generated by 2, and its reduction table. *)
Example F5_card : #|'F_5| = 5%N.
Proof. by rewrite card_Fp. Qed.
Example F5_gen : generator (2%:R : 'F_5).
Proof.
apply: generator_test; first by vm_compute.
by rewrite F5_card => -[|[|[|[|i]]]] //= _; vm_compute.
Qed.
Definition t5 := RedTable 5 1 5 (exponent_reduction_table 5) [:: 1; 3; 4; 2; 0]%N.
Example t5_table : table_of 5 1 (2%:R : 'F_5) t5.
Proof.
split=> //; rewrite ?F5_card //; split=> //; rewrite F5_card // => -[|[|[|[|[|i]]]]] // _;
  split=> //; rewrite /elt_of F5_card; apply/eqP; by vm_compute.
Qed.
(** The curve [y^2 = 2 + 3x + x^3], genus one. *)
Definition c5 := Curve 5 1 5 [:: 1; 3; 4; 0]%N [::].
Example c5_over : curve_over (2%:R : 'F_5) 5 1 100 c5.
Proof. by split; rewrite ?F5_card //; split; rewrite ?F5_card //; exact: F5_gen. Qed.
Example F5_extension k : (0 < k)%N -> (2 * 5 ^ k + 2 < 1000)%N ->
  exists (L : finFieldType) (G : L), extension_of (2%:R : 'F_5) 5 1 1000 k G.
Proof.
move=> Hk HW; have [L [emb HL]] := extension_exists [finFieldType of 'F_5] Hk.
have [G HG] := @compatible_exists _ _ emb _ k F5_gen HL.
exists L, G; split=> //; rewrite ?dvd1n ?HL ?F5_card //; by exists emb.
Qed.

(** C11: the constructor removes zero leading coefficients and nothing else. *)
Theorem C11_construction :
  forall (F : finFieldType) (g : F) (p r : nat) (v : seq nat), generator g ->
    has (fun x => x != #|F|.-1) v ->
    exists c n,
      [/\ mk_curve p r #|F| v = Ok c,
          [/\ c_prime c = p, c_exponent c = r, c_power c = #|F| & c_points c = [::]],
          v = c_coeffs c ++ nseq n #|F|.-1, last 0%N (c_coeffs c) != #|F|.-1 &
          poly_of g (c_coeffs c) = poly_of g v /\ degree c = (size (poly_of g v)).-1].
Proof. exact: mk_curve_ok. Qed.
Print Assumptions C11_construction.

Example C11_case : has (fun x => x != #|'F_5|.-1) [:: 1; 3; 4; 0; 4; 4]%N /\
  mk_curve 5 1 5 [:: 1; 3; 4; 0; 4; 4]%N = Ok c5.
Proof. by rewrite F5_card. Qed.

(** The boundary of C11: the zero polynomial makes the constructor read past the vector. *)
Theorem C11_zero_polynomial_undefined :
  forall (p r q : nat) (v : seq nat), all (fun x => x == q.-1) v -> mk_curve p r q v = Undef.
Proof. exact: mk_curve_zero. Qed.
Print Assumptions C11_zero_polynomial_undefined.

Example C11_zero_case : all (fun x => x == 5.-1) [:: 4; 4]%N /\ mk_curve 5 1 5 [:: 4; 4]%N = Undef.
Proof. by []. Qed.

(** C12: the genus, and which parity of the degree makes the point at infinity ramified. *)
Theorem C12_genus :
  forall (W : nat) (c : curve), (0 < degree c)%N -> (size (c_coeffs c) < W)%N ->
    (odd (degree c) /\ degree c = (2 * genus W c + 1)%N \/
     ~~ odd (degree c) /\ degree c = (2 * genus W c + 2)%N) /\
    forall sq pts, (pts.2 < W.-1)%N -> (at_infinity W c sq pts).2 = (pts.2 + odd (degree c))%N.
Proof. exact: genus_ok. Qed.
Print Assumptions C12_genus.

Example C12_case : (0 < degree c5)%N /\ genus 100 c5 = 1%N /\
  genus 100 (Curve 5 1 5 [:: 0; 3; 4; 0; 1; 1; 2] [::])%N = 2%N.
Proof. by []. Qed.

(** C13: conversion to an extension is the embedding of the coefficients. *)
Theorem C13_conversion :
  forall (F L : finFieldType) (emb : {rmorphism F -> L}) (g : F) (G : L) (p r k W : nat) v pts t,
    generator g -> compatible emb g G -> (1 < p)%N -> (0 < r)%N ->
    #|F| = (p ^ r)%N -> #|L| = (p ^ k)%N -> (r %| k)%N -> (#|L| <= W)%N ->
    rt_prime t = p -> rt_exponent t = k -> rt_power t = #|L| -> all (fun x => (x < #|F|)%N) v ->
    exists cs,
      [/\ convert_coeffs W (Curve p r #|F| v pts) t = Ok cs, size cs = size v,
          all (fun x => (x < #|L|)%N) cs,
          forall i, (i < size v)%N -> elt_of G (nth 0%N cs i) = emb (elt_of g (nth 0%N v i)) &
          poly_of G cs = map_poly emb (poly_of g v)].
Proof. exact: convert_spec. Qed.
Print Assumptions C13_conversion.

(** Vectors of [2 + 3x + x^3] over the fields with 25 and 125 elements. *)
Example C13_case :
  (exists (L : finFieldType) (G : L), extension_of (2%:R : 'F_5) 5 1 1000 2 G) /\
  convert_coeffs 1000 c5 (RedTable 5 2 25 [::] [::]) = Ok [:: 6; 18; 24; 0]%N /\
  convert_coeffs 1000 c5 (RedTable 5 3 125 [::] [::]) = Ok [:: 31; 93; 124; 0]%N.
Proof. by split; [exact: F5_extension|]. Qed.

Theorem C13_refuses_unrelated_fields :
  forall (W : nat) (c : curve) (t : redtable),
    c_prime c != rt_prime t \/ (rt_exponent t %% c_exponent c != 0)%N ->
    convert_coeffs W c t = Term.
Proof. exact: convert_refuses. Qed.
Print Assumptions C13_refuses_unrelated_fields.

Example C13_refuses_case :
  convert_coeffs 100 c5 (RedTable 3 1 3 [::] [::]) = Term /\
  convert_coeffs 100 (Curve 5 2 25 [:: 0] [::])%N t5 = Term.
Proof. by []. Qed.

(** C14: the entry written by [count] adds up to the number of points of the smooth model over
    the extension, its second component being the number of ramification points. *)
Theorem C14_count :
  forall (F : finFieldType) (g : F) (p r W : nat) (c : curve) (t : redtable)
         (L : finFieldType) (G : L) (emb : {rmorphism F -> L}),
    curve_over g p r W c -> c_points c = [::] ->
    (0 < rt_exponent t)%N -> (r %| rt_exponent t)%N -> #|L| = (p ^ rt_exponent t)%N ->
    (2 * #|L| + 2 < W)%N -> compatible emb g G -> table_of p (rt_exponent t) G t ->
    exists c' u n,
      [/\ count W c t = Ok c', c_points c' = [:: (rt_exponent t, (u, n))],
          (u + n)%N = curve_points (map_poly emb (poly_of g (c_coeffs c))) &
          n = ramified_points (map_poly emb (poly_of g (c_coeffs c)))].
Proof. exact: count_true. Qed.
Print Assumptions C14_count.

(** Five points: (1,1), (1,4), (2,1), (2,4) and the ramified one at infinity. *)
Example C14_case : curve_over (2%:R : 'F_5) 5 1 100 c5 /\ table_of 5 1 (2%:R : 'F_5) t5 /\
  count 100 c5 t5 = Ok (Curve 5 1 5 [:: 1; 3; 4; 0] [:: (1, (4, 1))])%N.
Proof. by split; [exact: c5_over|split; [exact: t5_table|]]. Qed.

(** C15: no sequence of counting calls ever reads outside a table, and no sum wraps around (the
    entries equal the mathematical counts for every word size above [2q^k+2]). *)
Theorem C15_always_defined :
  forall (F : finFieldType) (g : F) (p r W : nat) (c : curve) (calls : seq count_call),
    curve_over g p r W c -> c_points c = [::] ->
    (forall call, List.In call calls -> valid_call g p r W call) ->
    exists c', foldM (run_call W) c calls = Ok c'.
Proof. exact: history_defined. Qed.
Print Assumptions C15_always_defined.

Example C15_case : foldM (run_call 13) c5 [:: CallCount t5; CallCount t5] =
  Ok (Curve 5 1 5 [:: 1; 3; 4; 0] [:: (1, (4, 1))])%N.
Proof. by []. Qed.

(** C16: [count] and the naive functions agree, even if they use different representations of
    the extension with different generators. *)
Theorem C16_implementations_agree :
  forall (F : finFieldType) (g : F) (p r W : nat) (c : curve) (t : redtable)
         (L : finFieldType) (G : L),
    curve_over g p r W c -> c_points c = [::] ->
    valid_call g p r W (CallCount t) -> extension_of g p r W (rt_exponent t) G ->
    exists c', count W c t = Ok c' /\ count_naive G W c (rt_exponent t) = Ok c'.
Proof. exact: agree. Qed.
Print Assumptions C16_implementations_agree.

Example C16_case :
  valid_call (2%:R : 'F_5) 5 1 100 (CallCount t5) /\
  count_naive (2%:R : 'F_5) 100 c5 1 = count 100 c5 t5.
Proof.
split; last by vm_compute.
exists [finFieldType of 'F_5], (2%:R); split; last exact: t5_table.
split=> //; rewrite ?F5_card //; exists [rmorphism of idfun]; split; first exact: F5_gen.
by rewrite F5_card.
Qed.

(** C17: after any sequence of counting calls, exactly the exponents of the calls have entries;
    each entry is the true count over every field of that order; nothing else changed. *)
Theorem C17_histories :
  forall (F : finFieldType) (g : F) (p r W : nat) (c : curve) (calls : seq count_call),
    curve_over g p r W c -> c_points c = [::] ->
    (forall call, List.In call calls -> valid_call g p r W call) ->
    exists c',
      [/\ foldM (run_call W) c calls = Ok c',
          [/\ c_prime c' = c_prime c, c_exponent c' = c_exponent c, c_power c' = c_power c &
              c_coeffs c' = c_coeffs c] &
          forall k,
            if k \in [seq call_exponent call | call <- calls] then
              forall (L : finFieldType) (emb : {rmorphism F -> L}), #|L| = (p ^ k)%N ->
                sm_find (c_points c') k = Some (true_counts (map_poly emb (poly_of g (c_coeffs c))))
            else sm_find (c_points c') k = None].
Proof. exact: history. Qed.
Print Assumptions C17_histories.

(** C17: the order and the repetition of calls do not matter. *)
Theorem C17_order_independent :
  forall (F : finFieldType) (g : F) (p r W : nat) (c : curve) (calls calls' : seq count_call),
    curve_over g p r W c -> c_points c = [::] ->
    (forall call, List.In call (calls ++ calls') -> valid_call g p r W call) ->
    [seq call_exponent call | call <- calls] =i [seq call_exponent call | call <- calls'] ->
    foldM (run_call W) c calls = foldM (run_call W) c calls'.
Proof. exact: history_order. Qed.
Print Assumptions C17_order_independent.

(** Naive counting over the field with 25 elements before and after counting with a table. *)
Example C17_case :
  exists (L : finFieldType) (G : L),
    valid_call (2%:R : 'F_5) 5 1 1000 (CallNaive G 2) /\
    valid_call (2%:R : 'F_5) 5 1 1000 (CallCount t5).
Proof.
have [L [G HG]] := @F5_extension 2 isT isT; exists L, G; split=> //.
exists [finFieldType of 'F_5], (2%:R); split; last exact: t5_table.
split=> //; rewrite ?F5_card //; exists [rmorphism of idfun]; split; first exact: F5_gen.
by rewrite F5_card.
Qed.

(** C18: after any sequence of counting calls, [max_prime_exponent] stops before the first
    multiple of [r] that was not counted, and the offsets are [q^j + 1] minus the number of
    points over the extension of degree [j], in order. *)
Theorem C18_offsets :
  forall (F : finFieldType) (g : F) (p r W : nat) (c : curve) (calls : seq count_call),
    curve_over g p r W c -> c_points c = [::] ->
    (forall call, List.In call calls -> valid_call g p r W call) ->
    exists c' m N,
      [/\ foldM (run_call W) c calls = Ok c',
          forall fuel, (N <= fuel)%N -> max_prime_exponent fuel c' = Ok (m * r)%N,
          forall j, (j < m)%N -> (j.+1 * r)%N \in [seq call_exponent call | call <- calls],
          (m.+1 * r)%N \notin [seq call_exponent call | call <- calls] &
          size (hasse_weil_offsets W c' (m * r)) = m /\
          forall j (L : finFieldType) (emb : {rmorphism F -> L}), (j < m)%N -> #|L| = (#|F| ^ j.+1)%N ->
            nth 0 (hasse_weil_offsets W c' (m * r)) j =
              (#|L| + 1)%:Z - (curve_points (map_poly emb (poly_of g (c_coeffs c))))%:Z].
Proof. exact: offsets. Qed.
Print Assumptions C18_offsets.

Example C18_case :
  let c := Curve 5 1 5 [:: 1; 3; 4; 0]%N [:: (1, (4, 1)); (2, (34, 1)); (4, (600, 1))]%N in
  max_prime_exponent 3 c = Ok 2%N /\ hasse_weil_offsets 1000 c 2 = [:: 1%:Z; -9%:Z].
Proof. by []. Qed.
