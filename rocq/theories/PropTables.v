(** Properties C07-C10: FqElementTable and ReductionTable.  Statements use FinField.v
    ([generator]), TablesSpec.v and the model functions only. *)
Set Warnings "-notation-overridden,-ambiguous-paths".
From mathcomp Require Import all_ssreflect ssralg finalg zmodp.
From Verif Require Import Res FinField Tables TablesSpec TablesProofs.

Set Implicit Arguments.
Unset Strict Implicit.
Unset Printing Implicit Defensive.
Import GRing.Theory.
Local Open Scope ring_scope.

(** The field with seven elements: 3 generates, 2 does not. *)
Example F7_card : #|'F_7| = 7%N.
Proof. by rewrite card_Fp. Qed.
Example F7_gen : generator (3%:R : 'F_7).
Proof.
apply: generator_test; first by vm_compute.
by rewrite F7_card => -[|[|[|[|[|[|i]]]]]] //= _; vm_compute.
Qed.
Example F7_nogen : ~~ generator (2%:R : 'F_7).
Proof.
apply/negP => Hg; have := @generator_small _ _ 3 Hg.
by rewrite F7_card => /(_ isT) /negP; apply; vm_compute.
Qed.

(** C07, the part that holds: if no candidate before the first generator is zero, entry [e]
    is the [e]-th power of a generator, the last entry is zero, and every element is listed
    exactly once.  Full statement: the same for every candidate stream; it fails, see
    [C07_zero_candidate_refuted]. *)
Theorem C07_element_table_partial :
  forall (F : finFieldType) (cand : nat -> F) (n fuel : nat),
    generator (cand n) -> (forall k, (k < n)%N -> cand k != 0) -> (n < fuel)%N ->
    exists g tbl,
      [/\ fq_elements fuel #|F| cand = Ok tbl, generator g, size tbl = #|F|,
          forall e, (e < #|F|)%N -> nth 0 tbl e = elt_of g e &
          forall x, count_mem x tbl = 1%N].
Proof. exact: fq_table_ok. Qed.
Print Assumptions C07_element_table_partial.

Example C07_case :
  let cand i := if i == 0%N then 2%:R else 3%:R : 'F_7 in
  [/\ generator (cand 1%N), forall k, (k < 1)%N -> cand k != 0 &
      bind (fq_elements 2 7 cand) (fun t => Ok [seq val x | x <- t])
        = Ok [:: 1; 3; 2; 6; 4; 5; 0]%N].
Proof. by split; [exact: F7_gen|case=> // _; vm_compute|vm_compute]. Qed.

(** C07, the part that fails: a zero candidate is accepted as a generator; the table then
    consists of one and zeros and misses an element. *)
Theorem C07_zero_candidate_refuted :
  forall (F : finFieldType) (cand : nat -> F) (n fuel : nat), (3 < #|F|)%N ->
    (forall k, (k < n)%N -> cand k != 0 /\ ~~ generator (cand k)) -> cand n = 0 -> (n < fuel)%N ->
    exists tbl, [/\ fq_elements fuel #|F| cand = Ok tbl, size tbl = #|F|,
      count_mem 0 tbl = #|F|.-1 & exists x : F, x \notin tbl].
Proof. exact: fq_table_zero. Qed.
Print Assumptions C07_zero_candidate_refuted.

Example C07_refuted_case :
  let cand i := if i == 0%N then 2%:R else 0 : 'F_7 in
  (forall k, (k < 1)%N -> cand k != 0 /\ ~~ generator (cand k)) /\
  bind (fq_elements 2 7 cand) (fun t => Ok [seq val x | x <- t]) = Ok [:: 1; 0; 0; 0; 0; 0; 0]%N.
Proof. by split; [case=> // _; split; [vm_compute|exact: F7_nogen]|vm_compute]. Qed.

(** C08: every non-zero element is an [n]-th power times the element of exactly one of the
    returned indices, and the list has no repetition. *)
Theorem C08_coset_representatives :
  forall (F : finFieldType) (g x : F) (n : nat), generator g -> x != 0 ->
    uniq (power_coset_representatives #|F| n) /\
    exists! i, i \in power_coset_representatives #|F| n /\
               exists2 y, y != 0 & x = y ^+ n * elt_of g i.
Proof. exact: coset_representatives_ok. Qed.
Print Assumptions C08_coset_representatives.

Example C08_case :
  [/\ generator (3%:R : 'F_7), (5%:R : 'F_7) != 0, power_coset_representatives 7 4 = [:: 0%N; 1%N] &
      (5%:R : 'F_7) = 3%:R ^+ 4 * 3%:R ^+ 1].
Proof. by split; [exact: F7_gen|vm_compute|vm_compute|apply/eqP; vm_compute]. Qed.

(** C09: the exponent reduction table has [2(q-1)] entries and reduces modulo [q-1]. *)
Theorem C09_exponent_reduction_table :
  forall q, (1 < q)%N ->
    size (exponent_reduction_table q) = (2 * (q - 1))%N /\
    forall i, (i < 2 * (q - 1))%N -> vget (exponent_reduction_table q) i = Ok (i %% (q - 1))%N.
Proof. exact: exponent_table_spec. Qed.
Print Assumptions C09_exponent_reduction_table.

Example C09_case : exponent_reduction_table 5 = [:: 0; 1; 2; 3; 0; 1; 2; 3]%N.
Proof. by []. Qed.

(** C10: whatever candidates are tried, once a generator occurs the incrementation table is
    built without failure, has [q] entries, and entry [i] is the index of [1 + g^i] (with
    index [q-1] read as zero). *)
Theorem C10_incrementation_table :
  forall (L : finFieldType) (p r : nat) (coeff : L -> nat -> nat),
    coordinates p r coeff ->
    forall (cand : nat -> L) (n fuel : nat), (2 < #|L|)%N ->
    generator (cand n) -> (n < fuel)%N ->
    exists (g : L) inc,
      [/\ incrementation_table coeff fuel p r #|L| cand = Ok inc, generator g, size inc = #|L| &
          forall i, (i < #|L|)%N -> (nth 0%N inc i < #|L|)%N /\
            elt_of g (nth 0%N inc i) = 1 + elt_of g i].
Proof. exact: inc_table_ok. Qed.
Print Assumptions C10_incrementation_table.

(** Coordinates of the prime field, and the table for a stream that starts with zero and a
    non-generator. *)
Example C10_case :
  let coeff (x : 'F_7) (i : nat) := if i == 0%N then val x else 0%N in
  let cand i := nth 3%:R [:: 0; 2%:R] i : 'F_7 in
  [/\ coordinates 7 1 coeff, generator (cand 2%N) &
      incrementation_table coeff 3 7 1 7 cand = Ok [:: 2; 4; 1; 6; 5; 3; 0]%N].
Proof.
split; last by vm_compute.
  split=> //.
  - by rewrite F7_card.
  - by move=> x [|i] //=; apply: leq_trans (ltn_ord x) _; rewrite Fp_cast.
  - by move=> x y /(_ 0%N isT) /= /val_inj.
  split=> //; first by case.
exact: F7_gen.
Qed.
