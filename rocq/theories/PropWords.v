(** The reduction tables with the machine types of the code.  The statements use the model of Words.v, that of Worker.v
    it is compared with, and the vocabulary of FinField.v, TablesSpec.v and WorkerSpec.v only.  [M] and [S] stand
    for 2^31 and 2^64, so that [unsigned int] has [2 M] values. *)
Set Warnings "-notation-overridden,-ambiguous-paths".
From mathcomp Require Import all_ssreflect ssralg ssrint zmodp finalg.
From Verif Require Import Res FinField TablesSpec Curve Config Worker WorkerSpec FlintExists PropTables Words WordsProofs.

Set Implicit Arguments.
Unset Strict Implicit.
Unset Printing Implicit Defensive.

(** C75: for a field with at most [M] elements the tables hold, as non-negative values of type [int32_t], the reductions modulo
    [q-1] and the indices of [1 + g^i]; for a larger field with less than [2 M] elements the constructor
    ends the process, as an index taken from the map is negative and [at] throws; for still larger fields the
    conversion of the number of elements is undefined. *)
Theorem C75_tables :
  forall (M S : nat) (L : finFieldType) (p r : nat) (coeff : L -> nat -> nat),
    (0 < M)%N -> (3 * M <= S)%N -> coordinates p r coeff -> forall (cand : nat -> L) (n fuel : nat),
    (2 < #|L|)%N -> generator (cand n) -> (n < fuel)%N ->
    [/\ (#|L| <= M)%N -> exists (g : L) red inc,
          [/\ word_tables M S coeff fuel p r cand = Ok (#|L|, red, inc), generator g,
              size red = (2 * (#|L| - 1))%N /\
              (forall i, (i < 2 * (#|L| - 1))%N -> nth 0%R red i = Posz (i %% (#|L| - 1))),
              size inc = #|L| &
              forall i, (i < #|L|)%N -> exists2 k, (k < #|L|)%N /\ nth 0%R inc i = Posz k &
                elt_of g k = (1 + elt_of g i)%R],
        (M < #|L|)%N -> (#|L| < 2 * M)%N -> word_tables M S coeff fuel p r cand = Term &
        (2 * M <= #|L|)%N -> word_tables M S coeff fuel p r cand = Undef].
Proof. exact: word_tables_spec. Qed.
Print Assumptions C75_tables.

(** The three cases with words of four bits and the fields of 7, 11 and 17 elements. *)
Example C75_tables_case :
  let coeff p (x : 'F_p) (i : nat) := if i == 0%N then val x else 0%N in
  let tables p r g := word_tables 8 64 (@coeff p) 1 p r (fun _ => g) in
  [/\ coordinates 7 1 (@coeff 7) /\ generator (3%:R : 'F_7)%R,
      tables 7 1%N 3%:R%R = Ok (7, [seq Posz i | i <- [:: 0; 1; 2; 3; 4; 5; 0; 1; 2; 3; 4; 5]%N],
                                  [seq Posz i | i <- [:: 2; 4; 1; 6; 5; 3; 0]%N]),
      tables 11 1%N 2%:R%R = Term & tables 17 1%N 3%:R%R = Undef].
Proof.
split; [split|by vm_compute|by vm_compute|by vm_compute]; last exact: F7_gen.
split=> //.
- by rewrite F7_card.
- by move=> x [|i] //=; apply: leq_trans (ltn_ord x) _; rewrite Fp_cast.
- by move=> x y /(_ 0%N isT) /= /val_inj.
by split=> //; first by case.
Qed.

(** C75: the conversion to [int] and back does not change the ranges of indices, also when the number of elements does not
    fit an [int]. *)
Theorem C75_blocks :
  forall M q : nat, (0 < M)%N -> (q < 2 * M)%N ->
    word_block_non_zero M q = (0, q - 1)%N /\ word_block_complete M q = (0, q)%N.
Proof. exact: word_blocks. Qed.
Print Assumptions C75_blocks.

Example C75_blocks_case : to_int32 8 13 = (- 3%:Z)%R /\ word_block_complete 8 13 = (0, 13)%N.
Proof. by vm_compute. Qed.

(** C75 for the tables of a configuration with an odd prime that passes verify: what the threads get are the tables of
    Worker.v, on which the other theorems rest, if the largest field has at most [M] elements; otherwise the process
    ends or its behaviour is undefined, before any block is worked on. *)
Theorem C75_threads :
  forall (M S : nat) (flint : nat -> nat -> flint_field) (c : config) (fuel : nat),
    (0 < M)%N -> (3 * M <= S)%N -> prime (g_prime c) && odd (g_prime c) -> verify true c ->
    (g_count c * g_exponent c < 2 * M)%N -> flint_fields flint c -> (g_count c < fuel)%N ->
    let Q := ((g_prime c ^ g_exponent c) ^ g_count c)%N in
    [/\ (Q <= M)%N ->
          exists ts, word_thread_tables M S flint fuel c = Ok ts /\ thread_redtables (2 * M) S flint fuel c = Ok ts,
        (M < Q < 2 * M)%N -> word_thread_tables M S flint fuel c = Term &
        (2 * M <= Q)%N -> word_thread_tables M S flint fuel c = Undef].
Proof. exact: word_threads_spec. Qed.
Print Assumptions C75_threads.

(** C75 is false of all configurations that pass verify: with the prime 3 and the count exponents 20 and 21 the tables are
    not built, whatever field FLINT provides, since [2^31 < 3^20 < 2^32 <= 3^21]. *)
Theorem C75_configurations_refuted : exists c1 c2 : config,
  [/\ verify true c1 /\ verify true c2, prime (g_prime c1) /\ prime (g_prime c2),
      exists flint, flint_fields flint c1 /\ flint_fields flint c2 &
      forall flint fuel, (21 < fuel)%N ->
        (flint_fields flint c1 -> word_thread_tables (2 ^ 31) (2 ^ 64) flint fuel c1 = Term) /\
        (flint_fields flint c2 -> word_thread_tables (2 ^ 31) (2 ^ 64) flint fuel c2 = Undef)].
Proof. exact: word_config_refuted. Qed.
Print Assumptions C75_configurations_refuted.

(** A configuration with fields of 7 and 49 elements: admitted with [M = 64], not with [M = 32] or [M = 16]. *)
Example C75_threads_case :
  let c := Config 7 1 1 false 2 [::] 1 in
  [/\ prime (g_prime c) && odd (g_prime c), verify true c, exists flint, flint_fields flint c &
      [/\ (7 ^ 2 <= 64)%N, (32 < 7 ^ 2 < 64)%N & (2 * 16 <= 7 ^ 2)%N]].
Proof. by split=> //; apply: flint_exists. Qed.
