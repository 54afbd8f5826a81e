(** Properties C45 and C55: the work of one thread, and the whole program.  Statements use the model
    functions of Worker.v, Standalone.v and Files.v and the vocabulary of WorkerSpec.v, StandaloneSpec.v
    and CurveSpec.v only.  [M], [W] and [S] stand for 2^31, 2^32 and 2^64. *)
Set Warnings "-notation-overridden,-ambiguous-paths".
From Coq Require Import String.
From mathcomp Require Import all_ssreflect ssralg ssrnum ssrint poly finalg.
From Verif Require Import Res FinField CurveSpec OMap Store StoreSpec Text Files FilesSpec Pool Standalone
  StandaloneSpec Curve Config Worker WorkerSpec FlintExists EndToEnd.

Set Implicit Arguments.
Unset Strict Implicit.
Unset Printing Implicit Defensive.

(** C55: a thread has the tables with exponents n*r, ..., 2*r, r, in this order. *)
Theorem C55_tables :
  forall (W S M : nat) (flint : nat -> nat -> flint_field) (c : config),
    2 * M <= W -> W <= S -> admissible M c -> flint_fields flint c ->
    exists N tables, forall fuel, N <= fuel ->
      config_exponents W S fuel c = Ok [seq j * g_exponent c | j <- rev (iota 1 (g_count c))] /\
      thread_redtables W S flint fuel c = Ok tables /\
      [seq rt_exponent t | t <- tables] = [seq j * g_exponent c | j <- rev (iota 1 (g_count c))].
Proof. move=> W S M flint c HMW HWS; exact: tables_used. Qed.
Print Assumptions C55_tables.

(** C55: every key in the result for a block of the configuration has exactly n offsets. *)
Theorem C55_offsets :
  forall (W S M : nat) (flint : nat -> nat -> flint_field)
    (is_squarefree : forall p r, seq (ff_field (flint p r)) -> bool)
    (factor : nat -> nat -> seq nat -> seq (nat * nat)) (c : config),
    2 * M <= W -> W <= S -> admissible M c -> flint_fields flint c -> flint_polys is_squarefree factor c ->
    exists N bs, forall fuel, N <= fuel -> config_blocks W fuel c = Ok bs /\
      forall b, b \in bs -> exists s, work_block W S is_squarefree factor fuel c b = Ok s /\
        forall k n, st_find s k = Some n -> size k.2 = g_count c.
Proof. move=> W S M flint is_squarefree factor c HMW HWS; exact: offsets_used. Qed.
Print Assumptions C55_offsets.

Definition config_9 : config := Config 3 2 1 true 2 (text "q9g1") 100.
Definition config_3 : config := Config 3 1 1 true 1 (text "q3g1") 100.

(** The hypotheses can be met: for every configuration with a prime there are fields, factorisations
    and a test for squarefreeness. *)
Example C55_case :
  config_exponents 1000 1000 10 config_9 = Ok [:: 4; 2] /\ admissible 100 config_9 /\
  forall c, prime (g_prime c) -> 0 < g_exponent c ->
    exists flint (is_squarefree : forall p r, seq (ff_field (flint p r)) -> bool) factor,
      flint_fields flint c /\ flint_polys is_squarefree factor c.
Proof.
do 2 (split; first by vm_compute); move=> c Hp Hr; have [flint H] := flint_exists Hp Hr.
exists flint, (@squarefree_of flint), (factor_in flint); split=> //; exact: flint_polys_ok.
Qed.

(** C45, the part that holds.  For configurations with different result directories: all threads finish
    their work on all blocks, and after any history of killed runs followed by a run that ends, whatever the
    threads and the schedules were, merging the result directory of a configuration yields the table
    which gives every key the number of squarefree polynomials that have it.

    Missing from the full statement: [q^n + 1] and the degrees fit an [int] ([admissible]); FLINT has
    compatible generators (Conway polynomials) for the fields of order q, ..., q^n ([flint_fields]);
    threads with OpenCL are taken to compute what the others compute (see [C64_same_contribution]); no run is killed while it writes
    a record file (see [C43_torn_record_refuted]). *)
Theorem C45_end_to_end_partial :
  forall (W S M : nat) (flint : nat -> nat -> flint_field)
    (is_squarefree : forall p r, seq (ff_field (flint p r)) -> bool)
    (factor : nat -> nat -> seq nat -> seq (nat * nat)),
    2 * M <= W -> W <= S ->
  forall (cs : seq config) (dir : seq char -> nat),
    (forall i, i < size cs ->
       [/\ admissible M (nth c0 cs i), flint_fields flint (nth c0 cs i) &
           flint_polys is_squarefree factor (nth c0 cs i)]) ->
    uniq [seq dir (g_path c) | c <- cs] ->
  exists jobs N, forall fuel, N <= fuel ->
  let contrib := contribution W S is_squarefree factor fuel cs in
  [/\ program_jobs W fuel dir cs = Ok jobs, size jobs = size cs,
      forall j b, j \in jobs -> b \in j.2 ->
        exists s, work_block W S is_squarefree factor fuel (nth c0 cs j.1.2) b = Ok s &
      forall fs kinds acts s, history contrib jobs fs ->
        run contrib (start kinds fs (main_program jobs)) acts = Ok s -> s_pc s = PDone ->
      forall i, i < size cs -> let c := nth c0 cs i in
      forall d0 ids cuts d listing, fresh d0 -> replay (dir (g_path c)) (files s) ids cuts d0 = Ok d ->
        perm_eq listing (names d) ->
      exists T R N', [/\ is_map T,
        forall fuel', N' <= fuel' -> merge M W fuel' d listing = Ok (Some (print_store T, print_record R)) &
        forall (L : nat -> finFieldType) (emb : forall j, {rmorphism field_of flint c -> L j}),
        tower (field_of flint c) L ->
        forall k, st_find T k =
          let n := brute_force (point_key emb (g_count c)) (g_genus c) (g_marked c) k in
          if n == 0 then None else Some n]].
Proof. exact: end_to_end. Qed.
Print Assumptions C45_end_to_end_partial.

(** Complete runs and directories: three threads work on the blocks of a configuration over the field
    with three elements, and the directory had a file of somebody else.  See [C55_case] for fields. *)
Example C45_case :
  exists jobs, program_jobs 200 100 (fun _ => 0) [:: config_3] = Ok jobs /\ admissible 100 config_3 /\
  let d0 := [:: ((text "notes", text ".txt"), Regular (text "hello"))] in
  fresh d0 /\
  forall contrib, exists acts s d,
    [/\ run contrib (start [:: true; false; false] [::] (main_program jobs)) acts = Ok s, s_pc s = PDone,
        files s <> [::] & replay 0 (files s) (fun n => [:: nseq n 49]) (fun _ => 0) d0 = Ok d].
Proof.
eexists; split; first by vm_compute; reflexivity.
split; first by vm_compute.
split.
  split=> [//|f Hf|f]; last by rewrite inE => /eqP->.
  by rewrite /lookup; case: (f =P _) Hf.
move=> contrib; exists (flatten (nseq 100 [:: Main false; Step 0; Step 2; Main true; Step 1; Wake 0; Wake 1; Wake 2])).
do 2 eexists; split; [by vm_compute; reflexivity|by []|by []|by vm_compute; reflexivity].
Qed.

(** C45: what a restarted program reads from the files in a directory is the set of blocks with which
    the model of the pool starts. *)
Theorem C45_restart_reads :
  forall (W S M : nat) (flint : nat -> nat -> flint_field)
    (is_squarefree : forall p r, seq (ff_field (flint p r)) -> bool)
    (factor : nat -> nat -> seq nat -> seq (nat * nat)),
    2 * M <= W -> W <= S ->
  forall (cs : seq config) (dir : seq char -> nat),
    (forall i, i < size cs ->
       [/\ admissible M (nth c0 cs i), flint_fields flint (nth c0 cs i) &
           flint_polys is_squarefree factor (nth c0 cs i)]) ->
    uniq [seq dir (g_path c) | c <- cs] ->
  exists jobs N, forall fuel, N <= fuel -> program_jobs W fuel dir cs = Ok jobs /\
    forall fs, history (contribution W S is_squarefree factor fuel cs) jobs fs ->
    forall i, i < size cs ->
    forall d0 ids cuts d listing, fresh d0 -> replay (dir (g_path (nth c0 cs i))) fs ids cuts d0 = Ok d ->
      perm_eq listing (names d) ->
    exists N', forall fuel', N' <= fuel' ->
      initial_record M W fuel' d listing = Ok (read_records fs (dir (g_path (nth c0 cs i)))).
Proof. exact: restart_reads. Qed.
Print Assumptions C45_restart_reads.
