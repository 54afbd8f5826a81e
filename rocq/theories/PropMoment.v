(** Property C78: sums of the offsets over all curves of a table.  Statements use the model functions of Main.v, Standalone.v,
    Mpi.v, Worker.v and Files.v and the vocabulary of MomentSpec.v, TidySpec.v, MainSpec.v and CurveSpec.v only.  [M],
    [W] and [S] stand for 2^31, 2^32 and 2^64. *)
Set Warnings "-notation-overridden,-ambiguous-paths".
From mathcomp Require Import all_ssreflect ssralg ssrnum ssrint poly finalg zmodp.
From Verif Require Import Res FinField CurveSpec RamSpec OMap Store StoreSpec Text Files FilesSpec Pool Standalone
  Mpi Config Worker WorkerSpec Main MainSpec TableSpec TableProofs TidySpec RamCountSpec MomentSpec MomentProofs PropTable PropRamCount.

Set Implicit Arguments.
Unset Strict Implicit.
Unset Printing Implicit Defensive.

(** C78, under the hypotheses of [C68_results_partial], which the name refers to: when a run of one of the programs is through,
    whatever was run and merged before, then in the table that is merged from the result directory of a configuration the
    squares of the first offsets, weighted with the counts, sum up to a number that depends on the size of the field and the genus
    only, and so do the second offsets. *)
Theorem C78_moments_partial :
  forall (W S M : nat) (flint : nat -> nat -> flint_field)
    (is_squarefree : forall p r, seq (ff_field (flint p r)) -> bool)
    (factor : nat -> nat -> seq nat -> seq (nat * nat)),
    2 * M <= W -> W <= S ->
  forall (dir : seq char -> nat) (w : world) (fuel : nat) (o : options) (cs : seq config) (calls : seq cmd) (e : ending),
    main M W dir w fuel o = Ok (Ran cs calls e) -> proper W S M is_squarefree factor dir fuel cs ->
  forall (fs : seq file), tidied W S M is_squarefree factor dir cs fs ->
  let contrib := contribution W S is_squarefree factor fuel cs in
  (forall kinds acts s, run contrib (start kinds fs calls) acts = Ok s -> through e s ->
    forall i, promised e cs i -> sound M is_squarefree factor (nth c0 cs i) ->
      moments_checked M W dir (nth c0 cs i) (files s)) /\
  (forall kinds acts s, 0 < size kinds -> mrun contrib (mstart kinds fs calls) acts = Ok s -> mthrough e s ->
    forall i, promised e cs i -> sound M is_squarefree factor (nth c0 cs i) ->
      moments_checked M W dir (nth c0 cs i) (m_files s)).
Proof. move=> W S M flint is_squarefree factor HMW HWS; exact: program_moments. Qed.
Print Assumptions C78_moments_partial.

(** The hypotheses are met in [C68_case] and [C74_case].  The complete table of the curves of genus 1 over the field with three
    elements with the offsets over two fields, 144 equations, passes the checks, and so does the table of
    [C70_case] for curves with a marked point.  A table with two pairs of curves moved to
    another row passes the checks of C70 and has the numbers of C77, but fails the check of the first offsets.  A table with one of
    the second offsets wrong passes the check of the first offsets only. *)
Definition both_3 : store :=
  [:: (([:: 1; 1; 1; 1], [:: 0%Z; (- 6)%Z]), 2);
      (([:: 1; 1; 2], [:: (- 2)%Z; (- 2)%Z]), 12); (([:: 1; 1; 2], [:: 0%Z; (- 6)%Z]), 12); (([:: 1; 1; 2], [:: 2%Z; (- 2)%Z]), 12);
      (([:: 1; 3], [:: (- 3)%Z; 3%Z]), 8); (([:: 1; 3], [:: (- 1)%Z; (- 5)%Z]), 24);
      (([:: 1; 3], [:: 1%Z; (- 5)%Z]), 24); (([:: 1; 3], [:: 3%Z; 3%Z]), 8);
      (([:: 2; 2], [:: 0%Z; (- 6)%Z]), 6);
      (([:: 4], [:: (- 2)%Z; (- 2)%Z]), 12); (([:: 4], [:: 0%Z; (- 6)%Z]), 12); (([:: 4], [:: 2%Z; (- 2)%Z]), 12)].
Definition moved_3 : store :=
  st_set (st_set (st_set both_3 ([:: 1; 1; 2], [:: (- 2)%Z; (- 2)%Z]) 10) ([:: 1; 1; 2], [:: 2%Z; (- 2)%Z]) 10)
    ([:: 1; 1; 2], [:: 0%Z; (- 6)%Z]) 16.
Definition second_3 : store :=
  st_set (behead both_3) ([:: 1; 1; 1; 1], [:: 0%Z; (- 4)%Z]) 2.

Example C78_case :
  [/\ is_map both_3, table_check 3 1 false 2 both_3, moments_check 3 1 false 2 both_3 & moments_check 3 1 true 1 table_3] /\
  [/\ table_check 3 1 false 2 moved_3,
      all (fun r => \sum_(kn <- moved_3 | kn.1.1 == r) kn.2 == ramified_number 3 1 false points_3 r)
        [:: [:: 1; 1; 1; 1]; [:: 1; 1; 2]; [:: 1; 3]; [:: 2; 2]; [:: 4]],
      ~ moments_check 3 1 false 2 moved_3,
      moments_check 3 1 false 1 second_3 & ~ moments_check 3 1 false 2 second_3].
Proof.
have Hr (T : store) : size T = 12 ->
    (forall i, i < 12 -> 0 < (nth ([::], [::], 0) T i).2 /\ row_check 3 1 false 2 (nth ([::], [::], 0) T i).1) ->
    forall kn, kn \in T -> 0 < kn.2 /\ row_check 3 1 false 2 kn.1.
  by move=> Hs H kn /(nthP ([::], [::], 0)) [i]; rewrite Hs => Hi <-; exact: H.
split; split.
- by vm_compute.
- split.
  + by rewrite unlock; vm_compute.
  + by apply: twist_test; vm_compute.
  + by apply: Hr => // -[|[|[|[|[|[|[|[|[|[|[|[|i]]]]]]]]]]]] //= _; split=> //; split=> // -[|[|j]].
  + by case=> [|[|j]] // _ _; rewrite unlock; vm_compute.
- by split=> _; rewrite /first_moment_check /second_moment_check /total_of unlock; vm_compute.
- by split=> // _; rewrite /first_moment_check /total_of unlock; vm_compute.
- split.
  + by rewrite unlock; vm_compute.
  + by apply: twist_test; vm_compute.
  + by apply: Hr => // -[|[|[|[|[|[|[|[|[|[|[|[|i]]]]]]]]]]]] //= _; split=> //; split=> // -[|[|j]].
  + by case=> [|[|j]] // _ _; rewrite unlock; vm_compute.
- by rewrite /= /ramified_number unlock; vm_compute.
- by case=> /(_ isT); rewrite /first_moment_check /total_of unlock; vm_compute.
- by split=> // _; rewrite /first_moment_check /total_of unlock; vm_compute.
- by case=> _ /(_ isT); rewrite /second_moment_check /total_of unlock; vm_compute.
Qed.
