(** Property C70: checks which every merged table passes.  Statements use the model functions of Main.v, Standalone.v,
    Mpi.v, Worker.v and Files.v and the vocabulary of TableSpec.v, MainSpec.v and WorkerSpec.v only.  [M], [W] and [S]
    stand for 2^31, 2^32 and 2^64. *)
Set Warnings "-notation-overridden,-ambiguous-paths".
From mathcomp Require Import all_ssreflect ssralg ssrnum ssrint poly finalg zmodp.
From Verif Require Import Res FinField CurveSpec RamSpec OMap Store StoreSpec Text Files FilesSpec Pool Standalone
  Mpi Config Worker WorkerSpec FlintExists Main MainSpec TableSpec TableProofs.

Set Implicit Arguments.
Unset Strict Implicit.
Unset Printing Implicit Defensive.

(** C70, under the hypotheses of [C68_results_partial], which the name refers to: runs with fields of less than 2^31 - 1
    elements.  Whatever was run before, killed or not, when a run of one of the programs is through, the table which
    is merged from the result directory of a configuration passes the checks: no statement about the table
    refers to polynomials or curves any more. *)
Theorem C70_checks_partial :
  forall (W S M : nat) (flint : nat -> nat -> flint_field)
    (is_squarefree : forall p r, seq (ff_field (flint p r)) -> bool)
    (factor : nat -> nat -> seq nat -> seq (nat * nat)),
    2 * M <= W -> W <= S ->
  forall (dir : seq char -> nat) (w : world) (fuel : nat) (o : options) (cs : seq config) (calls : seq cmd) (e : ending),
    main M W dir w fuel o = Ok (Ran cs calls e) -> proper W S M is_squarefree factor dir fuel cs ->
  forall (fs : seq file), earlier W S M is_squarefree factor dir cs fs ->
  let contrib := contribution W S is_squarefree factor fuel cs in
  (forall kinds acts s, run contrib (start kinds fs calls) acts = Ok s -> through e s ->
    forall i, promised e cs i -> sound M is_squarefree factor (nth c0 cs i) ->
      checked M W dir (nth c0 cs i) (files s)) /\
  (forall kinds acts s, 0 < size kinds -> mrun contrib (mstart kinds fs calls) acts = Ok s -> mthrough e s ->
    forall i, promised e cs i -> sound M is_squarefree factor (nth c0 cs i) ->
      checked M W dir (nth c0 cs i) (m_files s)).
Proof. move=> W S M flint is_squarefree factor HMW HWS; exact: program_checked. Qed.
Print Assumptions C70_checks_partial.

(** The hypotheses are met in [C68_case].  Here is the complete table of the curves with a marked point of genus 1 over the field with three
    elements, 36 equations.  The checks notice a count that is too large by one, a lost row, and a row moved to another key. *)
Definition table_3 : store :=
  [:: (([:: 1; 1; 1; 1], [:: 0%Z]), 2);
      (([:: 1; 1; 2], [:: (- 2)%Z]), 6); (([:: 1; 1; 2], [:: 0%Z]), 6); (([:: 1; 1; 2], [:: 2%Z]), 6);
      (([:: 1; 3], [:: (- 3)%Z]), 2); (([:: 1; 3], [:: (- 1)%Z]), 6);
      (([:: 1; 3], [:: 1%Z]), 6); (([:: 1; 3], [:: 3%Z]), 2)].

Example C70_case :
  [/\ is_map table_3, table_check 3 1 true 1 table_3,
      ~ table_check 3 1 true 1 (st_set table_3 ([:: 1; 3], [:: 3%Z]) 3),
      ~ table_check 3 1 true 1 (behead table_3) &
      ~ table_check 3 1 true 1 (st_set (behead table_3) ([:: 1; 1; 1; 1], [:: 1%Z]) 2)].
Proof.
split; first by vm_compute.
- split.
  + by rewrite unlock; vm_compute.
  + by apply: twist_test; vm_compute.
  + move=> kn; rewrite !inE; do 7 (case/orP; first by move=> /eqP->; split=> //; split=> // -[|j]).
    by move=> /eqP->; split=> //; split=> // -[|j].
  + by case=> // _ _; rewrite unlock; vm_compute.
- by case; rewrite unlock; vm_compute.
- by case; rewrite unlock; vm_compute.
- by case=> _ /(_ ([:: 1; 1; 1; 1], [:: 1%Z])); vm_compute.
Qed.

(** C70: the fields over which the tables are defined exist, whatever the base field is, and the key of an equation does not
    depend on their choice. *)
Theorem C70_well_defined :
  forall (F : finFieldType),
  (exists (L : nat -> finFieldType) (emb : forall j, {rmorphism F -> L j}), tower F L) /\
  (odd #|F| -> forall (L L' : nat -> finFieldType) (emb : forall j, {rmorphism F -> L j})
     (emb' : forall j, {rmorphism F -> L' j}), tower F L -> tower F L' ->
     forall n (f : {poly F}), f != 0%R -> point_key emb n f = point_key emb' n f).
Proof. exact: well_defined. Qed.
Print Assumptions C70_well_defined.

Example C70_well_defined_case : odd #|[finFieldType of 'F_3]| /\ ('X : {poly 'F_3})%R != 0%R.
Proof. by rewrite card_Fp // polyX_eq0. Qed.
