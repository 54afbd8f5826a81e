(** Property C77: the numbers of curves with given ramification.  Statements use the model functions of Main.v, Standalone.v,
    Mpi.v, Worker.v and Files.v and the vocabulary of RamCountSpec.v, TidySpec.v, MainSpec.v, CurveSpec.v and RamSpec.v only.  [M],
    [W] and [S] stand for 2^31, 2^32 and 2^64. *)
Set Warnings "-notation-overridden,-ambiguous-paths".
From mathcomp Require Import all_ssreflect ssralg ssrnum ssrint poly finalg zmodp.
From Verif Require Import Res FinField CurveSpec RamSpec OMap Store StoreSpec Text Files FilesSpec Pool Standalone
  Mpi Config Worker WorkerSpec Main MainSpec TableSpec TableProofs TidySpec RamCountSpec RamCount PropTable.

Set Implicit Arguments.
Unset Strict Implicit.
Unset Printing Implicit Defensive.

(** C77, under the hypotheses of [C68_results_partial], which the name refers to: when a run of one of the programs is through,
    whatever was run and merged before, then in the table that is merged from the result directory of a configuration the
    counts of the rows with ramification [r] sum up to a number which is a product of binomial coefficients. *)
Theorem C77_ramification_partial :
  forall (W S M : nat) (flint : nat -> nat -> flint_field)
    (is_squarefree : forall p r, seq (ff_field (flint p r)) -> bool)
    (factor : nat -> nat -> seq nat -> seq (nat * nat)),
    2 * M <= W -> W <= S ->
  forall (dir : seq char -> nat) (w : world) (fuel : nat) (o : options) (cs : seq config) (calls : seq cmd) (e : ending),
    main M W dir w fuel o = Ok (Ran cs calls e) -> proper W S M is_squarefree factor dir fuel cs ->
  forall (fs : seq file), tidied W S M is_squarefree factor dir cs fs ->
  let contrib := contribution W S is_squarefree factor fuel cs in
  (forall kinds acts s, run contrib (start kinds fs calls) acts = Ok s -> through e s ->
    forall i, promised e cs i -> sound M is_squarefree factor (nth c0 cs i) ->
      ramification_checked M W dir (nth c0 cs i) (files s)) /\
  (forall kinds acts s, 0 < size kinds -> mrun contrib (mstart kinds fs calls) acts = Ok s -> mthrough e s ->
    forall i, promised e cs i -> sound M is_squarefree factor (nth c0 cs i) ->
      ramification_checked M W dir (nth c0 cs i) (m_files s)).
Proof. move=> W S M flint is_squarefree factor HMW HWS; exact: program_ramification. Qed.
Print Assumptions C77_ramification_partial.

(** The hypotheses are met in [C68_case] and [C74_case].  The numbers for the field with three elements and genus 1, the table of
    [C70_case], and a table that passes the checks of C70 but not this one. *)
Definition points_3 (e : nat) : nat := nth 0 [:: 0; 3; 3; 8; 18] e.
Definition table_3_wrong : store :=
  st_set (st_set table_3 ([:: 1; 1; 1; 1], [:: 0%Z]) 4) ([:: 1; 1; 2], [:: 0%Z]) 4.

Example C77_case :
  [/\ closed_points 3 (2 * 1 + 2) points_3,
      all (fun r => \sum_(kn <- table_3 | kn.1.1 == r) kn.2 == ramified_number 3 1 true points_3 r)
        [:: [:: 1; 1; 1; 1]; [:: 1; 1; 2]; [:: 1; 3]],
      table_check 3 1 true 1 table_3_wrong & ~ ramification_check 3 1 true table_3_wrong].
Proof.
have HN : closed_points 3 (2 * 1 + 2) points_3 by case=> [|[|[|[|[|e]]]]] // _; rewrite unlock.
split=> //.
- by rewrite /= /ramified_number unlock; vm_compute.
- split.
  + by rewrite unlock; vm_compute.
  + by apply: twist_test; vm_compute.
  + move=> kn; rewrite !inE; do 7 (case/orP; first by move=> /eqP->; split=> //; split=> // -[|j]).
    by move=> /eqP->; split=> //; split=> // -[|j].
  + by case=> // _ _; rewrite unlock; vm_compute.
- by move=> /(_ _ HN [:: 1; 1; 1; 1] isT isT (erefl _) (fun _ => isT)); rewrite /ramified_number unlock; vm_compute.
Qed.

(** C77: for every finite field the numbers are those of the monic irreducible polynomials; so they exist and are determined by the
    equations. *)
Theorem C77_numbers :
  forall (F : finFieldType) (B : nat) (N : nat -> nat),
    closed_points #|F| B N <->
    forall e, 0 < e <= B -> N e = seq.count (fun P : {poly F} => (P \is monic) && irreducible P) (polys F e).
Proof. exact: closed_pointsE. Qed.
Print Assumptions C77_numbers.
