(** Property C79: the numbers of points in a row of a table.  Statements use the model functions of Main.v, Standalone.v,
    Mpi.v, Worker.v and Files.v and the vocabulary of ClosedSpec.v, TidySpec.v, MainSpec.v and CurveSpec.v only.  [M],
    [W] and [S] stand for 2^31, 2^32 and 2^64. *)
Set Warnings "-notation-overridden,-ambiguous-paths".
From mathcomp Require Import all_ssreflect ssralg ssrnum ssrint poly finalg zmodp.
From Verif Require Import Res FinField CurveSpec RamSpec OMap Store StoreSpec Text Files FilesSpec Pool Standalone
  Mpi Config Worker WorkerSpec Main MainSpec TableSpec TableTest TidySpec RamCountSpec MomentSpec PropRamCount PropMoment PropReference
  ClosedSpec ClosedProofs.

Set Implicit Arguments.
Unset Strict Implicit.
Unset Printing Implicit Defensive.

(** C79, under the hypotheses of [C68_results_partial], which the name refers to: when a run of one of the programs is through,
    whatever was run and merged before, then every row of the table that is merged from the result directory of a configuration
    fits to numbers of closed points of a curve with the ramification points of the row.  In particular there are at least as many
    points over an extension as over the fields it contains. *)
Theorem C79_closed_points_partial :
  forall (W S M : nat) (flint : nat -> nat -> flint_field)
    (is_squarefree : forall p r, seq (ff_field (flint p r)) -> bool)
    (factor : nat -> nat -> seq nat -> seq (nat * nat)),
    2 * M <= W -> W <= S ->
  forall (dir : seq char -> nat) (w : world) (fuel : nat) (o : options) (cs : seq config) (calls : seq cmd) (e : ending),
    main M W dir w fuel o = Ok (Ran cs calls e) -> proper W S M is_squarefree factor dir fuel cs ->
  forall (fs : seq file), tidied W S M is_squarefree factor dir cs fs ->
  let contrib := contribution W S is_squarefree factor fuel cs in
  (forall kinds acts s, run contrib (start kinds fs calls) acts = Ok s -> through e s ->
    forall i, promised e cs i -> sound M is_squarefree factor (nth c0 cs i) ->
      closed_checked M W dir (nth c0 cs i) (files s)) /\
  (forall kinds acts s, 0 < size kinds -> mrun contrib (mstart kinds fs calls) acts = Ok s -> mthrough e s ->
    forall i, promised e cs i -> sound M is_squarefree factor (nth c0 cs i) ->
      closed_checked M W dir (nth c0 cs i) (m_files s)).
Proof. move=> W S M flint is_squarefree factor HMW HWS; exact: program_closed. Qed.
Print Assumptions C79_closed_points_partial.

(** The hypotheses are met in [C68_case] and [C74_case].  All rows of the complete table of [C78_case] pass the check.  A table with
    the second offsets of three of its rows changed passes the checks of C70 and C78 and has the numbers of C77, but a curve of
    one of its rows would have four points over the field with three elements and none over the one with nine. *)
Definition second_offsets_3 : store :=
  [seq if kn.1 == ([:: 1; 1; 2], [:: 0%Z; (- 6)%Z]) then (([:: 1; 1; 2], [:: 0%Z; 10%Z]), kn.2)
       else if kn.1 == ([:: 1; 1; 2], [:: (- 2)%Z; (- 2)%Z]) then (([:: 1; 1; 2], [:: (- 2)%Z; (- 10)%Z]), kn.2)
       else if kn.1 == ([:: 1; 1; 2], [:: 2%Z; (- 2)%Z]) then (([:: 1; 1; 2], [:: 2%Z; (- 10)%Z]), kn.2) else kn | kn <- both_3].

Example C79_case :
  (forall kn, kn \in both_3 -> closed_check 3 2 kn.1) /\
  [/\ is_map second_offsets_3, table_check 3 1 false 2 second_offsets_3, moments_check 3 1 false 2 second_offsets_3,
      all (fun r => \sum_(kn <- second_offsets_3 | kn.1.1 == r) kn.2 == ramified_number 3 1 false points_3 r)
        [:: [:: 1; 1; 1; 1]; [:: 1; 1; 2]; [:: 1; 3]; [:: 2; 2]; [:: 4]] &
      (([:: 1; 1; 2], [:: 0%Z; 10%Z]), 12) \in second_offsets_3 /\ ~ closed_check 3 2 ([:: 1; 1; 2], [:: 0%Z; 10%Z])].
Proof.
have H : all (fun kn => closed_test 3 2 kn.1) both_3 by vm_compute.
split; first by move=> kn Hk; apply: closed_testP; exact: (allP H kn Hk).
split.
- by vm_compute.
- by apply: table_test; vm_compute.
- by split=> _; rewrite /first_moment_check /second_moment_check /total_of unlock; apply/eqP; vm_compute.
- by rewrite /ramified_number unlock; vm_compute.
- by split=> //; case=> U /(_ 2 isT) [] /esym/eqP; rewrite addn_eq0 andbF.
Qed.

(** The rows of the reference tables of the test suite pass the check as well. *)
Example C79_reference :
  [/\ forall kn, kn \in reference_5_1 -> closed_check 5 1 kn.1, forall kn, kn \in reference_7_1 -> closed_check 7 1 kn.1 &
      forall kn, kn \in reference_7_2 -> closed_check 7 2 kn.1].
Proof.
have H q n T : all (fun kn => closed_test q n kn.1) T -> forall kn : key * nat, kn \in T -> closed_check q n kn.1.
  by move=> /allP H kn Hk; apply: closed_testP; exact: H.
by split; apply: H; vm_compute.
Qed.
