(** Property C71: store files which are shorter than what was written, as after a disk was full.  Statements use the model
    functions of Disk.v, Files.v, Text.v, Main.v, Standalone.v, Mpi.v and Worker.v and the vocabulary of DiskSpec.v, FilesSpec.v,
    MainSpec.v, TableSpec.v and WorkerSpec.v only.  [M], [W] and [S] stand for 2^31, 2^32 and 2^64. *)
Set Warnings "-notation-overridden,-ambiguous-paths".
From Coq Require Import String.
From mathcomp Require Import all_ssreflect ssralg ssrnum ssrint poly finalg.
From Verif Require Import Res FinField OMap Store StoreSpec Text TextSpec Files FilesSpec Pool Standalone Mpi Config Worker WorkerSpec
  Main MainSpec TableSpec Disk DiskSpec DiskProofs.

Set Implicit Arguments.
Unset Strict Implicit.
Unset Printing Implicit Defensive.

(** C71: reading the first characters of the text of a table, up to any place, is defined, and no count is larger than in the
    table. *)
Theorem C71_torn_store :
  forall (M W : nat) (s acc : store) (n : nat), M <= W -> is_map s -> all (fun kn => printable M kn.1) s -> is_map acc ->
  exists s1, [/\ forall fuel line, size s < fuel ->
      extract_store M W fuel (open_text (take n (print_store s))) line acc = Ok s1, is_map s1 &
    forall k, count_of s1 k <= count_of acc k + count_of s k].
Proof. exact: torn_below. Qed.
Print Assumptions C71_torn_store.

(** A table of two lines of nine and eight characters.  Cut in a count, its first digits are read; cut in a key, there is a line for
    a key which nobody wrote, with the count zero, and the number that was not there is the last one read before. *)
Definition torn_table : store := [:: (([:: 1; 2], [:: 3%Z]), 57); (([:: 2; 2], [:: 1%Z]), 4)].

Example C71_torn_case :
  let read n := extract_store 100 200 9 (open_text (take n (print_store torn_table))) [::] [::] in
  [/\ is_map torn_table && all (fun kn => printable 100 kn.1) torn_table, print_store torn_table = text "1,2;3:57
2,2;1:4
", read 7 = Ok [:: (([:: 1; 2], [:: 3%Z]), 5)], read 13 = Ok [:: (([:: 1; 2], [:: 3%Z]), 57); (([:: 2; 2], [:: 2%Z]), 0)] &
     read 16 = Ok torn_table].
Proof. by vm_compute. Qed.

(** C71: the merger reads a directory in which store files were cut as if nothing had happened: the record is the same, and no
    count is larger. *)
Theorem C71_loss_only :
  forall (M W : nat) (d d' : directory) (listing : seq fname) (svs : seq saved),
    M <= W -> shortened d d' -> holds d listing svs -> all (well_saved M) svs ->
  exists r s s', [/\ forall fuel, all (short fuel) svs ->
      merge M W fuel d listing = Ok (Some (print_store s, print_record r)) /\
      merge M W fuel d' listing = Ok (Some (print_store s', print_record r)), is_map s',
    sum_of_saves svs s, blocks_of_saves svs r & below s' s].
Proof. exact: short_merge. Qed.
Print Assumptions C71_loss_only.

Definition torn_save : saved := (text "8", ([:: [:: (0, 1); (2, 5)]], torn_table)).
Definition torn_dir (n : nat) : directory :=
  [:: ((text "8", store_ext), Regular (take n (print_store torn_table)));
      ((text "8", record_ext), Regular (print_record torn_save.2.1))].

Example C71_loss_case :
  [/\ shortened (torn_dir 17) (torn_dir 7), holds (torn_dir 17) (names (torn_dir 17)) [:: torn_save],
      well_saved 100 torn_save, short 9 torn_save &
      merge 100 200 9 (torn_dir 7) (names (torn_dir 7)) = Ok (Some (text "1,2;3:5
", text "
0 1 2 5 
"))].
Proof.
split=> //.
- split=> // f /=; case: eqP => [->|_]; last by left.
  by right; split=> //; exists (print_store torn_table), 7.
split=> //; first by move=> sv; rewrite inE => /eqP->.
  by move=> sv; rewrite inE => /eqP->.
by move=> f; rewrite !inE => /orP[] /eqP->.
Qed.

(** C71, under the hypotheses of [C68_results_partial], which the name refers to: runs with fields of less than 2^31 - 1 elements.
    After such runs store files are cut.  The table that is merged then has no count that is too large, and its counts sum up to
    the number of equations only if all of them are right. *)
Theorem C71_total_certifies_partial :
  forall (W S M : nat) (flint : nat -> nat -> flint_field)
    (is_squarefree : forall p r, seq (ff_field (flint p r)) -> bool)
    (factor : nat -> nat -> seq nat -> seq (nat * nat)),
    2 * M <= W -> W <= S ->
  forall (dir : seq char -> nat) (w : world) (fuel : nat) (o : options) (cs : seq config) (calls : seq cmd) (e : ending),
    main M W dir w fuel o = Ok (Ran cs calls e) -> proper W S M is_squarefree factor dir fuel cs ->
  forall (fs : seq file), earlier W S M is_squarefree factor dir cs fs ->
  let contrib := contribution W S is_squarefree factor fuel cs in
  (forall kinds acts s, run contrib (start kinds fs calls) acts = Ok s -> through e s ->
    forall i, promised e cs i -> sound M is_squarefree factor (nth c0 cs i) ->
      certified M W flint dir (nth c0 cs i) (files s)) /\
  (forall kinds acts s, 0 < size kinds -> mrun contrib (mstart kinds fs calls) acts = Ok s -> mthrough e s ->
    forall i, promised e cs i -> sound M is_squarefree factor (nth c0 cs i) ->
      certified M W flint dir (nth c0 cs i) (m_files s)).
Proof. move=> W S M flint is_squarefree factor HMW HWS; exact: program_certified. Qed.
Print Assumptions C71_total_certifies_partial.

(** The hypotheses about the run are met in [C68_case].  Here the texts of the complete table of genus 1 with a marked point over the
    field with three elements are cut at different places: the sum is 36 as long as no digit of a count is lost. *)
Definition whole_table : store :=
  [:: (([:: 1; 1; 1; 1], [:: 0%Z]), 2);
      (([:: 1; 1; 2], [:: (- 2)%Z]), 6); (([:: 1; 1; 2], [:: 0%Z]), 6); (([:: 1; 1; 2], [:: 2%Z]), 6);
      (([:: 1; 3], [:: (- 3)%Z]), 2); (([:: 1; 3], [:: (- 1)%Z]), 6);
      (([:: 1; 3], [:: 1%Z]), 6); (([:: 1; 3], [:: 3%Z]), 2)].

Example C71_certifies_case :
  let read n := if extract_store 100 200 9 (open_text (take n (print_store whole_table))) [::] [::] is Ok s
                then sumn [seq kn.2 | kn <- s] else 0 in
  [/\ grand_total 3 1 true = 36, size (print_store whole_table) = 77, read 77 = 36, read 76 = 36 &
      (read 75, read 70, read 30, read 5) = (34, 34, 8, 0)].
Proof. by vm_compute. Qed.

(** C71, what a user would like in addition: that a write which failed is noticed, or made up for by a later run.  This is false, although a
    comment calls the record "a witness to successful writing" (/repo/src/store/file_store.cc:71).  If there was no space for the text of the store and then space for that of the record, the directory is taken as complete: a
    later run does not work on these blocks any more, and the merger succeeds with a table in which their counts are missing. *)
Theorem C71_full_disk_refuted :
  forall (M W : nat) (d : directory) (svs : seq saved) (ids : seq (seq char)) (id : seq char) (r : seq block) (s : store),
    M <= W -> uniq (names d) -> plain d -> holds d (names d) svs ->
    all (well_saved M) ((id, (r, s)) :: svs) -> new_stem d ids = Ok id -> has (fun kn => 0 < kn.2) s ->
  exists d' N, save_limited d ids (print_record r) (print_store s) 0 (size (print_record r)) = Ok d' /\
  forall fuel, N <= fuel -> exists R R' T,
    [/\ initial_record M W fuel d' (names d') = Ok R, forall b, b \in r -> contains R b,
        merge M W fuel d' (names d') = Ok (Some (print_store T, print_record R')), is_map T &
        (forall k, count_of T k = sumn [seq count_of sv.2.2 k | sv <- svs]) /\
        exists k, count_of T k < sumn [seq count_of sv.2.2 k | sv <- (id, (r, s)) :: svs]].
Proof. exact: full_disk. Qed.
Print Assumptions C71_full_disk_refuted.

Example C71_full_case :
  let d' := torn_dir 17 ++
    [:: ((text "3", store_ext), Regular [::]); ((text "3", record_ext), Regular (text "1 2 2 5 
"))] in
  [/\ plain (torn_dir 17), new_stem (torn_dir 17) [:: text "8"; text "3"] = Ok (text "3"),
      save_limited (torn_dir 17) [:: text "8"; text "3"] (print_record [:: [:: (1, 2); (2, 5)]]) (print_store whole_table) 0 9 = Ok d',
      initial_record 100 200 9 d' (names d') = Ok [:: [::]; [:: (0, 1); (2, 5)]; [:: (1, 2); (2, 5)]] &
      merge 100 200 9 d' (names d') = Ok (Some (print_store torn_table, text "
0 1 2 5 
1 2 2 5 
"))].
Proof.
split; try by vm_compute.
by move=> f _ /=; case: eqP => // _; case: eqP.
Qed.
