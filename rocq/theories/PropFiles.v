(** Properties C34, C42, C43 (in part), C57, C58 and C59: result directories and the merger.  Statements use
    StoreSpec.v, TextSpec.v, FilesSpec.v and the model functions of Files.v only. *)
Set Warnings "-notation-overridden,-ambiguous-paths".
From Coq Require Import String.
From mathcomp Require Import all_ssreflect ssralg ssrnum ssrint.
From Verif Require Import Res OMap Store StoreSpec Text TextSpec Files FilesSpec FilesProofs.

Set Implicit Arguments.
Unset Strict Implicit.
Unset Printing Implicit Defensive.

(** The case: a directory with two saves, a store without a record, a subdirectory and a file of
    another kind, listed in some order. *)
Definition save1 : saved := (text "17", ([:: [:: (0, 1); (2, 5)]], [:: (([:: 1; 2], [:: 3%R]), 5)])).
Definition save2 : saved :=
  (text "4", ([:: [:: (1, 2); (2, 5)]], [:: (([:: 1; 2], [:: (-3)%R]), 7); (([:: 1; 2], [:: 3%R]), 8)])).
Definition dir_case : directory :=
  [:: ((text "17", record_ext), Regular (print_record save1.2.1));
      ((text "old", record_ext), Other);
      ((text "99", store_ext), Regular (print_store save1.2.2));
      ((text "4", store_ext), Regular (print_store save2.2.2));
      ((text "notes", text ".txt"), Unreadable);
      ((text "4", record_ext), Regular (print_record save2.2.1));
      ((text "17", store_ext), Regular (print_store save1.2.2))].

(** C34: the merger adds up the saves, in whatever order the directory is listed. *)
Theorem C34_merge_sum :
  forall (M W fuel : nat) (d : directory) (listing : seq fname) (svs : seq saved),
    M <= W -> holds d listing svs -> all (well_saved M) svs -> all (short fuel) svs ->
    exists r s, [/\ merge M W fuel d listing = Ok (Some (print_store s, print_record r)),
      sum_of_saves svs s & blocks_of_saves svs r].
Proof. exact: merge_ok. Qed.
Print Assumptions C34_merge_sum.

Example C34_case :
  [/\ holds dir_case (names dir_case) [:: save1; save2], all (well_saved 100) [:: save1; save2],
      all (short 9) [:: save1; save2] &
      merge 100 200 9 dir_case (rev (names dir_case)) =
        Ok (Some (text "1,2;-3:7
1,2;3:13
", text "
0 1 2 5 
1 2 2 5 
"))].
Proof.
split=> //; split=> //.
- by move=> sv; rewrite !inE => /orP[] /eqP ->.
- by move=> sv; rewrite !inE => /orP[] /eqP ->.
by move=> f; rewrite !inE => /or4P[/eqP->|/eqP->|/eqP->|/or4P[/eqP->|/eqP->|/eqP->|/eqP->]].
Qed.

(** C34: a record without a store makes the merger fail, without output. *)
Theorem C34_missing_store :
  forall (M W fuel : nat) (d : directory) (listing : seq fname) (svs : seq saved),
    M <= W -> uniq [seq sv.1 | sv <- svs] -> (forall sv, sv \in svs -> has_pair d sv) ->
    all (well_saved M) svs -> all (short fuel) svs ->
    (forall f, f \in listing -> f.2 = record_ext -> is_regular d f ->
       f.1 \in [seq sv.1 | sv <- svs] \/ ~~ is_regular d (f.1, store_ext)) ->
    has (fun f => [&& is_regular d f, f.2 == record_ext & ~~ is_regular d (f.1, store_ext)]) listing ->
    merge M W fuel d listing = Ok None.
Proof. exact: merge_missing. Qed.
Print Assumptions C34_missing_store.

Example C34_missing_case :
  let d := ((text "5", record_ext), Regular (text "0 1 2 5 
")) :: dir_case in
  [/\ forall sv, sv \in [:: save1; save2] -> has_pair d sv,
      forall f, f \in names d -> f.2 = record_ext -> is_regular d f ->
        f.1 \in [:: text "17"; text "4"] \/ ~~ is_regular d (f.1, store_ext),
      has (fun f => [&& is_regular d f, f.2 == record_ext & ~~ is_regular d (f.1, store_ext)]) (names d) &
      merge 100 200 9 d (names d) = Ok None].
Proof.
split=> //; first by move=> sv; rewrite !inE => /orP[] /eqP ->.
move=> f; rewrite !inE; case/or4P => [/eqP->|/eqP->|/eqP->|]; first by right.
- by left.
- by [].
by case/orP=> [/eqP->|/or4P[/eqP->|/eqP->|/eqP->|/eqP->]] //; left.
Qed.

(** C42: if the process is killed at any point of a save, no other file has changed, and if there
    is a record file, then the store file is complete; a save that is not interrupted ends in the
    last of these states. *)
Theorem C42_crash_safe :
  forall (d : directory) (ids : seq (seq char)) (id record_text store_text : seq char),
    plain d -> new_stem d ids = Ok id ->
    save d ids record_text store_text = Ok (last d (save_states d id record_text store_text)) /\
    forall i, i < size (save_states d id record_text store_text) ->
      let d' := nth d (save_states d id record_text store_text) i in
      (forall f, f.1 != id -> lookup d' f = lookup d f) /\
      (is_regular d' (id, record_ext) -> lookup d' (id, store_ext) = Some (Regular store_text)).
Proof. by move=> d ids id rt st Hpl Hid; split; [exact: crash_final | move=> i; exact: crash_ok Hpl Hid]. Qed.
Print Assumptions C42_crash_safe.

Example C42_case :
  let d := [:: ((text "17", record_ext), Regular (print_record save1.2.1));
               ((text "17", store_ext), Regular (print_store save1.2.2))] in
  let states := save_states d (text "4") (print_record save2.2.1) (print_store save2.2.2) in
  [/\ new_stem d [:: text "17"; text "4"; text "5"] = Ok (text "4"), size states = 29,
      is_regular (nth d states 20) (text "4", record_ext) &
      lookup (nth d states 28) (text "4", record_ext) = Some (Regular (text "1 2 2 5 
"))].
Proof. by []. Qed.

(** C43 is false of crashes within the writing of the record file: if the process is killed when the
    record file has been created and nothing has been written to it, then none of its blocks is
    found at the next start, and when they are saved again, the merger counts them twice.
    (C43_restart_partial in PropPool.v is about crashes at all other points.) *)
Theorem C43_torn_record_refuted :
  forall (M W : nat) (d : directory) (svs : seq saved) (ids ids' : seq (seq char)) (id : seq char)
    (r : seq block) (s : store),
    M <= W -> uniq (names d) -> plain d -> holds d (names d) svs ->
    all (well_saved M) ((id, (r, s)) :: svs) -> new_stem d ids = Ok id ->
    exists2 i, i < size (save_states d id (print_record r) (print_store s)) &
    let d' := nth d (save_states d id (print_record r) (print_store s)) i in
    (exists fuel R, initial_record M W fuel d' (names d') = Ok R /\
       forall b, b != [::] -> contains R b = has (fun sv : saved => b \in sv.2.1) svs) /\
    forall d'', save d' ids' (print_record r) (print_store s) = Ok d'' ->
      exists fuel R T, merge M W fuel d'' (names d'') = Ok (Some (print_store T, print_record R)) /\
        forall k, st_find T k =
          add_opt (add_opt (st_find s k) (st_find s k)) (sum_opt [seq st_find sv.2.2 k | sv <- svs]).
Proof. exact: torn_record. Qed.
Print Assumptions C43_torn_record_refuted.

(** A record that is cut within a line: a block that does not exist is read. *)
Example C43_torn_case :
  let d := [:: ((text "17", record_ext), Regular (print_record save1.2.1));
               ((text "17", store_ext), Regular (print_store save1.2.2))] in
  let states := save_states d (text "4") (print_record save2.2.1) (print_store save2.2.2) in
  let d' := nth d states (size (print_store save2.2.2)).+2 in
  [/\ new_stem d [:: text "17"; text "4"] = Ok (text "4"), all (well_saved 100) [:: save2; save1],
      initial_record 100 200 9 d' (names d') = Ok [:: [::]; [:: (0, 1); (2, 5)]],
      (if save d' [:: text "5"] (print_record save2.2.1) (print_store save2.2.2) is Ok d'' then
         omap fst (if merge 100 200 9 d'' (names d'') is Ok x then x else None) = Some (text "1,2;-3:14
1,2;3:21
") else False) &
      let d3 := nth d states (size (print_store save2.2.2) + 5) in
      (lookup d3 (text "4", record_ext), initial_record 100 200 9 d3 (names d3)) =
        (Some (Regular (text "1 2")), Ok [:: [::]; [:: (0, 1); (2, 5)]; [:: (1, 2)]])].
Proof. by []. Qed.

(** C57: merging again after the output was written into the input directory gives twice the
    table, so "merging can be repeated" is false. *)
Theorem C57_merge_again_refuted :
  forall (M W : nat) (d : directory) (svs : seq saved) (out : seq char),
    M <= W -> uniq (names d) -> plain d -> holds d (names d) svs ->
    all (well_saved M) svs -> ~~ is_regular d (out, record_ext) ->
    exists fuel r s r' s', [/\ merge M W fuel d (names d) = Ok (Some (print_store s, print_record r)),
      sum_of_saves svs s,
      let d' := write_file (write_file d (out, store_ext) (print_store s)) (out, record_ext) (print_record r) in
        merge M W fuel d' (names d') = Ok (Some (print_store s', print_record r')) &
      forall k, st_find s' k = add_opt (st_find s k) (st_find s k)].
Proof. exact: remerge. Qed.
Print Assumptions C57_merge_again_refuted.

Example C57_case :
  let d := [:: ((text "17", record_ext), Regular (print_record save1.2.1));
               ((text "17", store_ext), Regular (print_store save1.2.2))] in
  let d' := [:: ((text "17", record_ext), Regular (print_record save1.2.1));
               ((text "17", store_ext), Regular (print_store save1.2.2));
               ((text "out", store_ext), Regular (print_store save1.2.2));
               ((text "out", record_ext), Regular (print_record ([::] :: save1.2.1)))] in
  omap fst (if merge 100 200 9 d (names d) is Ok x then x else None) = Some (text "1,2;3:5
") /\
  omap fst (if merge 100 200 9 d' (names d') is Ok x then x else None) = Some (text "1,2;3:10
").
Proof. by []. Qed.

(** C58: a save adds one pair of files and changes no other file. *)
Theorem C58_save :
  forall (d : directory) (svs : seq saved) (ids : seq (seq char)) (r : seq block) (s : store) (d' : directory),
    uniq (names d) -> plain d -> holds d (names d) svs ->
    save d ids (print_record r) (print_store s) = Ok d' ->
    exists id, [/\ id \in ids, uniq (names d'), plain d', holds d' (names d') ((id, (r, s)) :: svs) &
      forall f, f \in names d -> is_regular d f -> lookup d' f = lookup d f].
Proof. exact: save_ok. Qed.
Print Assumptions C58_save.

Example C58_case :
  let d := [:: ((text "17", record_ext), Regular (print_record save1.2.1));
               ((text "17", store_ext), Regular (print_store save1.2.2))] in
  if save d [:: text "17"; text "4"] (print_record save2.2.1) (print_store save2.2.2) is Ok d' then
    names d' = names d ++ [:: (text "4", store_ext); (text "4", record_ext)]
  else False.
Proof. by []. Qed.

(** C59: the record read when a configuration is started. *)
Theorem C59_initial_record :
  forall (M W fuel : nat) (d : directory) (listing : seq fname) (svs : seq saved),
    M <= W -> holds d listing svs -> all (well_saved M) svs -> all (short fuel) svs ->
    exists r, [/\ initial_record M W fuel d listing = Ok r, blocks_of_saves svs r &
      forall b, contains r b = (b \in r)].
Proof.
move=> M W fuel d listing svs H1 H2 H3 H4; have [r [H5 H6]] := initial_ok H1 H2 H3 H4.
by exists r; split=> // b; apply: containsE; case: H6.
Qed.
Print Assumptions C59_initial_record.

Example C59_case :
  initial_record 100 200 9 dir_case (names dir_case) = Ok [:: [::]; [:: (0, 1); (2, 5)]; [:: (1, 2); (2, 5)]] /\
  contains [:: [::]; [:: (0, 1); (2, 5)]; [:: (1, 2); (2, 5)]] [:: (0, 1); (1, 5)] = false.
Proof. by []. Qed.
