(** Properties C72 and C73: the program hycu-merger.  Statements use the model functions of Merger.v, Files.v and Text.v and the
    vocabulary of MergerSpec.v, FilesSpec.v and StoreSpec.v only.  [M] and [W] stand for 2^31 and 2^32. *)
Set Warnings "-notation-overridden,-ambiguous-paths".
From Coq Require Import String.
From mathcomp Require Import all_ssreflect ssralg ssrnum ssrint poly finalg.
From Verif Require Import Res OMap Store StoreSpec Text TextSpec Files FilesSpec Merger MergerSpec MergerProofs.

Set Implicit Arguments.
Unset Strict Implicit.
Unset Printing Implicit Defensive.

(** C72: the value returned is 0 or 1.  It is 1 exactly if an option is missing, the input is not a directory or there is a record
    without a store; then no file was changed. *)
Theorem C72_exit_codes :
  forall (M W fuel : nat) (node : seq char -> fnode) (listing : directory -> seq fname) (dirs : nat -> directory) (o : moptions)
    (n : nat) (dirs' : nat -> directory), lists listing ->
  merger M W fuel node listing dirs o = Ok (n, dirs') ->
  (n = 0 /\ (mo_help o \/ exists input out i, [/\ mo_input o = Some input, mo_output o = Some out, node input = Directory i &
      ~~ has (orphan (dirs i)) (names (dirs i))])) \/
  [/\ n = 1, mo_help o = false, forall i, dirs' i = dirs i &
      mo_input o = None \/ mo_output o = None \/ exists2 input, mo_input o = Some input &
        (forall i, node input <> Directory i) \/ exists2 i, node input = Directory i & has (orphan (dirs i)) (names (dirs i))].
Proof. exact: exit_codes. Qed.
Print Assumptions C72_exit_codes.

(** Two directories of results, a third one which is empty, and a fourth one with a record only. *)
Definition first_save : saved := (text "8", ([:: [:: (0, 1); (2, 5)]], [:: (([:: 1; 2], [:: 3%Z]), 57); (([:: 2; 2], [:: 1%Z]), 4)])).
Definition second_save : saved := (text "3", ([:: [:: (1, 2); (2, 5)]], [:: (([:: 1; 2], [:: 3%Z]), 3)])).
Definition third_save : saved := (text "8", ([:: [:: (2, 3); (2, 5)]], [:: (([:: 1; 1], [:: 0%Z]), 7); (([:: 2; 2], [:: 1%Z]), 1)])).
Definition files_of (sv : saved) : directory :=
  [:: ((sv.1, store_ext), Regular (print_store sv.2.2)); ((sv.1, record_ext), Regular (print_record sv.2.1))].
Definition some_dirs (i : nat) : directory :=
  match i with
  | 0 => files_of first_save ++ files_of second_save
  | 1 => files_of third_save
  | 2 => [::]
  | _ => behead (files_of third_save)
  end.
Definition some_node (p : seq char) : fnode :=
  if p == text "a" then Directory 0 else if p == text "b" then Directory 1 else if p == text "all/" then Directory 2
  else if p == text "broken" then Directory 3 else if p == text "notes.txt" then NotDirectory else Missing.

Example C72_exit_case :
  let code o := if merger 100 200 9 some_node names some_dirs o is Ok (n, _) then Some n else None in
  [/\ lists names, code (MOptions false (Some (text "a")) (Some (text "all/sum"))) = Some 0,
      code (MOptions true None None) = Some 0,
      [seq code (MOptions false (Some p) (Some (text "all/sum"))) | p <- [:: text "broken"; text "notes.txt"; text "c"]] =
        nseq 3 (Some 1) &
      (code (MOptions false None (Some (text "all/sum"))), code (MOptions false (Some (text "a")) None)) = (Some 1, Some 1)].
Proof. by split; try by vm_compute; move=> d; exact: perm_refl. Qed.

(** C72: all files other than the two with the name of the output are as before. *)
Theorem C72_touches :
  forall (M W fuel : nat) (node : seq char -> fnode) (listing : directory -> seq fname) (dirs : nat -> directory) (o : moptions)
    (n : nat) (dirs' : nat -> directory),
  merger M W fuel node listing dirs o = Ok (n, dirs') ->
  forall i f, lookup (dirs' i) f = lookup (dirs i) f \/
  exists out stem, [/\ n = 0, mo_output o = Some out, output_in node out i stem & f.1 = stem /\ (f.2 = store_ext \/ f.2 = record_ext)].
Proof. exact: touches. Qed.
Print Assumptions C72_touches.

Example C72_touches_case :
  if merger 100 200 9 some_node names some_dirs (MOptions false (Some (text "a")) (Some (text "all/sum"))) is Ok (n, dirs') then
    [/\ n = 0, dirs' 0 = some_dirs 0, dirs' 1 = some_dirs 1, dirs' 3 = some_dirs 3 &
        dirs' 2 = [:: ((text "sum", store_ext), Regular (text "1,2;3:60
2,2;1:4
")); ((text "sum", record_ext), Regular (text "
0 1 2 5 
1 2 2 5 
"))]]
  else False.
Proof. by vm_compute. Qed.

(** C72: for a directory of complete results and an output in a directory, the merger returns 0 and the two files have the sum of the
    tables and the blocks of the records.  The directory of the output may be the one of the input, and the files may have existed. *)
Theorem C72_success :
  forall (M W fuel : nat) (node : seq char -> fnode) (listing : directory -> seq fname) (dirs : nat -> directory)
    (input out : seq char) (i j : nat) (stem : seq char) (svs : seq saved),
  M <= W -> lists listing -> node input = Directory i -> output_in node out j stem -> uniq (names (dirs i)) -> plain (dirs j) ->
  holds (dirs i) (names (dirs i)) svs -> all (well_saved M) svs -> all (short fuel) svs ->
  exists dirs' R T,
    [/\ merger M W fuel node listing dirs (MOptions false (Some input) (Some out)) = Ok (0, dirs'),
        sum_of_saves svs T, blocks_of_saves svs R, has_pair (dirs' j) (stem, (R, T)) & same_but dirs dirs' j stem].
Proof. exact: merger_succeeds. Qed.
Print Assumptions C72_success.

Lemma holds_first : holds (some_dirs 0) (names (some_dirs 0)) [:: first_save; second_save].
Proof.
split=> //.
- by move=> sv; rewrite !inE => /orP[] /eqP->.
- by move=> sv; rewrite !inE => /orP[] /eqP->.
by move=> f; rewrite !inE => /or4P[] /eqP->.
Qed.

Lemma holds_second : holds (some_dirs 1) (names (some_dirs 1)) [:: third_save].
Proof.
split=> //.
- by move=> sv; rewrite inE => /eqP->.
- by move=> sv; rewrite inE => /eqP->.
by move=> f; rewrite !inE => /orP[] /eqP->.
Qed.

Lemma output_all stem : m_slash \notin text stem -> output_in some_node (text "all/" ++ text stem) 2 (text stem).
Proof. by move=> H; exists (text "all/") => //; split=> //; split=> //; right. Qed.

Example C72_success_case :
  [/\ some_node (text "a") = Directory 0, output_in some_node (text "all/sum") 2 (text "sum"), plain (some_dirs 2),
      holds (some_dirs 0) (names (some_dirs 0)) [:: first_save; second_save] &
      uniq (names (some_dirs 0)) && all (well_saved 100) [:: first_save; second_save] && all (short 9) [:: first_save; second_save]].
Proof. by split=> //; [exact: (@output_all "sum")|exact: holds_first]. Qed.

(** C72, what a user would like in addition: that the value 0 means that the result was written.  This is false: if the directory of the
    output does not exist (or is no directory), nothing is written and the value is 0 all the same. *)
Theorem C72_unwritable_refuted :
  forall (M W fuel : nat) (node : seq char -> fnode) (listing : directory -> seq fname) (dirs : nat -> directory)
    (input out : seq char) (i : nat) (svs : seq saved),
  M <= W -> lists listing -> node input = Directory i -> (forall j stem, ~ output_in node out j stem) ->
  holds (dirs i) (names (dirs i)) svs -> all (well_saved M) svs -> all (short fuel) svs ->
  exists dirs', merger M W fuel node listing dirs (MOptions false (Some input) (Some out)) = Ok (0, dirs') /\
    forall i, dirs' i = dirs i.
Proof. exact: unwritable. Qed.
Print Assumptions C72_unwritable_refuted.

Example C72_unwritable_case :
  (forall j stem, ~ output_in some_node (text "old/sum") j stem) /\
  if merger 100 200 9 some_node names some_dirs (MOptions false (Some (text "a")) (Some (text "old/sum"))) is Ok (n, dirs') then
    (n, dirs' 0, dirs' 1, dirs' 2) = (0, some_dirs 0, some_dirs 1, some_dirs 2) else False.
Proof.
split; last by vm_compute.
move=> j stem [parent E [H1 [H2 H3]]].
have : split_path (text "old/sum") = (parent, stem) by rewrite E; exact: split_pathE.
by vm_compute (split_path _); case=> Ep _; move: H1; rewrite -Ep.
Qed.

(** C73: merging in stages.  Several directories are merged, one after the other, with outputs of different names in one directory.
    All runs return 0, no other directory is changed, and merging the directory of the outputs gives the sum of all tables and all
    blocks, that is, the same as merging all results at once would give. *)
Theorem C73_stages :
  forall (M W fuel : nat) (node : seq char -> fnode) (listing : nat -> directory -> seq fname) (dirs : nat -> directory)
    (n j : nat) (input out stem : nat -> seq char) (src : nat -> nat) (svs : nat -> seq saved),
  M <= W -> (forall t, lists (listing t)) ->
  (forall t, t < n -> [/\ node (input t) = Directory (src t), src t <> j, output_in node (out t) j (stem t),
    uniq (names (dirs (src t))) & holds (dirs (src t)) (names (dirs (src t))) (svs t)]) ->
  (forall t, t < n -> all (well_saved M) (svs t) && all (short fuel) (svs t)) ->
  uniq [seq stem t | t <- iota 0 n] ->
  uniq (names (dirs j)) -> plain (dirs j) -> (forall f, f \in names (dirs j) -> f.2 != record_ext) ->
  exists dirs' R T N,
    [/\ merger_runs M W fuel node listing dirs [seq (input t, out t) | t <- iota 0 n] = Ok (nseq n 0, dirs'),
        forall i, i <> j -> dirs' i = dirs i,
        sum_of_saves (flatten [seq svs t | t <- iota 0 n]) T, blocks_of_saves (flatten [seq svs t | t <- iota 0 n]) R &
        forall fuel' l, N <= fuel' -> perm_eq l (names (dirs' j)) ->
          merge M W fuel' (dirs' j) l = Ok (Some (print_store T, print_record R))].
Proof. exact: stages. Qed.
Print Assumptions C73_stages.

Example C73_stages_case :
  let input t := if t == 0 then text "a" else text "b" in
  let out t := if t == 0 then text "all/x" else text "all/y" in
  let stem t := if t == 0 then text "x" else text "y" in
  let svs t := if t == 0 then [:: first_save; second_save] else [:: third_save] in
  (forall t, t < 2 -> [/\ some_node (input t) = Directory t, t <> 2, output_in some_node (out t) 2 (stem t),
    uniq (names (some_dirs t)) & holds (some_dirs t) (names (some_dirs t)) (svs t)]) /\
  if merger_runs 100 200 9 some_node (fun _ => names) some_dirs [seq (input t, out t) | t <- iota 0 2] is Ok (codes, dirs') then
    [/\ codes = [:: 0; 0], size (names (dirs' 2)) = 4 &
        merge 100 200 9 (dirs' 2) (rev (names (dirs' 2))) = Ok (Some (text "1,1;0:7
1,2;3:60
2,2;1:5
", text "
0 1 2 5 
1 2 2 5 
2 3 2 5 
"))]
  else False.
Proof.
split; last by vm_compute.
case=> [|[|//]] _; split=> //; [exact: (@output_all "x")|exact: holds_first|exact: (@output_all "y")|exact: holds_second].
Qed.

(** C73, what a user would like in addition: that the output can be put into the directory that is merged.  This is false of a
    later run of the merger: it counts everything twice, and does not notice that the records have blocks in common. *)
Theorem C73_same_directory_refuted :
  forall (M W fuel : nat) (node : seq char -> fnode) (listing : directory -> seq fname) (dirs : nat -> directory)
    (input out : seq char) (j : nat) (stem : seq char) (svs : seq saved),
  M <= W -> lists listing -> node input = Directory j -> output_in node out j stem -> stem \notin [seq sv.1 | sv <- svs] ->
  uniq (names (dirs j)) -> plain (dirs j) ->
  holds (dirs j) (names (dirs j)) svs -> all (well_saved M) svs -> all (short fuel) svs ->
  exists dirs' T T' R N,
    [/\ merger M W fuel node listing dirs (MOptions false (Some input) (Some out)) = Ok (0, dirs'),
        sum_of_saves svs T, is_map T', forall k, count_of T' k = (count_of T k).*2 &
        forall fuel' l, N <= fuel' -> perm_eq l (names (dirs' j)) ->
          merge M W fuel' (dirs' j) l = Ok (Some (print_store T', print_record R))].
Proof. exact: merger_twice. Qed.
Print Assumptions C73_same_directory_refuted.

Example C73_same_directory_case :
  let node p := if p == text "a" then Directory 0 else if p == text "a/" then Directory 0 else Missing in
  [/\ output_in node (text "a/sum") 0 (text "sum"), text "sum" \notin [seq sv.1 | sv <- [:: first_save; second_save]],
      holds (some_dirs 0) (names (some_dirs 0)) [:: first_save; second_save], plain (some_dirs 0) &
      if merger 100 200 9 node names some_dirs (MOptions false (Some (text "a")) (Some (text "a/sum"))) is Ok (n, dirs') then
        n = 0 /\ merge 100 200 9 (dirs' 0) (names (dirs' 0)) = Ok (Some (text "1,2;3:120
2,2;1:8
", text "
0 1 2 5 
1 2 2 5 
")) else False].
Proof.
split=> //; [by exists (text "a/") => //; split=> //; split=> //; right|exact: holds_first|].
by move=> f _ /=; do !case: eqP => // _.
Qed.
