(** Property C63: what crashes while the text of a record file is being written do to the results.  Statements use
    the model functions of Text.v, Worker.v and Standalone.v and the vocabulary of StandaloneSpec.v, WorkerSpec.v and
    TornSpec.v only.  [M] and [W] stand for 2^31 and 2^32. *)
Set Warnings "-notation-overridden,-ambiguous-paths".
From mathcomp Require Import all_ssreflect ssralg ssrnum ssrint.
From Verif Require Import Res OMap Store StoreSpec Text TextSpec Pool Standalone StandaloneSpec Config Worker WorkerSpec
  TornSpec TornProofs TornLost TornConfig.

Set Implicit Arguments.
Unset Strict Implicit.
Unset Printing Implicit Defensive.

(** What is read from a part of the text of a record: the first blocks, and possibly what is left of the next
    one (or an empty block). *)
Theorem C63_torn_text :
  forall (M W : nat) (r r' : seq block), M <= W -> all (small_bounds M) r -> torn_read M W r r' ->
  exists m x, [/\ {subset take m r <= r'}, {subset r' <= x :: take m r} &
    x = [::] \/ m < size r /\ cut (nth [::] r m) x].
Proof. exact: torn_record_read. Qed.
Print Assumptions C63_torn_text.

(** The last line "0 14 3 20" with the last digit missing, or the last two. *)
Example C63_torn_case :
  let r := [:: [:: (7, 8); (1, 2)]; [:: (0, 14); (3, 20)]] in
  [/\ all (small_bounds 100) r, size (print_record r) = 20,
    torn_read 100 200 r [:: [:: (0, 14); (3, 2)]; [:: (7, 8); (1, 2)]] &
    torn_read 100 200 r [:: [:: (0, 14)]; [:: (7, 8); (1, 2)]]].
Proof. by split; [by []|by vm_compute|exists 17, 5; vm_compute|exists 16, 5; vm_compute]. Qed.

(** C63, the part that holds.  For configurations with different result directories, each with a marked point or
    with a prime that does not divide 2g+2: runs are killed one after the other, [n] of them while they write the
    text of a record file; when a further run completes, the tables in the files of each configuration are the sum
    of the contributions of all its blocks, none is missing, and none is counted more than [n+1] times.

    Missing from the full statement: configurations without marked point and with a prime that divides 2g+2, for
    which it is false (see [C63_lost_refuted]). *)
Theorem C63_nothing_lost_partial :
  forall (M W : nat), 2 * M <= W ->
  forall (dir : seq char -> nat) (cs : seq config),
    (forall i, i < size cs -> let c := nth c0 cs i in
       admissible M c /\ g_marked c || ~~ (g_prime c %| 2 * g_genus c + 2)) ->
    uniq [seq dir (g_path c) | c <- cs] ->
  exists jobs N, (forall fuel, N <= fuel -> program_jobs W fuel dir cs = Ok jobs) /\
  forall contrib : nat -> block -> store, (forall c b, is_map (contrib c b)) ->
  forall n fs, torn_history contrib M W jobs n fs ->
  forall kinds acts s, run contrib (start kinds fs (main_program jobs)) acts = Ok s -> s_pc s = PDone ->
  forall j, j \in jobs ->
    exists L, [/\ add_up contrib (files s) j.1.1 j.1.2 L, L =i j.2 & forall b, count_mem b L <= n.+1].
Proof. exact: program_torn. Qed.
Print Assumptions C63_nothing_lost_partial.

(** The blocks of a configuration over the field with five elements; the first run is killed when the first block
    and a part of the second one are in the text; when the second run is complete, three blocks are counted twice. *)
Definition config_5 : config := Config 5 1 1 true 1 [::] 4.
Definition blocks_5 : seq block := if config_blocks 200 100 config_5 is Ok bs then bs else [::].
Definition volume_of (c : nat) (b : block) : store := [:: (([:: c], [::]), foldr (fun lu n => (lu.2 - lu.1) * n) 1 b)].
Definition turns (n : nat) : seq action := flatten (nseq n [:: Main false; Step 0; Step 1]).
Definition first_5 : state :=
  if run volume_of (start [:: false; false] [::] (main_program [:: (1, 0, blocks_5)])) (turns 35 ++ [:: Main true; Main false; Main false]) is Ok s
  then s else start [::] [::] [::].
Definition record_5 : seq block := [seq nth [::] blocks_5 i | i <- [:: 0; 2; 1; 3]].
Definition files_5 : seq file := complete_last (files first_5) [:: [:: (0, 1)]; head [::] blocks_5].
Definition second_5 : state :=
  if run volume_of (start [:: false; false] files_5 (main_program [:: (1, 0, blocks_5)])) (turns 70) is Ok s
  then s else start [::] [::] [::].

Example C63_case :
  [/\ admissible 100 config_5 /\ size blocks_5 = 4,
      torn_history volume_of 100 200 [:: (1, 0, blocks_5)] 1 files_5,
      s_pc second_5 = PDone,
      map snd (handed second_5) = behead blocks_5 &
      (sum_opt [seq st_find (volume_of 0 b) ([:: 0], [::]) | b <- blocks_5],
       sum_opt [seq st_find st ([:: 0], [::]) | st <- tables (files second_5) 1]) = (Some 13, Some 22)].
Proof.
split; [by split; vm_compute| |by vm_compute|by vm_compute|by vm_compute].
rewrite /files_5 /first_5; set l := _ ++ _.
have Hr : torn_read 100 200 record_5 [:: [:: (0, 1)]; head [::] blocks_5] by exists 21, 9; vm_compute.
have Ok_with (o : res state) (P : state -> Prop) : (if o is Ok s then P s else False) -> exists2 s, o = Ok s & P s.
  by case: o => // s; exists s.
have [s E Hk] : exists2 s, run volume_of (start [:: false; false] [::] (main_program [:: (1, 0, blocks_5)])) l = Ok s &
  s_pc s = PWriteRecord AfterDestroy record_5 by apply: Ok_with; vm_compute.
rewrite E; exact: TornKill (TornStart _ _ _ _) E Hk Hr.
Qed.

(** C63 is false without the restriction on the configurations: with genus 2 over the field with three elements, after
    a run that was killed while it was writing a record file, every run that completes leaves out the first
    block. *)
Theorem C63_lost_refuted :
  forall contrib : nat -> block -> store, (forall c b, is_map (contrib c b)) ->
  forall (M W : nat), 3 < M -> M <= W ->
  let jobs := [:: (1, 0, blocks_3_2)] in
  exists fs, torn_history contrib M W jobs 1 fs /\
  forall kinds acts s, run contrib (start kinds fs (main_program jobs)) acts = Ok s -> s_pc s = PDone ->
    exists L, [/\ add_up contrib (files s) 1 0 L, head [::] blocks_3_2 \notin L & {subset L <= blocks_3_2}].
Proof. by move=> contrib Hmap M W HM HMW; exact: block_lost. Qed.
Print Assumptions C63_lost_refuted.

(** The blocks are those of the configuration, and there is a run that completes. *)
Definition config_3_2 : config := Config 3 1 2 false 1 [::] 27.
Example C63_lost_case :
  [/\ admissible 100 config_3_2, config_blocks 200 100 config_3_2 = Ok blocks_3_2 &
      let b := head [::] blocks_3_2 in
      exists acts s, [/\ run volume_of (start [:: false] [:: File 1 [::] (Some [:: b])] (main_program [:: (1, 0, blocks_3_2)])) acts = Ok s,
        s_pc s = PDone & map snd (handed s) = behead blocks_3_2]].
Proof.
split; [by vm_compute|by vm_compute|].
by exists (flatten (nseq 200 [:: Main false; Step 0; Step 0; Step 0; Wake 0])); eexists; split; vm_compute; reflexivity.
Qed.
