(** Properties C30, C31, C32, C35 and C56: the text formats.  Statements use StoreSpec.v, TextSpec.v
    and the model functions of Text.v only.  [M] stands for 2^31 and [W] for 2^32. *)
Set Warnings "-notation-overridden,-ambiguous-paths".
From Coq Require Import String.
From mathcomp Require Import all_ssreflect ssralg ssrnum ssrint zify.
From Verif Require Import Res OMap Store StoreSpec StoreProofs Text TextSpec TextProofs.

Set Implicit Arguments.
Unset Strict Implicit.
Unset Printing Implicit Defensive.

(** The cases: a store of three keys and a record of two blocks. *)
Definition key3 : key := ([:: 1; 1; 1; 2], [:: (-2)%R; 4%R]).
Definition store3 : store := [:: (key3, 176); (([:: 1; 1; 2], [:: (-3)%R]), 107); (([:: 1; 1; 2], [:: 3%R]), 107)].
Definition record2 : seq block := [:: [:: (0, 1); (2, 15)]; [:: (1, 2); (2, 15)]].

(** C30: the text of a key. *)
Theorem C30_key_round_trip :
  forall (M W : nat) (k : key), M <= W -> printable M k -> parse_key M W (print_key k) = Ok k.
Proof. exact: key_round. Qed.
Print Assumptions C30_key_round_trip.

Example C30_case M W : 10 < M <= W ->
  printable M key3 /\ print_key key3 = text "1,1,1,2;-2,4".
Proof. by move=> H; split=> //; rewrite /printable /in_int /=; lia. Qed.

(** Without offsets the round trip fails: the last ramification index is read as an offset. *)
Example C30_empty_offsets : parse_key 100 200 (print_key ([:: 1; 3], [::])) = Ok ([:: 1; 3], [:: 3%R]).
Proof. by []. Qed.

(** C31: the text of a store. *)
Theorem C31_store_round_trip :
  forall (M W fuel : nat) (s s0 : store), M <= W -> is_map s -> is_map s0 ->
    all (fun kn => printable M kn.1) s -> size s < fuel ->
    extract_store M W fuel (open_text (print_store s)) [::] [::] = Ok s /\
    exists s', [/\ extract_store M W fuel (open_text (print_store s)) [::] s0 = Ok s', is_map s' &
      forall k, st_find s' k = add_opt (st_find s0 k) (st_find s k)].
Proof. move=> M W fuel s s0 H1 H2 H3 H4 H5; split; [exact: store_round_empty | exact: store_round]. Qed.
Print Assumptions C31_store_round_trip.

Example C31_case M W : 10 < M <= W ->
  [/\ is_map store3, all (fun kn => printable M kn.1) store3 &
      print_store store3 = text "1,1,1,2;-2,4:176
1,1,2;-3:107
1,1,2;3:107
"].
Proof. by move=> H; split=> //; rewrite /printable /in_int /=; lia. Qed.

(** C32: what is read from the file of a record [bs]: besides the blocks of [bs] the empty block,
    unless [bs] is empty.  Missing from the full property: that nothing is added. *)
Theorem C32_record_partial :
  forall (M W fuel : nat) (bs r0 : seq block), M <= W -> is_set r0 ->
    all (small_bounds M) bs -> size bs < fuel ->
    exists r, [/\ extract_record M W fuel (open_text (print_record bs)) r0 = Ok r, is_set r &
      forall b, (b \in r) = [|| b \in r0, b \in bs | (bs != [::]) && (b == [::])]].
Proof. exact: record_round. Qed.
Print Assumptions C32_record_partial.

Example C32_case M W : 20 < M <= W ->
  all (small_bounds M) record2 /\ print_record record2 = text "0 1 2 15 
1 2 2 15 
".
Proof. by move=> H; split=> //; rewrite /small_bounds /=; lia. Qed.

(** The full property fails for every record that is not empty: the empty block is read as well. *)
Theorem C32_record_refuted :
  forall (M W fuel : nat) (bs : seq block), M <= W -> all (small_bounds M) bs -> size bs < fuel ->
    bs != [::] -> [::] \notin bs ->
    exists r, extract_record M W fuel (open_text (print_record bs)) [::] = Ok r /\ ~ (r =i bs).
Proof.
move=> M W fuel bs HM Hbs Hf Hne Hnil; have [r [Hr _ Hin]] := record_round HM (isT : is_set [::]) Hbs Hf.
by exists r; split=> // /(_ [::]); rewrite Hin Hne eqxx !orbT (negbTE Hnil).
Qed.
Print Assumptions C32_record_refuted.

Example C32_refuted_case : 
  extract_record 100 200 9 (open_text (print_record record2)) [::] = Ok ([::] :: record2).
Proof. by []. Qed.

(** C35: counts of any size. *)
Theorem C35_decimal : forall n : nat, all is_digit (dec n) /\ parse_count (dec n) = n.
Proof. by move=> n; split; [exact: dec_digits | exact: parse_count_dec]. Qed.
Print Assumptions C35_decimal.

Example C35_case : dec 1070 = text "1070" /\ dec 0 = text "0".
Proof. by []. Qed.

(** C56: from a record file that cannot be opened, reading never ends, however long it runs; so
    "a record file is read or reported" is false. *)
Theorem C56_unreadable_record_refuted :
  forall (M W fuel : nat) (r : seq block), extract_record M W fuel open_failed r = OutOfFuel.
Proof. exact: unreadable_record. Qed.
Print Assumptions C56_unreadable_record_refuted.

Example C56_case : extract_record 100 200 3 open_failed record2 = OutOfFuel /\
  extract_record 100 200 3 (open_text [::]) record2 = Ok record2.
Proof. by []. Qed.
