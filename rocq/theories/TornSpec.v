(** Specification vocabulary for crashes while the text of a record file is being written. *)
Set Warnings "-notation-overridden,-ambiguous-paths".
From mathcomp Require Import all_ssreflect.
From Verif Require Import Res OMap Store Text StoreSpec Pool Standalone StandaloneSpec.

Set Implicit Arguments.
Unset Strict Implicit.
Unset Printing Implicit Defensive.

(** What can remain of a block if its text is cut: some of its first bounds, the last of which may have a smaller
    upper bound. *)
Definition cut (b b' : block) : Prop :=
  (exists j, b' = take j b) \/
  exists j u, [/\ j < size b, b' = rcons (take j b) ((nth (0, 0) b j).1, u) & u <= (nth (0, 0) b j).2].

(** No block becomes another one by cutting. *)
Definition separate (bs : seq block) : Prop :=
  forall b b', b \in bs -> b' \in bs -> cut b b' -> b' = b.

(** [r'] is what is read from the first characters of the text of the record [r]. *)
Definition torn_read (M W : nat) (r r' : seq block) : Prop :=
  exists n fuel, extract_record M W fuel (open_text (take n (print_record r))) [::] = Ok r'.

Section History.
Variable contrib : nat -> block -> store.
Variables M W : nat.

(** The files that can be on disk when runs of the same jobs, each with its own threads, were killed one after the
    other, [n] of them while they were writing the text of a record file.  A record that was cut is given by the
    blocks that will be read from it. *)
Inductive torn_history (jobs : seq job) : nat -> seq file -> Prop :=
  | TornStart : torn_history jobs 0 [::]
  | TornRun n fs kinds acts s : torn_history jobs n fs ->
      run contrib (start kinds fs (main_program jobs)) acts = Ok s -> torn_history jobs n (files s)
  | TornKill n fs kinds acts s k r r' : torn_history jobs n fs ->
      run contrib (start kinds fs (main_program jobs)) acts = Ok s -> s_pc s = PWriteRecord k r ->
      torn_read M W r r' -> torn_history jobs n.+1 (complete_last (files s) r').
End History.
