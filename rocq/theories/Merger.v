(** Model of the function [main] of hycu-merger, /repo/src/executables/merger.cc:51-130.

    The command line is given as the options that were found, as in Main.v. *)
Set Warnings "-notation-overridden,-ambiguous-paths".
From mathcomp Require Import all_ssreflect.
From Verif Require Import Res OMap Store Text Files.

Set Implicit Arguments.
Unset Strict Implicit.
Unset Printing Implicit Defensive.

(** The options, /repo/src/executables/merger.cc:60-73. *)
Record moptions := MOptions { mo_help : bool; mo_input : option (seq char); mo_output : option (seq char) }.

(** What a path stands for, /repo/src/executables/merger.cc:102-109 ([exists] and [is_directory]): nothing, something that
    is not a directory, or one of the directories, which are numbered. *)
Inductive fnode := Missing | NotDirectory | Directory of nat.

(** The directory in which a file name lies (up to the last slash), and its name there, for the output files of
    /repo/src/executables/merger.cc:116-119.  The extensions are added to the name in these lines, so that they are the
    extensions of the files, also if the name is empty (in boost::filesystem, version 3, the extension of ".x" is ".x"). *)
Definition m_slash : char := 47.
Definition split_path (p : seq char) : seq char * seq char :=
  let i := find (fun c => c == m_slash) (rev p) in (rev (drop i (rev p)), rev (take i (rev p))).

(** [fstream(..., ios_base::out)] of the two output files with their texts, /repo/src/executables/merger.cc:160-161: the store first.
    If a file cannot be created, nothing happens. *)
Definition write_output (node : seq char -> fnode) (dirs : nat -> directory) (out store_text record_text : seq char)
    : nat -> directory :=
  let: (parent, stem) := split_path out in
  if node parent is Directory j then
    fun i => if i == j then write_file (write_file (dirs i) (stem, store_ext) store_text) (stem, record_ext) record_text
             else dirs i
  else dirs.

(** [main], /repo/src/executables/merger.cc:76-130: the value returned, and the directories afterwards.  [listing] gives the order of the
    directory_iterator (line 112). *)
Definition merger (M W fuel : nat) (node : seq char -> fnode) (listing : directory -> seq fname) (dirs : nat -> directory)
    (o : moptions) : res (nat * (nat -> directory)) :=
  if mo_help o then Ok (0, dirs)
  else if mo_input o is Some input then
    if mo_output o is Some out then
      if node input is Directory i then
        x <- merge M W fuel (dirs i) (listing (dirs i)) ;;
        if x is Some (store_text, record_text) then Ok (0, write_output node dirs out store_text record_text)
        else Ok (1, dirs)
      else Ok (1, dirs)
    else Ok (1, dirs)
  else Ok (1, dirs).
