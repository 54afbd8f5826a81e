(** Model of FileStore::save on a disk without space. *)
Set Warnings "-notation-overridden,-ambiguous-paths".
From mathcomp Require Import all_ssreflect.
From Verif Require Import Res OMap Store Text Files.

Set Implicit Arguments.
Unset Strict Implicit.
Unset Printing Implicit Defensive.

(** FileStore::save, /repo/src/store/file_store.cc:59-74, when only the first [n] characters of the text of the store and
    the first [m] characters of the text of the record can be written: the state of the two streams is not looked at (lines
    72-73), and nothing is returned. *)
Definition save_limited (d : directory) (ids : seq (seq char)) (record_text store_text : seq char) (n m : nat)
    : res directory :=
  id <- new_stem d ids ;;
  Ok (write_file (write_file d (id, store_ext) (take n store_text)) (id, record_ext) (take m record_text)).
