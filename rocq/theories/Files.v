(** Model of the files: FileStore of /repo/src/store/file_store.cc and the merger,
    /repo/src/executables/merger.cc.

    A directory is the list of its entries.  A file name is the pair of its stem and its extension;
    names with several dots are not modelled otherwise.  Nobody else changes the directory while a
    function runs. *)
Set Warnings "-notation-overridden,-ambiguous-paths".
From Coq Require Import String.
From mathcomp Require Import all_ssreflect ssralg ssrnum ssrint.
From Verif Require Import Res OMap Store Text.

Set Implicit Arguments.
Unset Strict Implicit.
Unset Printing Implicit Defensive.

(** A directory entry, as seen by [is_regular_file] and [fstream] in /repo/src/store/file_store.cc:51-55
    and /repo/src/executables/merger.cc:143-156: a file with its content, a file that cannot be opened, or
    something else (a directory, say). *)
Inductive node := Regular of seq char | Unreadable | Other.
(** [filesys::path] inside the directory, /repo/src/store/file_store.cc:50. *)
Definition fname := (seq char * seq char)%type.
Definition directory := seq (fname * node).

(** /repo/src/store/file_store.cc:34-35. *)
Definition record_ext : seq char := text ".hycu_record".
Definition store_ext : seq char := text ".hycu_store".

(** Lookup of a path, as by [is_regular_file] and [fstream] in /repo/src/store/file_store.cc:51-55. *)
Fixpoint lookup (d : directory) (f : fname) : option node :=
  if d is (f', n) :: d' then if f == f' then Some n else lookup d' f else None.

(** [is_regular_file(path)], /repo/src/store/file_store.cc:51,91. *)
Definition is_regular (d : directory) (f : fname) : bool :=
  match lookup d f with Some (Regular _) | Some Unreadable => true | _ => false end.

(** [fstream(path, ios_base::in)], /repo/src/store/file_store.cc:55. *)
Definition open_in (d : directory) (f : fname) : istr :=
  if lookup d f is Some (Regular t) then open_text t else open_failed.

(** FileStore::FileStore, /repo/src/store/file_store.cc:37-57, for a result path that is a directory: the
    loop body and the loop over the entries in the order [listing]. *)
Definition read_record (M W fuel : nat) (d : directory) (r : seq block) (f : fname) : res (seq block) :=
  if ~~ is_regular d f || (f.2 != record_ext) then Ok r
  else extract_record M W fuel (open_in d f) r.
Definition initial_record (M W fuel : nat) (d : directory) (listing : seq fname) : res (seq block) :=
  foldM (read_record M W fuel d) [::] listing.

(** FileStore::contains, /repo/src/store/file_store.hh:49-57. *)
Definition contains (r : seq block) (b : block) : bool := os_mem block_lt r b.

(** FileStore::new_filenames, /repo/src/store/file_store.cc:76-96; [ids] are the texts of the random numbers
    drawn one after the other. *)
Fixpoint new_stem (d : directory) (ids : seq (seq char)) : res (seq char) :=
  if ids is id :: ids' then
    if is_regular d (id, record_ext) || is_regular d (id, store_ext) then new_stem d ids' else Ok id
  else OutOfFuel.

(** [fstream(path, ios_base::out) << text], /repo/src/store/file_store.cc:72-73: creates or overwrites, or does
    nothing if the path cannot be opened.  Files that can be read are taken to be writable. *)
Fixpoint write_file (d : directory) (f : fname) (t : seq char) : directory :=
  if d is (f', n) :: d' then
    if f == f' then (f', if n is Regular _ then Regular t else n) :: d' else (f', n) :: write_file d' f t
  else [:: (f, Regular t)].

(** FileStore::save, /repo/src/store/file_store.cc:59-74, for a result path that is a directory. *)
Definition save (d : directory) (ids : seq (seq char)) (record_text store_text : seq char) : res directory :=
  id <- new_stem d ids ;;
  Ok (write_file (write_file d (id, store_ext) store_text) (id, record_ext) record_text).

(** The contents the directory can have when the process is killed during save: each of the two statements
    of /repo/src/store/file_store.cc:72-73 creates an empty file, writes its text piece by piece, and closes it
    before the next statement starts. *)
Definition save_states (d : directory) (id record_text store_text : seq char) : seq directory :=
  d :: [seq write_file d (id, store_ext) (take n store_text) | n <- iota 0 (size store_text).+1]
  ++ [seq write_file (write_file d (id, store_ext) store_text) (id, record_ext) (take n record_text)
       | n <- iota 0 (size record_text).+1].

(** merge, /repo/src/executables/merger.cc:132-164: the loop 142-157 over [listing], with [None] for the
    [return 1] of line 152, and the whole, whose result is the texts of the store and record
    output files. *)
Fixpoint merge_loop (M W fuel : nat) (d : directory) (listing : seq fname) (r : seq block) (s : store)
    : res (option (seq block * store)) :=
  if listing is f :: listing' then
    if ~~ is_regular d f || (f.2 != record_ext) then merge_loop M W fuel d listing' r s
    else
      let sf := (f.1, store_ext) in
      if ~~ is_regular d sf then Ok None
      else
        r <- extract_record M W fuel (open_in d f) r ;;
        s <- extract_store M W fuel (open_in d sf) [::] s ;;
        merge_loop M W fuel d listing' r s
  else Ok (Some (r, s)).
Definition merge (M W fuel : nat) (d : directory) (listing : seq fname) : res (option (seq char * seq char)) :=
  rs <- merge_loop M W fuel d listing [::] [::] ;;
  Ok (if rs is Some (r, s) then Some (print_store s, print_record r) else None).
