(** Vocabulary for results that were merged between runs. *)
Set Warnings "-notation-overridden,-ambiguous-paths".
From mathcomp Require Import all_ssreflect ssralg ssrnum ssrint poly finalg.
From Verif Require Import Res FinField OMap Store StoreSpec Text Files FilesSpec Pool Standalone Mpi Config Worker WorkerSpec
  Main MainSpec.

Set Implicit Arguments.
Unset Strict Implicit.
Unset Printing Implicit Defensive.

Section Tidy.
Variables (W S M : nat).
Variable flint : nat -> nat -> flint_field.
Variable is_squarefree : forall p r, seq (ff_field (flint p r)) -> bool.
Variable factor : nat -> nat -> seq nat -> seq (nat * nat).
Variable dir : seq char -> nat.

(** Files that can be on disk when a run with the configurations [cs] starts, as in [earlier], but in addition the
    user may, between runs and as often as desired, replace all files of the result directory of a configuration by
    the two files that the merger makes of them, and delete files that belong to no complete pair. *)
Inductive tidied (cs : seq config) : seq file -> Prop :=
  | TidiedOther fs :
      (forall f i, List.In f fs -> i < size cs -> f_dir f <> dir (g_path (nth c0 cs i))) -> tidied cs fs
  | TidiedThreads fs w o fuel cs' calls e kinds acts s : tidied cs fs ->
      main M W dir w fuel o = Ok (Ran cs' calls e) -> proper W S M is_squarefree factor dir fuel cs' -> agree dir cs cs' ->
      run (contribution W S is_squarefree factor fuel cs') (start kinds fs calls) acts = Ok s -> tidied cs (files s)
  | TidiedMpi fs w o fuel cs' calls e kinds acts s : tidied cs fs ->
      main M W dir w fuel o = Ok (Ran cs' calls e) -> proper W S M is_squarefree factor dir fuel cs' -> agree dir cs cs' ->
      0 < size kinds ->
      mrun (contribution W S is_squarefree factor fuel cs') (mstart kinds fs calls) acts = Ok s -> tidied cs (m_files s)
  | TidiedMerge fs i d0 ids cuts d listing N R T : tidied cs fs -> i < size cs ->
      sound M is_squarefree factor (nth c0 cs i) ->
      let c := nth c0 cs i in
      fresh d0 -> replay (dir (g_path c)) fs ids cuts d0 = Ok d -> perm_eq listing (names d) ->
      (forall fuel, N <= fuel -> merge_loop M W fuel d listing [::] [::] = Ok (Some (R, T))) ->
      tidied cs (rcons [seq f <- fs | f_dir f != dir (g_path c)] (File (dir (g_path c)) T (Some R)))
  | TidiedSweep fs (keep : file -> bool) : tidied cs fs ->
      (forall f, List.In f fs -> f_record f <> None -> keep f) -> tidied cs [seq f <- fs | keep f].
End Tidy.
