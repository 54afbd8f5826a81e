(** Specification vocabulary for result directories. *)
Set Warnings "-notation-overridden,-ambiguous-paths".
From mathcomp Require Import all_ssreflect ssralg ssrnum ssrint.
From Verif Require Import OMap Store StoreSpec Text TextSpec Files.

Set Implicit Arguments.
Unset Strict Implicit.
Unset Printing Implicit Defensive.

(** One finished save: the stem of the two files, the blocks of the record and the counts. *)
Definition saved := (seq char * (seq block * store))%type.

(** What the program writes: a set of blocks and a table, with entries that fit their types. *)
Definition well_saved (M : nat) (sv : saved) : bool :=
  [&& all (small_bounds M) sv.2.1, is_map sv.2.2 & all (fun kn => printable M kn.1) sv.2.2].

(** The number of lines of the longest file is less than [fuel]. *)
Definition short (fuel : nat) (sv : saved) : bool := (size sv.2.1 < fuel) && (size sv.2.2 < fuel).

(** The pair of files of one save is in the directory. *)
Definition has_pair (d : directory) (sv : saved) : Prop :=
  lookup d (sv.1, record_ext) = Some (Regular (print_record sv.2.1)) /\
  lookup d (sv.1, store_ext) = Some (Regular (print_store sv.2.2)).

(** The record files seen in the directory with the entries [listing] are exactly those of the
    saves [svs]; there may be any other files, in particular store files without a record. *)
Definition holds (d : directory) (listing : seq fname) (svs : seq saved) : Prop :=
  [/\ uniq listing, uniq [seq sv.1 | sv <- svs], forall sv, sv \in svs -> has_pair d sv,
      forall sv, sv \in svs -> (sv.1, record_ext) \in listing &
      forall f, f \in listing -> f.2 = record_ext -> is_regular d f -> f.1 \in [seq sv.1 | sv <- svs]].

(** The table [s] is the sum of the tables of the saves. *)
Definition sum_of_saves (svs : seq saved) (s : store) : Prop :=
  is_map s /\ forall k, st_find s k = sum_opt [seq st_find sv.2.2 k | sv <- svs].

(** [r] consists of the blocks of the saves and, unless all their records are empty, the empty
    block (see C32). *)
Definition blocks_of_saves (svs : seq saved) (r : seq block) : Prop :=
  is_set r /\ forall b, (b \in r) = has (fun sv : saved => b \in sv.2.1) svs
                                    || (b == [::]) && has (fun sv : saved => sv.2.1 != [::]) svs.

(** The names in a directory, and: no entry with the extensions of the program that is not a file
    which can be read. *)
Definition names (d : directory) : seq fname := [seq e.1 | e <- d].
Definition plain (d : directory) : Prop :=
  forall f, (f.2 == record_ext) || (f.2 == store_ext) ->
    match lookup d f with None | Some (Regular _) => true | _ => false end.
