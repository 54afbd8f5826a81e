(** Vocabulary for the merger. *)
Set Warnings "-notation-overridden,-ambiguous-paths".
From mathcomp Require Import all_ssreflect ssralg ssrnum ssrint poly finalg.
From Verif Require Import Res OMap Store StoreSpec Text TextSpec Files FilesSpec Merger.

Set Implicit Arguments.
Unset Strict Implicit.
Unset Printing Implicit Defensive.

(** A record file without a store file. *)
Definition orphan (d : directory) (f : fname) : bool :=
  [&& is_regular d f, f.2 == record_ext & ~~ is_regular d (f.1, store_ext)].

(** The order in which directories are listed. *)
Definition lists (listing : directory -> seq fname) : Prop := forall d, perm_eq (listing d) (names d).

(** The output of the merger: the name [stem] in the directory number [j]. *)
Definition output_in (node : seq char -> fnode) (out : seq char) (j : nat) (stem : seq char) : Prop :=
  exists2 parent, out = parent ++ stem &
    node parent = Directory j /\ m_slash \notin stem /\ (parent = [::] \/ last 0 parent = m_slash).

(** The files of the directories other than the two with the name [stem] in directory [j]. *)
Definition same_but (dirs dirs' : nat -> directory) (j : nat) (stem : seq char) : Prop :=
  forall i f, ~ (i = j /\ f.1 = stem /\ (f.2 = store_ext \/ f.2 = record_ext)) -> lookup (dirs' i) f = lookup (dirs i) f.

(** Several runs of the merger, one after the other: a list of inputs and outputs.  The result is the list of values returned, and the
    directories at the end. *)
Fixpoint merger_runs (M W fuel : nat) (node : seq char -> fnode) (listing : nat -> directory -> seq fname)
    (dirs : nat -> directory) (ios : seq (seq char * seq char)) : res (seq nat * (nat -> directory)) :=
  if ios is (input, out) :: ios' then
    x <- merger M W fuel node (listing (size ios')) dirs (MOptions false (Some input) (Some out)) ;;
    y <- merger_runs M W fuel node listing x.2 ios' ;;
    Ok (x.1 :: y.1, y.2)
  else Ok ([::], dirs).
