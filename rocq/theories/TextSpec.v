(** Specification vocabulary for the text formats: values that fit the types they are read with. *)
Set Warnings "-notation-overridden,-ambiguous-paths".
From mathcomp Require Import all_ssreflect ssralg ssrnum ssrint.
From Verif Require Import OMap Store.

Set Implicit Arguments.
Unset Strict Implicit.
Unset Printing Implicit Defensive.

(** [z] fits an [int]; [M] is 2^31. *)
Definition in_int (M : nat) (z : int) : bool := (- Posz M <= z < Posz M)%R.

(** Keys with at least one entry in each list, all of which fit an [int]. *)
Definition printable (M : nat) (k : key) : bool :=
  [&& k.1 != [::], all (fun x => x < M) k.1, k.2 != [::] & all (in_int M) k.2].

(** Blocks with bounds that fit an [int]. *)
Definition small_bounds (M : nat) (b : block) : bool := all (fun bd => (bd.1 < M) && (bd.2 < M)) b.
