(** Properties C27, C28, C29 and C33: stores in memory.  Statements use StoreSpec.v and the model
    functions of Store.v only. *)
Set Warnings "-notation-overridden,-ambiguous-paths".
From mathcomp Require Import all_ssreflect ssralg ssrnum ssrint.
From Verif Require Import OMap Store StoreSpec StoreProofs.

Set Implicit Arguments.
Unset Strict Implicit.
Unset Printing Implicit Defensive.

(** The cases below: two keys, the first one its own twist. *)
Definition k1 : key := ([:: 1; 1; 2], [:: 0%R; 4%R]).
Definition k2 : key := ([:: 1; 1; 2], [:: 3%R; (-2)%R]).
Definition k2t : key := ([:: 1; 1; 2], [:: (-3)%R; (-2)%R]).
Definition b1 : block := [:: (0, 1); (2, 5)].
Definition b2 : block := [:: (1, 2); (2, 5)].

(** C27: the store after any sequence of registrations. *)
Theorem C27_register :
  forall kns : seq (key * nat),
    is_map (foldl register [::] kns) /\
    forall k, st_find (foldl register [::] kns) k = credit kns k.
Proof. exact: register_all. Qed.
Print Assumptions C27_register.

Example C27_case :
  foldl register [::] [:: (k1, 5); (k2, 7); (k1, 10); (k2t, 100)] =
  [:: (k2t, 107); (k1, 30); (k2, 107)].
Proof. by []. Qed.

(** C28: flushing a worker store. *)
Theorem C28_flush :
  forall (sh : shared) (s : store) (b : block),
    is_map (sh_store sh) -> is_set (sh_record sh) -> is_map s ->
    let: (sh', s') := flush_to_static sh s b in
    [/\ s' = [::], is_map (sh_store sh') /\ is_set (sh_record sh'),
        forall k, st_find (sh_store sh') k = add_opt (st_find (sh_store sh) k) (st_find s k) &
        forall b', (b' \in sh_record sh') = (b' == b) || (b' \in sh_record sh)].
Proof. exact: flush_ok. Qed.
Print Assumptions C28_flush.

Example C28_case :
  let sh := Shared [:: b2] [:: (k1, 30)] in
  let s := [:: (k2t, 7); (k1, 12); (k2, 7)] in
  [/\ is_map (sh_store sh), is_set (sh_record sh), is_map s &
      flush_to_static sh s b1 = (Shared [:: b1; b2] [:: (k2t, 7); (k1, 42); (k2, 7)], [::])].
Proof. by []. Qed.

(** C29: for calls in any order, the i-th flushed pair holds exactly the blocks and counts handed
    in between the flushes before and after it, and the shared pair holds what came later. *)
Theorem C29_segments :
  forall ops : seq shared_op, all is_map (handed_in ops) ->
    let: (outs, sh) := run_shared ops shared_empty in
    let: (closed, last) := segments ops [::] in
    [/\ size outs = size closed,
        forall i, i < size outs -> collects (nth [::] closed i) (nth ([::], [::]) outs i) &
        collects last (sh_record sh, sh_store sh)].
Proof. exact: shared_history. Qed.
Print Assumptions C29_segments.

(** C29: nothing is lost or duplicated. *)
Theorem C29_conservation :
  forall (ops : seq shared_op) (k : key), all is_map (handed_in ops) ->
    let: (outs, sh) := run_shared ops shared_empty in
    sumn [seq count_of out.2 k | out <- outs] + count_of (sh_store sh) k =
    sumn [seq count_of s k | s <- handed_in ops].
Proof. exact: conserve0. Qed.
Print Assumptions C29_conservation.

Example C29_case :
  let ops := [:: FlushTo [:: (k1, 30)] b2; FlushTo [:: (k2t, 7); (k1, 12); (k2, 7)] b1; FlushStatic;
                 FlushTo [:: (k1, 2)] b2; FlushTo [::] b1] in
  all is_map (handed_in ops) /\
  run_shared ops shared_empty =
    ([:: ([:: b1; b2], [:: (k2t, 7); (k1, 42); (k2, 7)])], Shared [:: b1; b2] [:: (k1, 2)]).
Proof. by []. Qed.

(** C33: the order on keys is strict and total, equivalent keys are equal. *)
Theorem C33_key_order :
  [/\ irreflexive key_lt, transitive key_lt &
      forall k k', ~~ key_lt k k' && ~~ key_lt k' k = (k == k')].
Proof. exact: key_order. Qed.
Print Assumptions C33_key_order.

Example C33_case : [/\ key_lt k2t k1, key_lt k1 k2 & key_lt k2t k2].
Proof. by []. Qed.
