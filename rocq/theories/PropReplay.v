(** The computations of the test suite of the project on the model.  These are tests of the model: they show that it
    gives the results the project expects of the code. *)
Set Warnings "-notation-overridden,-ambiguous-paths".
From mathcomp Require Import all_ssreflect ssralg ssrint.
From Verif Require Import Res OMap Tables BlockIter CurveIter Curve Store Text Config Worker Single PropReference Replay.

Set Implicit Arguments.
Unset Strict Implicit.
Unset Printing Implicit Defensive.

(** /repo/test/block_iterator.cc:36-60; the test sorts the positions. *)
Example replay_blocks :
  if collect as_position (mk_biter 3 [:: (0, (2, 4)); (1, (5, 9)); (2, (0, 1))] 1 [::] [::]) is Ok ps then
    perm_eq ps [:: [:: 2; 5; 0]; [:: 2; 6; 0]; [:: 2; 7; 0]; [:: 2; 8; 0];
                   [:: 3; 5; 0]; [:: 3; 6; 0]; [:: 3; 7; 0]; [:: 3; 8; 0]]
  else false.
Proof. by vm_compute. Qed.

(** /repo/test/block_iterator.cc:62-86. *)
Example replay_sets :
  if collect as_position (mk_biter 3 [::] 1 [:: (0, [:: 5; 7]); (1, [:: 3]); (2, [:: 9; 13])] [::]) is Ok ps then
    perm_eq ps [:: [:: 5; 3; 9]; [:: 5; 3; 13]; [:: 7; 3; 9]; [:: 7; 3; 13]]
  else false.
Proof. by vm_compute. Qed.

(** /repo/test/block_iterator.cc:88-117. *)
Example replay_dependent_sets :
  if collect as_position
       (mk_biter 2 [::] 1 [:: (0, [:: 5; 7])] [:: (1, (0, [:: (0, [:: 2; 4]); (1, [:: 3; 6])]))]) is Ok ps then
    perm_eq ps [:: [:: 5; 2]; [:: 5; 4]; [:: 7; 3]; [:: 7; 6]]
  else false.
Proof. by vm_compute. Qed.

(** /repo/test/block_iterator.cc:120-150. *)
Example replay_packages_position :
  if collect as_position
       (mk_biter 4 [:: (0, (2, 10)); (1, (5, 7))] 3 [:: (2, [:: 9; 7]); (3, [:: 3])] [::]) is Ok ps then
    perm_eq ps [:: [:: 2; 5; 7; 3]; [:: 2; 5; 9; 3]; [:: 2; 6; 7; 3]; [:: 2; 6; 9; 3];
                   [:: 5; 5; 7; 3]; [:: 5; 5; 9; 3]; [:: 5; 6; 7; 3]; [:: 5; 6; 9; 3];
                   [:: 8; 5; 7; 3]; [:: 8; 5; 9; 3]; [:: 8; 6; 7; 3]; [:: 8; 6; 9; 3]]
  else false.
Proof. by vm_compute. Qed.

(** /repo/test/block_iterator.cc:152-190: the first and the fifth of the sorted blocks. *)
Example replay_packages_block :
  if collect (as_block 1000)
       (mk_biter 4 [:: (0, (2, 10)); (1, (5, 7))] 3 [:: (2, [:: 9; 7]); (3, [:: 3])] [::]) is Ok bs then
    perm_eq bs [:: [:: (2, 5); (5, 6); (7, 8); (3, 4)]; [:: (2, 5); (5, 6); (9, 10); (3, 4)];
                   [:: (2, 5); (6, 7); (7, 8); (3, 4)]; [:: (2, 5); (6, 7); (9, 10); (3, 4)];
                   [:: (5, 8); (5, 6); (7, 8); (3, 4)]; [:: (5, 8); (5, 6); (9, 10); (3, 4)];
                   [:: (5, 8); (6, 7); (7, 8); (3, 4)]; [:: (5, 8); (6, 7); (9, 10); (3, 4)];
                   [:: (8, 10); (5, 6); (7, 8); (3, 4)]; [:: (8, 10); (5, 6); (9, 10); (3, 4)];
                   [:: (8, 10); (6, 7); (7, 8); (3, 4)]; [:: (8, 10); (6, 7); (9, 10); (3, 4)]]
  else false.
Proof. by vm_compute. Qed.

(** /repo/test/block_iterator.cc:192-226. *)
Example replay_enumerator :
  let start := mk_biter 3 [:: (0, (2, 9)); (1, (5, 7)); (2, (8, 10))] 4 [::] [::] in
  let fourth := it <- start ;; it <- bi_step 1000 it ;; it <- bi_step 1000 it ;; bi_step 1000 it in
  (if collect as_position (it <- start ;; as_block_enumerator 1000 it) is Ok ps then
     perm_eq ps [:: [:: 2; 5; 8]; [:: 3; 5; 8]; [:: 4; 5; 8]; [:: 5; 5; 8]] else false) /\
  (if collect as_position (it <- fourth ;; as_block_enumerator 1000 it) is Ok ps then
     perm_eq ps [:: [:: 6; 5; 9]; [:: 7; 5; 9]; [:: 8; 5; 9]] else false).
Proof. by split; vm_compute. Qed.

(** /repo/test/small_curves.cc:34-58. *)
Example replay_fq_5 :
  if replay_curve 2 5 [:: 1; 2; 3; 1; 1; 0; 4] [:: given_table 5 2 inc_25; given_table 5 1 inc_5] is Ok c then
    (number_of_points c 2 = Ok [:: (6, 0); (40, 2)]) /\ hasse_weil_offsets 1000 c 2 = [:: 0%Z; (- 16)%Z]
  else False.
Proof. by vm_compute. Qed.

(** /repo/test/small_curves.cc:85-109. *)
Example replay_fq_7 :
  if replay_curve 3 7 [:: 0; 3; 3; 3; 0; 6] [:: given_table 7 2 inc_49; given_table 7 1 inc_7] is Ok c then
    (number_of_points c 2 = Ok [:: (2, 4); (36, 6)]) /\ hasse_weil_offsets 1000 c 2 = [:: 2%Z; 8%Z]
  else False.
Proof. by vm_compute. Qed.

(** /repo/test/threaded.cc:37-69 and 71-101: the tables are those of the test suite. *)
Example replay_threaded_5_1 : replay_threaded 2 (Config 5 1 1 false 1 [::] 30) = Ok reference_5_1.
Proof. by vm_compute. Qed.

Example replay_threaded_7_1 : replay_threaded 3 (Config 7 1 1 false 1 [::] 30) = Ok reference_7_1.
Proof. by vm_compute. Qed.

(** The reduction tables given above are those the model computes. *)
Example replay_tables :
  mk_redtable (prime_fields 2) 1000 5 1 = Ok (given_table 5 1 inc_5) /\
  mk_redtable (prime_fields 3) 1000 7 1 = Ok (given_table 7 1 inc_7).
Proof. by split; vm_compute. Qed.

Example replay_quadratic_tables :
  quadratic_inc 5 1 3 = inc_25 /\ uniq (quadratic_powers 5 1 3) /\ nth (0, 0) (quadratic_powers 5 1 3) 6 = (2, 0) /\
  quadratic_inc 7 1 4 = inc_49 /\ uniq (quadratic_powers 7 1 4) /\ nth (0, 0) (quadratic_powers 7 1 4) 8 = (3, 0).
Proof. by vm_compute. Qed.
