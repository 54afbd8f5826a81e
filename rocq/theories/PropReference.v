(** The reference tables of the test suite, as cases for the properties C70, C77 and C78.  They were computed with other software, from the
    definition of the number of points (/repo/test/create_reference_store.sage, lines 56 to 95). *)
Set Warnings "-notation-overridden,-ambiguous-paths".
From mathcomp Require Import all_ssreflect ssralg ssrnum ssrint.
From Verif Require Import Res OMap Store StoreSpec TableSpec TableTest RamCountSpec MomentSpec.

Set Implicit Arguments.
Unset Strict Implicit.
Unset Printing Implicit Defensive.

(** /repo/test/reference_store_q5_g1.hh, lines 17 to 34. *)
Definition reference_5_1 : store :=
  [:: (([:: 1; 1; 1; 1], [:: (- 2)%Z]), 30);
      (([:: 1; 1; 1; 1], [:: 2%Z]), 30);
      (([:: 1; 1; 2], [:: (- 4)%Z]), 60);
      (([:: 1; 1; 2], [:: (- 2)%Z]), 120);
      (([:: 1; 1; 2], [:: 0%Z]), 240);
      (([:: 1; 1; 2], [:: 2%Z]), 120);
      (([:: 1; 1; 2], [:: 4%Z]), 60);
      (([:: 1; 3], [:: (- 3)%Z]), 240);
      (([:: 1; 3], [:: (- 1)%Z]), 240);
      (([:: 1; 3], [:: 1%Z]), 240);
      (([:: 1; 3], [:: 3%Z]), 240);
      (([:: 2; 2], [:: (- 2)%Z]), 90);
      (([:: 2; 2], [:: 2%Z]), 90);
      (([:: 4], [:: (- 4)%Z]), 60);
      (([:: 4], [:: (- 2)%Z]), 120);
      (([:: 4], [:: 0%Z]), 240);
      (([:: 4], [:: 2%Z]), 120);
      (([:: 4], [:: 4%Z]), 60)].

Definition points_5_1 (e : nat) : nat := nth 0 [:: 0; 5; 10; 40; 150] e.

Example C70_reference_5_1 : is_map reference_5_1 /\ table_check 5 1 false 1 reference_5_1.
Proof. by split; [vm_compute|apply: table_test; vm_compute]. Qed.

Example C77_reference_5_1 :
  closed_points 5 (2 * 1 + 2) points_5_1 /\
  all (fun r => \sum_(kn <- reference_5_1 | kn.1.1 == r) kn.2 == ramified_number 5 1 false points_5_1 r)
    [:: [:: 1; 1; 1; 1]; [:: 1; 1; 2]; [:: 1; 3]; [:: 2; 2]; [:: 4]].
Proof.
split; first by case=> [|[|[|[|[|e]]]]] // _; apply/eqP; rewrite unlock; vm_compute.
by rewrite /ramified_number unlock; vm_compute.
Qed.

Example C78_reference_5_1 : moments_check 5 1 false 1 reference_5_1.
Proof.
by split=> // _; rewrite /first_moment_check /second_moment_check /total_of unlock; apply/eqP; vm_compute.
Qed.

(** /repo/test/reference_store_q7_g1.hh, lines 17 to 38. *)
Definition reference_7_1 : store :=
  [:: (([:: 1; 1; 1; 1], [:: (- 4)%Z]), 84);
      (([:: 1; 1; 1; 1], [:: 0%Z]), 252);
      (([:: 1; 1; 1; 1], [:: 4%Z]), 84);
      (([:: 1; 1; 2], [:: (- 4)%Z]), 504);
      (([:: 1; 1; 2], [:: (- 2)%Z]), 1008);
      (([:: 1; 1; 2], [:: 0%Z]), 504);
      (([:: 1; 1; 2], [:: 2%Z]), 1008);
      (([:: 1; 1; 2], [:: 4%Z]), 504);
      (([:: 1; 3], [:: (- 5)%Z]), 336);
      (([:: 1; 3], [:: (- 3)%Z]), 1008);
      (([:: 1; 3], [:: (- 1)%Z]), 1344);
      (([:: 1; 3], [:: 1%Z]), 1344);
      (([:: 1; 3], [:: 3%Z]), 1008);
      (([:: 1; 3], [:: 5%Z]), 336);
      (([:: 2; 2], [:: (- 4)%Z]), 252);
      (([:: 2; 2], [:: 0%Z]), 756);
      (([:: 2; 2], [:: 4%Z]), 252);
      (([:: 4], [:: (- 4)%Z]), 504);
      (([:: 4], [:: (- 2)%Z]), 1008);
      (([:: 4], [:: 0%Z]), 504);
      (([:: 4], [:: 2%Z]), 1008);
      (([:: 4], [:: 4%Z]), 504)].

Definition points_7_1 (e : nat) : nat := nth 0 [:: 0; 7; 21; 112; 588] e.

Example C70_reference_7_1 : is_map reference_7_1 /\ table_check 7 1 false 1 reference_7_1.
Proof. by split; [vm_compute|apply: table_test; vm_compute]. Qed.

Example C77_reference_7_1 :
  closed_points 7 (2 * 1 + 2) points_7_1 /\
  all (fun r => \sum_(kn <- reference_7_1 | kn.1.1 == r) kn.2 == ramified_number 7 1 false points_7_1 r)
    [:: [:: 1; 1; 1; 1]; [:: 1; 1; 2]; [:: 1; 3]; [:: 2; 2]; [:: 4]].
Proof.
split; first by case=> [|[|[|[|[|e]]]]] // _; apply/eqP; rewrite unlock; vm_compute.
by rewrite /ramified_number unlock; vm_compute.
Qed.

Example C78_reference_7_1 : moments_check 7 1 false 1 reference_7_1.
Proof.
by split=> // _; rewrite /first_moment_check /second_moment_check /total_of unlock; apply/eqP; vm_compute.
Qed.

(** /repo/test/reference_store_q7_g2.hh, lines 17 to 319; the counts are multiples of 84. *)
Definition reference_7_2 : store :=
  [seq (kn.1, 84 * kn.2) | kn <- [:: (([:: 1; 1; 1; 1; 1; 1], [:: 0%Z; 4%Z]), 2);
      (([:: 1; 1; 1; 1; 2], [:: (- 4)%Z; (- 12)%Z]), 6);
      (([:: 1; 1; 1; 1; 2], [:: (- 2)%Z; (- 8)%Z]), 12);
      (([:: 1; 1; 1; 1; 2], [:: (- 2)%Z; 8%Z]), 12);
      (([:: 1; 1; 1; 1; 2], [:: 0%Z; (- 28)%Z]), 3);
      (([:: 1; 1; 1; 1; 2], [:: 0%Z; (- 12)%Z]), 24);
      (([:: 1; 1; 1; 1; 2], [:: 0%Z; 4%Z]), 12);
      (([:: 1; 1; 1; 1; 2], [:: 0%Z; 20%Z]), 6);
      (([:: 1; 1; 1; 1; 2], [:: 2%Z; (- 8)%Z]), 12);
      (([:: 1; 1; 1; 1; 2], [:: 2%Z; 8%Z]), 12);
      (([:: 1; 1; 1; 1; 2], [:: 4%Z; (- 12)%Z]), 6);
      (([:: 1; 1; 1; 3], [:: (- 5)%Z; (- 3)%Z]), 12);
      (([:: 1; 1; 1; 3], [:: (- 3)%Z; (- 19)%Z]), 24);
      (([:: 1; 1; 1; 3], [:: (- 3)%Z; (- 11)%Z]), 16);
      (([:: 1; 1; 1; 3], [:: (- 3)%Z; (- 3)%Z]), 36);
      (([:: 1; 1; 1; 3], [:: (- 1)%Z; (- 19)%Z]), 12);
      (([:: 1; 1; 1; 3], [:: (- 1)%Z; (- 11)%Z]), 48);
      (([:: 1; 1; 1; 3], [:: (- 1)%Z; (- 3)%Z]), 12);
      (([:: 1; 1; 1; 3], [:: (- 1)%Z; 5%Z]), 48);
      (([:: 1; 1; 1; 3], [:: (- 1)%Z; 13%Z]), 16);
      (([:: 1; 1; 1; 3], [:: 1%Z; (- 19)%Z]), 12);
      (([:: 1; 1; 1; 3], [:: 1%Z; (- 11)%Z]), 48);
      (([:: 1; 1; 1; 3], [:: 1%Z; (- 3)%Z]), 12);
      (([:: 1; 1; 1; 3], [:: 1%Z; 5%Z]), 48);
      (([:: 1; 1; 1; 3], [:: 1%Z; 13%Z]), 16);
      (([:: 1; 1; 1; 3], [:: 3%Z; (- 19)%Z]), 24);
      (([:: 1; 1; 1; 3], [:: 3%Z; (- 11)%Z]), 16);
      (([:: 1; 1; 1; 3], [:: 3%Z; (- 3)%Z]), 36);
      (([:: 1; 1; 1; 3], [:: 5%Z; (- 3)%Z]), 12);
      (([:: 1; 1; 2; 2], [:: (- 6)%Z; 0%Z]), 6);
      (([:: 1; 1; 2; 2], [:: (- 4)%Z; (- 20)%Z]), 6);
      (([:: 1; 1; 2; 2], [:: (- 4)%Z; (- 12)%Z]), 12);
      (([:: 1; 1; 2; 2], [:: (- 4)%Z; (- 4)%Z]), 24);
      (([:: 1; 1; 2; 2], [:: (- 2)%Z; (- 16)%Z]), 24);
      (([:: 1; 1; 2; 2], [:: (- 2)%Z; (- 8)%Z]), 36);
      (([:: 1; 1; 2; 2], [:: (- 2)%Z; 0%Z]), 30);
      (([:: 1; 1; 2; 2], [:: (- 2)%Z; 8%Z]), 12);
      (([:: 1; 1; 2; 2], [:: 0%Z; (- 28)%Z]), 6);
      (([:: 1; 1; 2; 2], [:: 0%Z; (- 20)%Z]), 24);
      (([:: 1; 1; 2; 2], [:: 0%Z; (- 12)%Z]), 24);
      (([:: 1; 1; 2; 2], [:: 0%Z; (- 4)%Z]), 24);
      (([:: 1; 1; 2; 2], [:: 0%Z; 4%Z]), 18);
      (([:: 1; 1; 2; 2], [:: 0%Z; 12%Z]), 24);
      (([:: 1; 1; 2; 2], [:: 2%Z; (- 16)%Z]), 24);
      (([:: 1; 1; 2; 2], [:: 2%Z; (- 8)%Z]), 36);
      (([:: 1; 1; 2; 2], [:: 2%Z; 0%Z]), 30);
      (([:: 1; 1; 2; 2], [:: 2%Z; 8%Z]), 12);
      (([:: 1; 1; 2; 2], [:: 4%Z; (- 20)%Z]), 6);
      (([:: 1; 1; 2; 2], [:: 4%Z; (- 12)%Z]), 12);
      (([:: 1; 1; 2; 2], [:: 4%Z; (- 4)%Z]), 24);
      (([:: 1; 1; 2; 2], [:: 6%Z; 0%Z]), 6);
      (([:: 1; 1; 4], [:: (- 6)%Z; (- 8)%Z]), 12);
      (([:: 1; 1; 4], [:: (- 6)%Z; (- 4)%Z]), 12);
      (([:: 1; 1; 4], [:: (- 4)%Z; (- 16)%Z]), 24);
      (([:: 1; 1; 4], [:: (- 4)%Z; (- 12)%Z]), 12);
      (([:: 1; 1; 4], [:: (- 4)%Z; (- 8)%Z]), 24);
      (([:: 1; 1; 4], [:: (- 4)%Z; (- 4)%Z]), 24);
      (([:: 1; 1; 4], [:: (- 4)%Z; 0%Z]), 24);
      (([:: 1; 1; 4], [:: (- 2)%Z; (- 24)%Z]), 12);
      (([:: 1; 1; 4], [:: (- 2)%Z; (- 20)%Z]), 24);
      (([:: 1; 1; 4], [:: (- 2)%Z; (- 16)%Z]), 24);
      (([:: 1; 1; 4], [:: (- 2)%Z; (- 12)%Z]), 24);
      (([:: 1; 1; 4], [:: (- 2)%Z; (- 8)%Z]), 48);
      (([:: 1; 1; 4], [:: (- 2)%Z; (- 4)%Z]), 36);
      (([:: 1; 1; 4], [:: (- 2)%Z; 0%Z]), 48);
      (([:: 1; 1; 4], [:: (- 2)%Z; 4%Z]), 24);
      (([:: 1; 1; 4], [:: (- 2)%Z; 8%Z]), 12);
      (([:: 1; 1; 4], [:: 0%Z; (- 24)%Z]), 36);
      (([:: 1; 1; 4], [:: 0%Z; (- 20)%Z]), 48);
      (([:: 1; 1; 4], [:: 0%Z; (- 16)%Z]), 24);
      (([:: 1; 1; 4], [:: 0%Z; (- 12)%Z]), 48);
      (([:: 1; 1; 4], [:: 0%Z; (- 4)%Z]), 48);
      (([:: 1; 1; 4], [:: 0%Z; 0%Z]), 96);
      (([:: 1; 1; 4], [:: 0%Z; 4%Z]), 24);
      (([:: 1; 1; 4], [:: 0%Z; 8%Z]), 36);
      (([:: 1; 1; 4], [:: 0%Z; 16%Z]), 24);
      (([:: 1; 1; 4], [:: 0%Z; 20%Z]), 24);
      (([:: 1; 1; 4], [:: 2%Z; (- 24)%Z]), 12);
      (([:: 1; 1; 4], [:: 2%Z; (- 20)%Z]), 24);
      (([:: 1; 1; 4], [:: 2%Z; (- 16)%Z]), 24);
      (([:: 1; 1; 4], [:: 2%Z; (- 12)%Z]), 24);
      (([:: 1; 1; 4], [:: 2%Z; (- 8)%Z]), 48);
      (([:: 1; 1; 4], [:: 2%Z; (- 4)%Z]), 36);
      (([:: 1; 1; 4], [:: 2%Z; 0%Z]), 48);
      (([:: 1; 1; 4], [:: 2%Z; 4%Z]), 24);
      (([:: 1; 1; 4], [:: 2%Z; 8%Z]), 12);
      (([:: 1; 1; 4], [:: 4%Z; (- 16)%Z]), 24);
      (([:: 1; 1; 4], [:: 4%Z; (- 12)%Z]), 12);
      (([:: 1; 1; 4], [:: 4%Z; (- 8)%Z]), 24);
      (([:: 1; 1; 4], [:: 4%Z; (- 4)%Z]), 24);
      (([:: 1; 1; 4], [:: 4%Z; 0%Z]), 24);
      (([:: 1; 1; 4], [:: 6%Z; (- 8)%Z]), 12);
      (([:: 1; 1; 4], [:: 6%Z; (- 4)%Z]), 12);
      (([:: 1; 2; 3], [:: (- 7)%Z; 1%Z]), 12);
      (([:: 1; 2; 3], [:: (- 5)%Z; (- 11)%Z]), 36);
      (([:: 1; 2; 3], [:: (- 5)%Z; (- 7)%Z]), 24);
      (([:: 1; 2; 3], [:: (- 5)%Z; (- 3)%Z]), 12);
      (([:: 1; 2; 3], [:: (- 3)%Z; (- 19)%Z]), 24);
      (([:: 1; 2; 3], [:: (- 3)%Z; (- 15)%Z]), 48);
      (([:: 1; 2; 3], [:: (- 3)%Z; (- 11)%Z]), 48);
      (([:: 1; 2; 3], [:: (- 3)%Z; (- 7)%Z]), 24);
      (([:: 1; 2; 3], [:: (- 3)%Z; (- 3)%Z]), 36);
      (([:: 1; 2; 3], [:: (- 3)%Z; 1%Z]), 24);
      (([:: 1; 2; 3], [:: (- 3)%Z; 5%Z]), 12);
      (([:: 1; 2; 3], [:: (- 1)%Z; (- 23)%Z]), 36);
      (([:: 1; 2; 3], [:: (- 1)%Z; (- 19)%Z]), 36);
      (([:: 1; 2; 3], [:: (- 1)%Z; (- 15)%Z]), 48);
      (([:: 1; 2; 3], [:: (- 1)%Z; (- 11)%Z]), 48);
      (([:: 1; 2; 3], [:: (- 1)%Z; (- 7)%Z]), 24);
      (([:: 1; 2; 3], [:: (- 1)%Z; (- 3)%Z]), 36);
      (([:: 1; 2; 3], [:: (- 1)%Z; 1%Z]), 48);
      (([:: 1; 2; 3], [:: (- 1)%Z; 5%Z]), 48);
      (([:: 1; 2; 3], [:: (- 1)%Z; 9%Z]), 36);
      (([:: 1; 2; 3], [:: (- 1)%Z; 17%Z]), 12);
      (([:: 1; 2; 3], [:: 1%Z; (- 23)%Z]), 36);
      (([:: 1; 2; 3], [:: 1%Z; (- 19)%Z]), 36);
      (([:: 1; 2; 3], [:: 1%Z; (- 15)%Z]), 48);
      (([:: 1; 2; 3], [:: 1%Z; (- 11)%Z]), 48);
      (([:: 1; 2; 3], [:: 1%Z; (- 7)%Z]), 24);
      (([:: 1; 2; 3], [:: 1%Z; (- 3)%Z]), 36);
      (([:: 1; 2; 3], [:: 1%Z; 1%Z]), 48);
      (([:: 1; 2; 3], [:: 1%Z; 5%Z]), 48);
      (([:: 1; 2; 3], [:: 1%Z; 9%Z]), 36);
      (([:: 1; 2; 3], [:: 1%Z; 17%Z]), 12);
      (([:: 1; 2; 3], [:: 3%Z; (- 19)%Z]), 24);
      (([:: 1; 2; 3], [:: 3%Z; (- 15)%Z]), 48);
      (([:: 1; 2; 3], [:: 3%Z; (- 11)%Z]), 48);
      (([:: 1; 2; 3], [:: 3%Z; (- 7)%Z]), 24);
      (([:: 1; 2; 3], [:: 3%Z; (- 3)%Z]), 36);
      (([:: 1; 2; 3], [:: 3%Z; 1%Z]), 24);
      (([:: 1; 2; 3], [:: 3%Z; 5%Z]), 12);
      (([:: 1; 2; 3], [:: 5%Z; (- 11)%Z]), 36);
      (([:: 1; 2; 3], [:: 5%Z; (- 7)%Z]), 24);
      (([:: 1; 2; 3], [:: 5%Z; (- 3)%Z]), 12);
      (([:: 1; 2; 3], [:: 7%Z; 1%Z]), 12);
      (([:: 1; 5], [:: (- 7)%Z; (- 1)%Z]), 12);
      (([:: 1; 5], [:: (- 5)%Z; (- 13)%Z]), 12);
      (([:: 1; 5], [:: (- 5)%Z; (- 9)%Z]), 36);
      (([:: 1; 5], [:: (- 5)%Z; (- 5)%Z]), 48);
      (([:: 1; 5], [:: (- 5)%Z; (- 1)%Z]), 12);
      (([:: 1; 5], [:: (- 3)%Z; (- 21)%Z]), 24);
      (([:: 1; 5], [:: (- 3)%Z; (- 17)%Z]), 48);
      (([:: 1; 5], [:: (- 3)%Z; (- 13)%Z]), 48);
      (([:: 1; 5], [:: (- 3)%Z; (- 9)%Z]), 60);
      (([:: 1; 5], [:: (- 3)%Z; (- 5)%Z]), 72);
      (([:: 1; 5], [:: (- 3)%Z; (- 1)%Z]), 36);
      (([:: 1; 5], [:: (- 3)%Z; 3%Z]), 36);
      (([:: 1; 5], [:: (- 1)%Z; (- 25)%Z]), 36);
      (([:: 1; 5], [:: (- 1)%Z; (- 21)%Z]), 24);
      (([:: 1; 5], [:: (- 1)%Z; (- 17)%Z]), 48);
      (([:: 1; 5], [:: (- 1)%Z; (- 13)%Z]), 72);
      (([:: 1; 5], [:: (- 1)%Z; (- 9)%Z]), 60);
      (([:: 1; 5], [:: (- 1)%Z; (- 5)%Z]), 96);
      (([:: 1; 5], [:: (- 1)%Z; (- 1)%Z]), 60);
      (([:: 1; 5], [:: (- 1)%Z; 3%Z]), 24);
      (([:: 1; 5], [:: (- 1)%Z; 7%Z]), 48);
      (([:: 1; 5], [:: (- 1)%Z; 11%Z]), 24);
      (([:: 1; 5], [:: (- 1)%Z; 15%Z]), 24);
      (([:: 1; 5], [:: 1%Z; (- 25)%Z]), 36);
      (([:: 1; 5], [:: 1%Z; (- 21)%Z]), 24);
      (([:: 1; 5], [:: 1%Z; (- 17)%Z]), 48);
      (([:: 1; 5], [:: 1%Z; (- 13)%Z]), 72);
      (([:: 1; 5], [:: 1%Z; (- 9)%Z]), 60);
      (([:: 1; 5], [:: 1%Z; (- 5)%Z]), 96);
      (([:: 1; 5], [:: 1%Z; (- 1)%Z]), 60);
      (([:: 1; 5], [:: 1%Z; 3%Z]), 24);
      (([:: 1; 5], [:: 1%Z; 7%Z]), 48);
      (([:: 1; 5], [:: 1%Z; 11%Z]), 24);
      (([:: 1; 5], [:: 1%Z; 15%Z]), 24);
      (([:: 1; 5], [:: 3%Z; (- 21)%Z]), 24);
      (([:: 1; 5], [:: 3%Z; (- 17)%Z]), 48);
      (([:: 1; 5], [:: 3%Z; (- 13)%Z]), 48);
      (([:: 1; 5], [:: 3%Z; (- 9)%Z]), 60);
      (([:: 1; 5], [:: 3%Z; (- 5)%Z]), 72);
      (([:: 1; 5], [:: 3%Z; (- 1)%Z]), 36);
      (([:: 1; 5], [:: 3%Z; 3%Z]), 36);
      (([:: 1; 5], [:: 5%Z; (- 13)%Z]), 12);
      (([:: 1; 5], [:: 5%Z; (- 9)%Z]), 36);
      (([:: 1; 5], [:: 5%Z; (- 5)%Z]), 48);
      (([:: 1; 5], [:: 5%Z; (- 1)%Z]), 12);
      (([:: 1; 5], [:: 7%Z; (- 1)%Z]), 12);
      (([:: 2; 2; 2], [:: (- 8)%Z; 4%Z]), 1);
      (([:: 2; 2; 2], [:: (- 4)%Z; (- 20)%Z]), 5);
      (([:: 2; 2; 2], [:: (- 4)%Z; (- 12)%Z]), 6);
      (([:: 2; 2; 2], [:: (- 4)%Z; (- 4)%Z]), 12);
      (([:: 2; 2; 2], [:: 0%Z; (- 20)%Z]), 12);
      (([:: 2; 2; 2], [:: 0%Z; (- 12)%Z]), 12);
      (([:: 2; 2; 2], [:: 0%Z; (- 4)%Z]), 18);
      (([:: 2; 2; 2], [:: 0%Z; 4%Z]), 4);
      (([:: 2; 2; 2], [:: 0%Z; 28%Z]), 1);
      (([:: 2; 2; 2], [:: 4%Z; (- 20)%Z]), 5);
      (([:: 2; 2; 2], [:: 4%Z; (- 12)%Z]), 6);
      (([:: 2; 2; 2], [:: 4%Z; (- 4)%Z]), 12);
      (([:: 2; 2; 2], [:: 8%Z; 4%Z]), 1);
      (([:: 2; 4], [:: (- 6)%Z; (- 8)%Z]), 12);
      (([:: 2; 4], [:: (- 6)%Z; (- 4)%Z]), 12);
      (([:: 2; 4], [:: (- 6)%Z; 0%Z]), 12);
      (([:: 2; 4], [:: (- 4)%Z; (- 16)%Z]), 24);
      (([:: 2; 4], [:: (- 4)%Z; (- 12)%Z]), 12);
      (([:: 2; 4], [:: (- 4)%Z; (- 8)%Z]), 24);
      (([:: 2; 4], [:: (- 4)%Z; (- 4)%Z]), 24);
      (([:: 2; 4], [:: (- 4)%Z; 0%Z]), 6);
      (([:: 2; 4], [:: (- 2)%Z; (- 24)%Z]), 12);
      (([:: 2; 4], [:: (- 2)%Z; (- 20)%Z]), 24);
      (([:: 2; 4], [:: (- 2)%Z; (- 16)%Z]), 24);
      (([:: 2; 4], [:: (- 2)%Z; (- 12)%Z]), 24);
      (([:: 2; 4], [:: (- 2)%Z; (- 8)%Z]), 48);
      (([:: 2; 4], [:: (- 2)%Z; (- 4)%Z]), 36);
      (([:: 2; 4], [:: (- 2)%Z; 0%Z]), 12);
      (([:: 2; 4], [:: (- 2)%Z; 4%Z]), 24);
      (([:: 2; 4], [:: (- 2)%Z; 8%Z]), 12);
      (([:: 2; 4], [:: 0%Z; (- 24)%Z]), 24);
      (([:: 2; 4], [:: 0%Z; (- 20)%Z]), 24);
      (([:: 2; 4], [:: 0%Z; (- 12)%Z]), 24);
      (([:: 2; 4], [:: 0%Z; (- 8)%Z]), 72);
      (([:: 2; 4], [:: 0%Z; (- 4)%Z]), 24);
      (([:: 2; 4], [:: 0%Z; 0%Z]), 6);
      (([:: 2; 4], [:: 0%Z; 12%Z]), 24);
      (([:: 2; 4], [:: 2%Z; (- 24)%Z]), 12);
      (([:: 2; 4], [:: 2%Z; (- 20)%Z]), 24);
      (([:: 2; 4], [:: 2%Z; (- 16)%Z]), 24);
      (([:: 2; 4], [:: 2%Z; (- 12)%Z]), 24);
      (([:: 2; 4], [:: 2%Z; (- 8)%Z]), 48);
      (([:: 2; 4], [:: 2%Z; (- 4)%Z]), 36);
      (([:: 2; 4], [:: 2%Z; 0%Z]), 12);
      (([:: 2; 4], [:: 2%Z; 4%Z]), 24);
      (([:: 2; 4], [:: 2%Z; 8%Z]), 12);
      (([:: 2; 4], [:: 4%Z; (- 16)%Z]), 24);
      (([:: 2; 4], [:: 4%Z; (- 12)%Z]), 12);
      (([:: 2; 4], [:: 4%Z; (- 8)%Z]), 24);
      (([:: 2; 4], [:: 4%Z; (- 4)%Z]), 24);
      (([:: 2; 4], [:: 4%Z; 0%Z]), 6);
      (([:: 2; 4], [:: 6%Z; (- 8)%Z]), 12);
      (([:: 2; 4], [:: 6%Z; (- 4)%Z]), 12);
      (([:: 2; 4], [:: 6%Z; 0%Z]), 12);
      (([:: 3; 3], [:: (- 6)%Z; (- 10)%Z]), 6);
      (([:: 3; 3], [:: (- 6)%Z; (- 2)%Z]), 8);
      (([:: 3; 3], [:: (- 4)%Z; (- 10)%Z]), 36);
      (([:: 3; 3], [:: (- 4)%Z; (- 2)%Z]), 12);
      (([:: 3; 3], [:: (- 2)%Z; (- 26)%Z]), 8);
      (([:: 3; 3], [:: (- 2)%Z; (- 18)%Z]), 24);
      (([:: 3; 3], [:: (- 2)%Z; (- 10)%Z]), 24);
      (([:: 3; 3], [:: (- 2)%Z; (- 2)%Z]), 24);
      (([:: 3; 3], [:: (- 2)%Z; 6%Z]), 18);
      (([:: 3; 3], [:: 0%Z; (- 18)%Z]), 36);
      (([:: 3; 3], [:: 0%Z; (- 10)%Z]), 24);
      (([:: 3; 3], [:: 0%Z; (- 2)%Z]), 48);
      (([:: 3; 3], [:: 0%Z; 6%Z]), 12);
      (([:: 3; 3], [:: 0%Z; 22%Z]), 4);
      (([:: 3; 3], [:: 2%Z; (- 26)%Z]), 8);
      (([:: 3; 3], [:: 2%Z; (- 18)%Z]), 24);
      (([:: 3; 3], [:: 2%Z; (- 10)%Z]), 24);
      (([:: 3; 3], [:: 2%Z; (- 2)%Z]), 24);
      (([:: 3; 3], [:: 2%Z; 6%Z]), 18);
      (([:: 3; 3], [:: 4%Z; (- 10)%Z]), 36);
      (([:: 3; 3], [:: 4%Z; (- 2)%Z]), 12);
      (([:: 3; 3], [:: 6%Z; (- 10)%Z]), 6);
      (([:: 3; 3], [:: 6%Z; (- 2)%Z]), 8);
      (([:: 6], [:: (- 8)%Z; 6%Z]), 6);
      (([:: 6], [:: (- 6)%Z; (- 6)%Z]), 24);
      (([:: 6], [:: (- 6)%Z; (- 2)%Z]), 16);
      (([:: 6], [:: (- 4)%Z; (- 18)%Z]), 24);
      (([:: 6], [:: (- 4)%Z; (- 14)%Z]), 24);
      (([:: 6], [:: (- 4)%Z; (- 10)%Z]), 36);
      (([:: 6], [:: (- 4)%Z; (- 6)%Z]), 24);
      (([:: 6], [:: (- 4)%Z; (- 2)%Z]), 44);
      (([:: 6], [:: (- 2)%Z; (- 22)%Z]), 36);
      (([:: 6], [:: (- 2)%Z; (- 18)%Z]), 48);
      (([:: 6], [:: (- 2)%Z; (- 14)%Z]), 48);
      (([:: 6], [:: (- 2)%Z; (- 10)%Z]), 48);
      (([:: 6], [:: (- 2)%Z; (- 6)%Z]), 24);
      (([:: 6], [:: (- 2)%Z; (- 2)%Z]), 48);
      (([:: 6], [:: (- 2)%Z; 2%Z]), 24);
      (([:: 6], [:: (- 2)%Z; 6%Z]), 24);
      (([:: 6], [:: (- 2)%Z; 10%Z]), 4);
      (([:: 6], [:: 0%Z; (- 26)%Z]), 24);
      (([:: 6], [:: 0%Z; (- 22)%Z]), 36);
      (([:: 6], [:: 0%Z; (- 18)%Z]), 24);
      (([:: 6], [:: 0%Z; (- 14)%Z]), 56);
      (([:: 6], [:: 0%Z; (- 10)%Z]), 60);
      (([:: 6], [:: 0%Z; (- 6)%Z]), 36);
      (([:: 6], [:: 0%Z; (- 2)%Z]), 24);
      (([:: 6], [:: 0%Z; 2%Z]), 24);
      (([:: 6], [:: 0%Z; 6%Z]), 24);
      (([:: 6], [:: 0%Z; 10%Z]), 72);
      (([:: 6], [:: 0%Z; 18%Z]), 12);
      (([:: 6], [:: 2%Z; (- 22)%Z]), 36);
      (([:: 6], [:: 2%Z; (- 18)%Z]), 48);
      (([:: 6], [:: 2%Z; (- 14)%Z]), 48);
      (([:: 6], [:: 2%Z; (- 10)%Z]), 48);
      (([:: 6], [:: 2%Z; (- 6)%Z]), 24);
      (([:: 6], [:: 2%Z; (- 2)%Z]), 48);
      (([:: 6], [:: 2%Z; 2%Z]), 24);
      (([:: 6], [:: 2%Z; 6%Z]), 24);
      (([:: 6], [:: 2%Z; 10%Z]), 4);
      (([:: 6], [:: 4%Z; (- 18)%Z]), 24);
      (([:: 6], [:: 4%Z; (- 14)%Z]), 24);
      (([:: 6], [:: 4%Z; (- 10)%Z]), 36);
      (([:: 6], [:: 4%Z; (- 6)%Z]), 24);
      (([:: 6], [:: 4%Z; (- 2)%Z]), 44);
      (([:: 6], [:: 6%Z; (- 6)%Z]), 24);
      (([:: 6], [:: 6%Z; (- 2)%Z]), 16);
      (([:: 6], [:: 8%Z; 6%Z]), 6)]].

Definition points_7_2 (e : nat) : nat := nth 0 [:: 0; 7; 21; 112; 588; 3360; 100 * 195 + 44] e.

Example C70_reference_7_2 : is_map reference_7_2 /\ table_check 7 2 false 2 reference_7_2.
Proof. by split; [vm_compute|apply: table_test; vm_compute]. Qed.

Example C77_reference_7_2 :
  closed_points 7 (2 * 2 + 2) points_7_2 /\
  all (fun r => \sum_(kn <- reference_7_2 | kn.1.1 == r) kn.2 == ramified_number 7 2 false points_7_2 r)
    [:: [:: 1; 1; 1; 1; 1; 1]; [:: 1; 1; 1; 1; 2]; [:: 1; 1; 1; 3]; [:: 1; 1; 2; 2]; [:: 1; 1; 4]; [:: 1; 2; 3]; [:: 1; 5]; [:: 2; 2; 2]; [:: 2; 4]; [:: 3; 3]; [:: 6]].
Proof.
split; first by case=> [|[|[|[|[|[|[|e]]]]]]] // _; apply/eqP; rewrite unlock; vm_compute.
by rewrite /ramified_number unlock; vm_compute.
Qed.

Example C78_reference_7_2 : moments_check 7 2 false 2 reference_7_2.
Proof.
by split=> // _; rewrite /first_moment_check /second_moment_check /total_of unlock; apply/eqP; vm_compute.
Qed.
