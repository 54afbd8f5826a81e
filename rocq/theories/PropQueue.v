(** Property C80: the queue through which a thread drives its device.  Statements use PointSpec.v, QueueSpec.v and the model functions
    only. *)
Set Warnings "-notation-overridden,-ambiguous-paths".
From mathcomp Require Import all_ssreflect ssralg ssrint poly polydiv finalg zmodp zify.
From Verif Require Import Res FinField Tables TablesSpec CurveSpec Curve PointSpec OpenCL Queue QueueSpec QueueProofs PropCurve Replay.

Set Implicit Arguments.
Unset Strict Implicit.
Unset Printing Implicit Defensive.
Import GRing.Theory.

(** C80, partial: full statement wanted for every timing of the device.  Here a thread gets any number of configurations one after the
    other; for each it builds its tables and counts any number of curves, each with all tables of the configuration, through one queue.
    Whatever the buffers contain when they are made, however far the device is behind at any time and in whatever order it runs the work
    items, the curves are exactly those counted on the CPU, as long as the device reaches the coefficients of every call before [enqueue]
    returns, and the tables of a configuration before the next one replaces them.  Missing: the other timings, see below. *)
Theorem C80_queue_partial :
  forall (F : finFieldType) (g : F) (p r W M : nat) (tables : seq redtable) (junk : nat -> nat -> nat) (es : seq epoch),
    (forall i t0, i < size tables -> usable g p r W M (nth t0 tables i)) ->
    sumn [seq e_tables e | e <- es] <= size tables ->
    (forall e, List.In e es ->
       [/\ forall call i t0, i < size tables -> perm_eq (e_orders e call i) (iota 0 (rt_power (nth t0 tables i)).-1),
           in_time (2 * e_tables e) (e_sched e) & forall c, List.In c (e_curves e) -> curve_over g p r W c]) ->
    (forall e, List.In e (take (size es).-1 es) -> caught_up e) ->
    exists css, thread_life W M tables junk new_thread es = Ok css /\
      mapM (fun et : epoch * seq redtable => mapM (fun c => foldM (count W) c et.2) (e_curves et.1))
           (zip es (split_tables tables es)) = Ok css.
Proof. exact: life_ok. Qed.
Print Assumptions C80_queue_partial.

(** Three configurations, the first without work for the thread.  The device is as late as it may be. *)
Definition c5' := Curve 5 1 5 [:: 2; 0; 1; 4; 3]%N [::].
Definition slow (call : nat) := if call == 0 then (0, 3) else (1, 0).
Definition mixed (_ _ : nat) := [:: 2; 0; 3; 1].
Definition es5 := [:: Epoch 1 slow mixed [::] 2; Epoch 1 slow mixed [:: c5; c5'; c5] 0; Epoch 1 slow mixed [:: c5'] 0].
Example C80_case :
  [/\ forall i t0, i < 3 -> usable (2%:R : 'F_5)%R 5 1 100 100 (nth t0 [:: t5; t5; t5] i),
      sumn [seq e_tables e | e <- es5] <= 3,
      forall e, List.In e es5 ->
        [/\ forall call i t0, i < 3 -> perm_eq (e_orders e call i) (iota 0 (rt_power (nth t0 [:: t5; t5; t5] i)).-1),
            in_time (2 * e_tables e) (e_sched e) & forall c, List.In c (e_curves e) -> curve_over (2%:R : 'F_5)%R 5 1 100 c],
      forall e, List.In e (take 2 es5) -> caught_up e &
      thread_life 100 100 [:: t5; t5; t5] (fun b k => 7 * b + k) new_thread es5 =
        Ok [:: [::]; [:: Curve 5 1 5 [:: 1; 3; 4; 0] [:: (1, (4, 1))]; Curve 5 1 5 [:: 2; 0; 1; 4; 3] [:: (1, (2, 1))];
                         Curve 5 1 5 [:: 1; 3; 4; 0] [:: (1, (4, 1))]]; [:: Curve 5 1 5 [:: 2; 0; 1; 4; 3] [:: (1, (2, 1))]]]].
Proof.
have Hus : usable (2%:R : 'F_5)%R 5 1 100 100 t5.
  exists [finFieldType of 'F_5], (2%:R)%R, [rmorphism of idfun]; rewrite F5_card; split=> //; last exact: t5_table.
  by split; [exact: F5_gen | rewrite F5_card].
have Hc' : curve_over (2%:R : 'F_5)%R 5 1 100 c5'.
  by split; rewrite ?F5_card //; split; rewrite ?F5_card //; exact: F5_gen.
split=> //.
- by case=> [|[|[|i]]].
- move=> e He; have : e_orders e = mixed /\ e_sched e = slow /\ e_tables e = 1.
    by move: He => [<-|[<-|[<-|//]]].
  move=> [-> [-> ->]]; split.
  + by move=> call [|[|[|i]]].
  + by case.
  + move: He => [<-|[<-|[<-|//]]] c //=; first by move=> [<-|[<-|[<-|//]]]; first [exact: c5_over | exact: Hc'].
    by move=> [<-|//].
- move=> e [<-|[<-|//]]; first by left.
  by right; split=> //; exists c5, [:: c5'; c5].
Qed.

(** With the tables of the fields of 25 and 5 elements, built in the order of a thread, the device being four commands behind. *)
Example C80_case_tables :
  let tables := [:: given_table 5 2 inc_25; given_table 5 1 inc_5] in
  let e := Epoch 2 (fun call => if call == 0 then (5, 0) else (0, 2)) (fun _ i => rev (iota 0 (if i == 0 then 24 else 4))) [:: c5; c5'] 0 in
  let points := [:: [:: (1, (4, 1)); (2, (34, 1))]; [:: (1, (2, 1)); (2, (26, 1))]] in
  (if thread_life 1000 1000 tables (fun b k => 3 * b + k) new_thread [:: e] is Ok [:: cs] then [seq c_points c | c <- cs] else [::])
    = points /\
  (if mapM (fun c => foldM (count 1000) c tables) [:: c5; c5'] is Ok cs then [seq c_points c | c <- cs] else [::]) = points.
Proof. by vm_compute. Qed.

(** C80 is false if the device is late at the first call, because it still has the tables to write: the vector of the coefficients is
    gone when the device copies it. *)
Theorem C80_late_refuted :
  forall (F : finFieldType) (g : F) (p r W M : nat) (tables : seq redtable) (junk : nat -> nat -> nat) (e : epoch) (es : seq epoch)
         (c : curve) (curves : seq curve),
    (forall i t0, i < size tables -> usable g p r W M (nth t0 tables i)) ->
    0 < e_tables e <= size tables -> (e_sched e 0).1 + (e_sched e 0).2 <= 2 * e_tables e ->
    e_curves e = c :: curves -> curve_over g p r W c -> c_points c = [::] ->
    thread_life W M tables junk new_thread (e :: es) = Undef.
Proof. exact: late_undef. Qed.
Print Assumptions C80_late_refuted.

(** The device executes two commands while two wait; then one that is late at the second call. *)
Example C80_late_case :
  [/\ thread_life 100 100 [:: t5] (fun b k => 7 * b + k) new_thread [:: Epoch 1 (fun _ => (1, 1)) mixed [:: c5] 0] = Undef,
      thread_life 100 100 [:: t5] (fun b k => 7 * b + k) new_thread
        [:: Epoch 1 (fun call => if call == 0 then (2, 1) else (0, 0)) mixed [:: c5; c5'] 0] = Undef &
      mapM (fun c => foldM (count 100) c [:: t5]) [:: c5] = Ok [:: Curve 5 1 5 [:: 1; 3; 4; 0] [:: (1, (4, 1))]]].
Proof. by split; vm_compute. Qed.

(** C80 is false for a thread that gets no work in its first configuration, if the device has not copied its tables when the second one
    frees them, however fast the device is later. *)
Theorem C80_stale_refuted :
  forall (F : finFieldType) (g : F) (p r W M : nat) (tables : seq redtable) (junk : nat -> nat -> nat) (e1 e2 : epoch) (es : seq epoch)
         (c : curve) (curves : seq curve),
    (forall i t0, i < size tables -> usable g p r W M (nth t0 tables i)) ->
    e_tables e1 + e_tables e2 <= size tables -> e_curves e1 = [::] -> e_idle e1 < 2 * e_tables e1 -> 0 < e_tables e2 ->
    e_curves e2 = c :: curves -> curve_over g p r W c -> c_points c = [::] ->
    thread_life W M tables junk new_thread (e1 :: e2 :: es) = Undef.
Proof. exact: stale_undef. Qed.
Print Assumptions C80_stale_refuted.

Example C80_stale_case :
  thread_life 100 100 [:: t5; t5] (fun b k => 7 * b + k) new_thread
    [:: Epoch 1 slow mixed [::] 1; Epoch 1 (fun _ => (9, 9)) mixed [:: c5] 0] = Undef /\
  thread_life 100 100 [:: t5; t5] (fun b k => 7 * b + k) new_thread
    [:: Epoch 1 slow mixed [::] 2; Epoch 1 (fun _ => (9, 9)) mixed [:: c5] 0] =
      Ok [:: [::]; [:: Curve 5 1 5 [:: 1; 3; 4; 0] [:: (1, (4, 1))]]].
Proof. by vm_compute. Qed.
