(** Properties C53, C54 and C61: the OpenCL kernels.  Statements use FinField.v ([generator]), PointSpec.v and the
    model functions only.  [W] and [M] are the numbers of values of [unsigned int] and of non-negative values of
    [int]. *)
Set Warnings "-notation-overridden,-ambiguous-paths".
From mathcomp Require Import all_ssreflect ssralg ssrint poly polydiv finalg zmodp zify.
From Verif Require Import Res FinField Tables TablesSpec CurveSpec Curve PointSpec OpenCL OpenCLProofs PropCurve.

Set Implicit Arguments.
Unset Strict Implicit.
Unset Printing Implicit Defensive.
Import GRing.Theory.

(** C53: whatever the order of the work items and the previous contents of the buffers, no item reads outside a
    table and no sum overflows, and the two sums over the buffers are the pair found by the loop on the CPU. *)
Theorem C53_evaluation :
  forall (L : finFieldType) (G : L) (p k : nat) (t : redtable) (W M : nat) (coeffs order u0 r0 : seq nat),
    generator G -> table_of p k G t -> 2 * #|L| <= W -> 2 * #|L| <= M ->
    coeffs != [::] -> all (fun c => c < #|L|) coeffs ->
    perm_eq order (iota 0 #|L|.-1) -> size u0 = #|L|.-1 -> size r0 = #|L|.-1 ->
    exists u r a b,
      [/\ evaluate M t coeffs order (u0, r0) = Ok (u, r), host_sum M u = Ok a, host_sum M r = Ok b,
          a < W /\ b < W & count_cpu W t coeffs (0, 0) = Ok (a, b)].
Proof. exact: evaluate_cpu. Qed.
Print Assumptions C53_evaluation.

(** [2 + 3x + x^3] at 1, 2, 4, 3, the items running in the order 2, 0, 3, 1: the values are 1, 1, 3, 3. *)
Example C53_case : table_of 5 1 (2%:R : 'F_5)%R t5 /\ perm_eq [:: 2; 0; 3; 1] (iota 0 4) /\
  evaluate 100 t5 [:: 1; 3; 4; 0] [:: 2; 0; 3; 1] ([:: 7; 7; 7; 7], [:: 7; 7; 7; 7])
    = Ok ([:: 2; 2; 0; 0], [:: 0; 0; 0; 0]) /\
  count_cpu 100 t5 [:: 1; 3; 4; 0] (0, 0) = Ok (4, 0).
Proof. by split; [exact: t5_table|]. Qed.

(** C53, the whole of [count]: counting on the device changes the curve exactly as counting on the CPU does. *)
Theorem C53_count :
  forall (F : finFieldType) (g : F) (p r W M : nat) (c : curve) (t : redtable)
         (L : finFieldType) (G : L) (emb : {rmorphism F -> L}) (order u0 r0 : seq nat),
    curve_over g p r W c -> r %| rt_exponent t -> #|L| = p ^ rt_exponent t ->
    2 * #|L| <= W -> 2 * #|L| <= M -> compatible emb g G -> table_of p (rt_exponent t) G t ->
    perm_eq order (iota 0 #|L|.-1) -> size u0 = #|L|.-1 -> size r0 = #|L|.-1 ->
    count_with_opencl W M c t true order (u0, r0) = count W c t.
Proof. exact: count_device. Qed.
Print Assumptions C53_count.

Example C53_count_case : curve_over (2%:R : 'F_5)%R 5 1 100 c5 /\
  count_with_opencl 100 100 c5 t5 true [:: 2; 0; 3; 1] ([:: 7; 7; 7; 7], [:: 7; 7; 7; 7])
    = Ok (Curve 5 1 5 [:: 1; 3; 4; 0] [:: (1, (4, 1))]).
Proof. by split; [exact: c5_over|]. Qed.

(** The bound on [M] in C53 is needed: here a sum in the kernel is undefined for six values of
    [int], while the unsigned ones on the CPU are not. *)
Example C53_bound_needed :
  evaluate 7 t5 [:: 0; 3] (iota 0 4) ([:: 0; 0; 0; 0], [:: 0; 0; 0; 0]) <> Undef /\
  evaluate 6 t5 [:: 0; 3] (iota 0 4) ([:: 0; 0; 0; 0], [:: 0; 0; 0; 0]) = Undef /\
  count_cpu 10 t5 [:: 0; 3] (0, 0) = Ok (2, 1).
Proof. by []. Qed.

(** C54, partial: full statement wanted for every group size that is a power of two and every partial size.  For a
    positive partial size that the group size exceeds by a power of two, and sizes for which no [int] overflows,
    the kernel ends (the number of iterations of any of its loops is bounded by [fuel]) and the partial sums add up
    to the sum of the input, whatever the order of the items between any two barriers, that of the groups, and the
    previous contents of the local memory and of the output.  Missing: the other partial sizes, see below. *)
Theorem C54_reduction_partial :
  forall (M size_ lsz groups k : nat) (items : seq nat) (fuel : nat) (mem0 : nat -> seq nat)
         (orders : nat -> nat -> seq nat) (group_order out : seq nat),
    0 < size_ -> 0 < groups -> lsz = size_ * 2 ^ k ->
    size items + groups * lsz <= M -> sumn items < M ->
    size items <= fuel -> k < fuel ->
    (forall g, g < groups -> size (mem0 g) = lsz) ->
    (forall g r, g < groups -> perm_eq (orders g r) (iota 0 lsz)) ->
    perm_eq group_order (iota 0 groups) -> size out = groups * size_ ->
    reduce M size_ lsz groups items (size items) fuel mem0 orders group_order out = Ok (sumn items).
Proof. exact: reduce_sum. Qed.
Print Assumptions C54_reduction_partial.

(** Two groups of four items and partial sums of size two. *)
Example C54_case :
  4 = 2 * 2 ^ 1 /\ size [:: 3; 1; 4; 1; 5; 9; 2; 6; 5; 3; 5] + 2 * 4 <= 100 /\
  reduce 100 2 4 2 [:: 3; 1; 4; 1; 5; 9; 2; 6; 5; 3; 5] 11 11 (fun=> [:: 8; 8; 8; 8])
    (fun g r => if odd (g + r) then [:: 2; 0; 3; 1] else [:: 3; 2; 1; 0]) [:: 1; 0] [:: 9; 9; 9; 9] = Ok 44.
Proof. by []. Qed.

(** The constant in program_reduction.hh is [1 >> 2], which is 0; the host code then does not start the kernel.  If
    it did, the kernel would not end. *)
Theorem C54_shipped_constant_refuted :
  forall (M lsz groups : nat) (items : seq nat) (fuel : nat) (mem0 : nat -> seq nat)
         (orders : nat -> nat -> seq nat) (group_order out : seq nat) (s : nat),
    group_order != [::] ->
    reduce M 0 lsz groups items (size items) fuel mem0 orders group_order out <> Ok s.
Proof. exact: reduce_zero. Qed.
Print Assumptions C54_shipped_constant_refuted.

(** This is for want of time, not for an error. *)
Example C54_shipped_case : forall fuel, 2 < fuel ->
  reduce 100 0 2 1 [:: 1; 2; 3] 3 fuel (fun=> [:: 0; 0]) (fun _ _ => [:: 0; 1]) [:: 0] [::] = OutOfFuel.
Proof. exact: reduce_zero_case. Qed.

(** A partial size by which the group size is not divisible loses entries: eight ones add up to six. *)
Theorem C54_other_sizes_refuted :
  exists (size_ lsz : nat) (items mem0 out order : seq nat) (s : nat),
    [/\ lsz = 2 ^ 3 /\ 0 < size_, perm_eq order (iota 0 lsz), size mem0 = lsz, size out = size_ &
        reduce 100 size_ lsz 1 items (size items) 10 (fun=> mem0) (fun _ _ => order) [:: 0] out = Ok s
        /\ s != sumn items].
Proof. by exists 3, 8, (nseq 8 1), (nseq 8 0), (nseq 3 0), (iota 0 8), 6. Qed.
Print Assumptions C54_other_sizes_refuted.

(** C61: the device must have copied the coefficients when [enqueue] returns.  The call that copies them does not
    wait for that, so this is false of the code: there are a curve, a table, an order and buffers as in C53 for which
    the outcome is undefined when the copy is made later. *)
Theorem C61_timing_refuted :
  exists (W M : nat) (c : curve) (t : redtable) (order u0 r0 : seq nat),
    [/\ curve_over (2%:R : 'F_5)%R 5 1 W c, table_of 5 1 (2%:R : 'F_5)%R t, perm_eq order (iota 0 #|'F_5|.-1),
        count_with_opencl W M c t true order (u0, r0) = count W c t &
        count_with_opencl W M c t false order (u0, r0) = Undef].
Proof.
exists 100, 100, c5, t5, (iota 0 4), (nseq 4 0), (nseq 4 0).
by split; [exact: c5_over|exact: t5_table|rewrite F5_card| |].
Qed.
Print Assumptions C61_timing_refuted.

(** The same for every curve: a late copy is undefined whenever points have to be counted. *)
Theorem C61_late_copy_undefined :
  forall (W M : nat) (c : curve) (t : redtable) (order : seq nat) (bufs : seq nat * seq nat),
    rt_prime t = c_prime c -> has_counted c (rt_exponent t) = false ->
    forall cs, convert_coeffs W c t = Ok cs -> size cs = (degree c).+1 ->
    count_with_opencl W M c t false order bufs = Undef.
Proof. exact: count_device_late. Qed.
Print Assumptions C61_late_copy_undefined.

Example C61_late_case : convert_coeffs 100 c5 t5 = Ok [:: 1; 3; 4; 0] /\ degree c5 = 3 /\
  count_with_opencl 100 100 c5 t5 false [:: 2; 0; 3; 1] ([::], [::]) = Undef.
Proof. by []. Qed.
