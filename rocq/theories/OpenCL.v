(** Model of the OpenCL kernels and of the host code that runs them: /repo/src/opencl/evaluation.cl,
    /repo/src/opencl/reduction.cl, /repo/src/opencl/kernel_evaluation.cc, /repo/src/opencl/kernel_reduction.cc
    and Curve::count_opencl, /repo/src/curve.cc:210-243.

    [W] is the number of values of [unsigned int] and [M] that of the non-negative values of [int]; all values
    here are non-negative, and a sum of values of type [int] is undefined from [M] on.

    A kernel is run by work items in any order; what an item does between two barriers is one step here.  This
    loses nothing: between two barriers no item reads a place another one writes (in the reduction an item below
    [offset] reads its own place and one from [offset] on, and writes its own).  The status values returned by
    OpenCL are taken to be CL_SUCCESS; contexts, devices, the building of programs and the sizes of buffers are
    not modelled.

    With WITH_OPENCL the source does not compile as it is: Curve::count_opencl passes a vector and a map of
    [unsigned int] where /repo/src/opencl/kernel_evaluation.hh:43 and /repo/src/opencl/kernel_reduction.hh:47 want [int].  The model takes the values
    to be passed unchanged. *)
Set Warnings "-notation-overridden,-ambiguous-paths".
From mathcomp Require Import all_ssreflect.
From Verif Require Import Res Tables Curve.

Set Implicit Arguments.
Unset Strict Implicit.
Unset Printing Implicit Defensive.

(** Addition of values of type [int], /repo/src/opencl/evaluation.cl:46-66, /repo/src/opencl/reduction.cl:41-48,
    /repo/src/opencl/kernel_reduction.cc:127. *)
Definition iadd (M a b : nat) : res nat := if a + b < M then Ok (a + b) else Undef.

(** [accumulate(sums.cbegin(), sums.cend(), 0)], /repo/src/opencl/kernel_reduction.cc:127. *)
Definition host_sum (M : nat) (v : seq nat) : res nat := foldM (iadd M) 0 v.

(** ** The evaluation kernel *)

(** The body of the loop over [dx], /repo/src/opencl/evaluation.cl:45-70; the state is ([f], [xpw]) and [cf] is
    [poly_coeffs_exponents[dx]]. *)
Definition kernel_step (M Qp : nat) (red inc : seq nat) (x : nat) (s : nat * nat) (cf : nat) : res (nat * nat) :=
  let: (f, xpw) := s in
  xpw <- iadd M xpw x ;;
  xpw <- vget red xpw ;;
  f <- (if cf != Qp then
          if f == Qp then e <- iadd M cf xpw ;; vget red e
          else
            e <- iadd M cf xpw ;;
            tmp <- vget red e ;;
            let: (f, tmp) := if tmp <= f then (tmp, f) else (f, tmp) in
            tmp2 <- vget inc (tmp - f) ;;
            if tmp2 != Qp then f <- iadd M f tmp2 ;; vget red f else Ok Qp
        else Ok f) ;;
  Ok (f, xpw).

(** /repo/src/opencl/evaluation.cl:40-70.  [POLY_SIZE] is the degree plus one
    (/repo/src/opencl/program_evaluation.hh:61-66), which is the number of coefficients, see [enqueue]. *)
Definition kernel_eval (M Qp : nat) (red inc coeffs : seq nat) (x : nat) : res nat :=
  f0 <- vget coeffs 0 ;;
  s <- foldM (kernel_step M Qp red inc x) (f0, 0) (behead coeffs) ;;
  Ok s.1.

(** The values written for one item, /repo/src/opencl/evaluation.cl:72-81. *)
Definition kernel_out (Qp f : nat) : nat * nat :=
  if f == Qp then (0, 1) else if odd f then (0, 0) else (2, 0).

(** /repo/src/opencl/evaluation.cl:25-82: the work of the item with the global id [x]; the state is the contents of the two buffers. *)
Definition kernel_item (M Qp : nat) (red inc coeffs : seq nat) (bufs : seq nat * seq nat) (x : nat)
    : res (seq nat * seq nat) :=
  f <- kernel_eval M Qp red inc coeffs x ;;
  u <- vset bufs.1 x (kernel_out Qp f).1 ;;
  r <- vset bufs.2 x (kernel_out Qp f).2 ;;
  Ok (u, r).

(** The kernel, /repo/src/opencl/evaluation.cl:25-82, run by the items in the order [order]. *)
Definition evaluate (M : nat) (t : redtable) (coeffs order : seq nat) (bufs : seq nat * seq nat) :=
  foldM (kernel_item M (rt_power t).-1 (rt_red t) (rt_inc t) coeffs) bufs order.

(** OpenCLKernelEvaluation::enqueue, /repo/src/opencl/kernel_evaluation.cc:85-120: the coefficients the kernel
    will see.  The copy to the device is not blocking (98: CL_FALSE), and its source is the parameter of the
    function, which is destroyed at its end: unless the device has copied the coefficients by then ([copied]), it
    copies memory that has been freed. *)
Definition enqueue (degree : nat) (coeffs : seq nat) (copied : bool) : res (seq nat) :=
  if size coeffs != degree.+1 then Term else if copied then Ok coeffs else Undef.

(** Curve::count_opencl, /repo/src/curve.cc:210-243, with OpenCLKernelReduction::reduce,
    /repo/src/opencl/kernel_reduction.cc:130-141, for SIZE_PARTIAL_REDUCTION equal to 0, as it is shipped
    (/repo/src/opencl/program_reduction.hh:41): both buffers are read by the host and added up there. *)
Definition count_opencl (W M : nat) (degree : nat) (t : redtable) (coeffs : seq nat) (copied : bool) (order : seq nat)
    (bufs : seq nat * seq nat) (pts : nat * nat) : res (nat * nat) :=
  coeffs <- enqueue degree coeffs copied ;;
  bufs <- evaluate M t coeffs order bufs ;;
  u <- host_sum M bufs.1 ;;
  r <- host_sum M bufs.2 ;;
  Ok (uadd W pts.1 u, uadd W pts.2 r).

(** Curve::count with an OpenCL device, /repo/src/curve.cc:162-208; compare [count] in Curve.v. *)
Definition count_with_opencl (W M : nat) (c : curve) (t : redtable) (copied : bool) (order : seq nat)
    (bufs : seq nat * seq nat) : res curve :=
  if rt_prime t != c_prime c then Term
  else if has_counted c (rt_exponent t) then Ok c
  else
    coeffs <- convert_coeffs W c t ;;
    pts <- count_opencl W M (degree c) t coeffs copied order bufs (0, 0) ;;
    front <- vget coeffs 0 ;;
    let pts := tally W (rt_power t).-1 pts front in
    back <- vget (rev coeffs) 0 ;;
    Ok (set_points c (rt_exponent t) (at_infinity W c (~~ odd back) pts)).

(** ** The reduction kernel *)
Section Reduction.
(** [size] stands for SIZE_PARTIAL_REDUCTION, a literal here: the macro has no parentheses, so that an expression
    like [1 << 2] would be torn apart in /repo/src/opencl/reduction.cl:53.  [lsz] is the size of a work group and [groups] their
    number (/repo/src/opencl/kernel_reduction.hh:62-64); [items] and [len] are the input. *)
Variables (M size lsz groups : nat) (items : seq nat) (len : nat).

(** The loop of /repo/src/opencl/reduction.cl:40-42. *)
Fixpoint acc_loop (fuel ix acc : nat) : res nat :=
  if ix < len then
    if fuel is n.+1 then
      a <- vget items ix ;;
      acc <- iadd M acc a ;;
      ix <- iadd M ix (groups * lsz) ;;
      acc_loop n ix acc
    else OutOfFuel
  else Ok acc.

(** Up to the first barrier, /repo/src/opencl/reduction.cl:40-45; [mem] is [partial_sum_a] of group [g]. *)
Definition init_item (fuel g : nat) (mem : seq nat) (lix : nat) : res (seq nat) :=
  acc <- acc_loop fuel (g * lsz + lix) 0 ;; vset mem lix acc.

(** Between two barriers, /repo/src/opencl/reduction.cl:47-49. *)
Definition round_item (offset : nat) (mem : seq nat) (lix : nat) : res (seq nat) :=
  if lix < offset then
    a <- vget mem lix ;;
    b <- vget mem (lix + offset) ;;
    c <- iadd M a b ;;
    vset mem lix c
  else Ok mem.

(** The loop of /repo/src/opencl/reduction.cl:46-50; [orders] are the orders in which the items do the rounds. *)
Fixpoint rounds (fuel : nat) (orders : nat -> seq nat) (k offset : nat) (mem : seq nat) : res (seq nat) :=
  if size <= offset then
    if fuel is n.+1 then
      mem <- foldM (round_item offset) mem (orders k) ;;
      rounds n orders k.+1 (offset %/ 2) mem
    else OutOfFuel
  else Ok mem.

(** After the loop, /repo/src/opencl/reduction.cl:52-53. *)
Definition out_item (g : nat) (mem out : seq nat) (lix : nat) : res (seq nat) :=
  if lix < size then a <- vget mem lix ;; vset out (size * g + lix) a else Ok out.

(** /repo/src/opencl/reduction.cl:25-54, the work of group [g]: [orders 0] is used up to the first barrier, [orders 1] after the loop. *)
Definition run_group (fuel : nat) (mem0 : nat -> seq nat) (orders : nat -> nat -> seq nat) (out : seq nat) (g : nat)
    : res (seq nat) :=
  mem <- foldM (init_item fuel g) (mem0 g) (orders g 0) ;;
  mem <- rounds fuel (orders g) 2 (lsz %/ 2) mem ;;
  foldM (out_item g mem) out (orders g 1).

(** OpenCLKernelReduction::_reduce, /repo/src/opencl/kernel_reduction.cc:79-128, for a size other than 0: the groups
    run in the order [group_order], [out] is the previous contents of [buffer_sums], [mem0] that of the local memory. *)
Definition reduce (fuel : nat) (mem0 : nat -> seq nat) (orders : nat -> nat -> seq nat) (group_order : seq nat)
    (out : seq nat) : res nat :=
  out <- foldM (run_group fuel mem0 orders) out group_order ;;
  host_sum M out.
End Reduction.
