(** Model of the OpenCL objects a thread sets up: /repo/src/opencl/interface.{hh,cc}, the constructors of ReductionTable and its
    cache of kernels, /repo/src/reduction_table.cc:41-81 and /repo/src/reduction_table.hh:51-100, and the constructor
    of OpenCLKernelEvaluation, /repo/src/opencl/kernel_evaluation.cc:32-83.

    Devices are numbers and vendors are texts.  A program is represented by the value of POLY_SIZE it is built with
    (/repo/src/opencl/program_evaluation.hh:61-66).  Calls of OpenCL other than the building of programs are taken to succeed.
    What the kernels compute is in OpenCL.v; there, the kernel is taken to be built for the degree of the curve and the
    buffers to be there. *)
Set Warnings "-notation-overridden,-ambiguous-paths".
From mathcomp Require Import all_ssreflect.
From Verif Require Import Res OMap Text.

Set Implicit Arguments.
Unset Strict Implicit.
Unset Printing Implicit Defensive.

(** [cl::Platform], /repo/src/opencl/interface.cc:53-74: its vendor, and the devices it lists as GPUs and as accelerators. *)
Record platform := Platform { pf_vendor : seq char; pf_gpus : seq nat; pf_accelerators : seq nat }.

(** The first loop of OpenCLInterface::devices, /repo/src/opencl/interface.cc:53-63; the state is ([vendors], [platforms]). *)
Definition pick_platform (s : seq (seq char) * seq platform) (pf : platform) : seq (seq char) * seq platform :=
  if pf_vendor pf \in s.1 then s else (rcons s.1 (pf_vendor pf), rcons s.2 pf).

(** OpenCLInterface::devices, /repo/src/opencl/interface.cc:46-78. *)
Definition devices (pfs : seq platform) : seq nat :=
  flatten [seq pf_gpus pf ++ pf_accelerators pf | pf <- (foldl pick_platform ([::], [::]) pfs).2].

(** OpenCLInterface, /repo/src/opencl/interface.hh:46-85: the device and the programs by degree; [i_built] lists the degrees
    programs were built for, and is not in the code. *)
Record interface := Interface { i_device : nat; i_programs : smap nat; i_built : seq nat }.

(** The constructors, /repo/src/opencl/interface.hh:49 and /repo/src/opencl/interface.cc:34-44; [front()] of an empty vector is
    undefined. *)
Definition mk_interface (device : nat) : interface := Interface device [::] [::].
Definition default_interface (pfs : seq platform) : res interface :=
  d <- vget (devices pfs) 0 ;; Ok (mk_interface d).

(** OpenCLInterface::program_evaluation, /repo/src/opencl/interface.hh:54-63, with OpenCLProgram::init_program_cl,
    /repo/src/opencl/program.cc:32-49, which ends the process if the program cannot be built; [builds] tells whether it can. *)
Definition program_evaluation (builds : nat -> bool) (itf : interface) (degree : nat) : res (interface * nat) :=
  if sm_find (i_programs itf) degree is Some program then Ok (itf, program)
  else if builds degree then
    Ok (Interface (i_device itf) (sm_set (i_programs itf) degree degree.+1) (rcons (i_built itf) degree), degree.+1)
  else Term.

(** OpenCLKernelEvaluation, /repo/src/opencl/kernel_evaluation.hh:37-53: the member [degree] and the program. *)
Record kernel := Kernel { k_degree : nat; k_program : nat }.

(** The members of ReductionTable that concern OpenCL, /repo/src/reduction_table.hh:72, 108-112: whether [opencl],
    [_buffer_evaluation] and [_kernel_reduction] point to an object, and [_kernel_evaluation]. *)
Record cltable := ClTable { ct_opencl : bool; ct_buffers : bool; ct_reduction : bool; ct_kernels : smap kernel }.

(** ReductionTable::ReductionTable, /repo/src/reduction_table.cc:62-81, the constructor that takes the pointer by
    reference. *)
Definition table_by_reference (opencl : bool) : cltable := ClTable opencl opencl opencl [::].

(** ReductionTable::ReductionTable, /repo/src/reduction_table.cc:41-60, the constructor that takes the pointer by
    move.  In its body (55) [opencl] is the parameter, from which the member has been moved, so it is empty. *)
Definition table_by_move (opencl : bool) : cltable :=
  let member := opencl in let parameter := false in ClTable member parameter parameter [::].

(** ReductionTable::is_opencl_enabled, /repo/src/reduction_table.hh:57. *)
Definition is_opencl_enabled (t : cltable) : bool := ct_opencl t.

(** OpenCLKernelEvaluation::OpenCLKernelEvaluation, /repo/src/opencl/kernel_evaluation.cc:32-83: asks twice for the program
    (41, 43), and dereferences [buffer_evaluation()] (61). *)
Definition mk_kernel (builds : nat -> bool) (itf : interface) (t : cltable) (degree : nat) : res (interface * kernel) :=
  a <- program_evaluation builds itf degree ;;
  b <- program_evaluation builds a.1 degree ;;
  if ct_buffers t then Ok (b.1, Kernel degree b.2) else Undef.

(** ReductionTable::kernel_evaluation, /repo/src/reduction_table.hh:86-95. *)
Definition kernel_evaluation (builds : nat -> bool) (itf : interface) (t : cltable) (degree : nat)
    : res (interface * cltable * kernel) :=
  if sm_find (ct_kernels t) degree is Some k then Ok (itf, t, k)
  else
    ik <- mk_kernel builds itf t degree ;;
    Ok (ik.1, ClTable (ct_opencl t) (ct_buffers t) (ct_reduction t) (sm_set (ct_kernels t) degree ik.2), ik.2).

(** Curve::count, /repo/src/curve.cc:184-189, with Curve::count_opencl, 210-243, for a curve with [n] coefficients: [None] if
    the processor counts, and otherwise the number of coefficients the kernel evaluates.  enqueue
    (/repo/src/opencl/kernel_evaluation.cc:92-95) compares with the degree of the kernel; [kernel_reduction()] is dereferenced
    at 234. *)
Definition count_on (builds : nat -> bool) (itf : interface) (t : cltable) (n : nat)
    : res (interface * cltable * option nat) :=
  if ~~ is_opencl_enabled t then Ok (itf, t, None)
  else
    itk <- kernel_evaluation builds itf t n.-1 ;;
    if n != (k_degree itk.2).+1 then Term
    else if ct_reduction itk.1.2 then Ok (itk.1, Some (k_program itk.2)) else Undef.

(** The counts of a thread with the tables [ts], which share its interface (/repo/src/threaded/thread.cc:86-93, 113-118): a
    list of numbers of tables and of coefficients. *)
Fixpoint counts_on (builds : nat -> bool) (itf : interface) (ts : seq cltable) (work : seq (nat * nat))
    : res (interface * seq cltable * seq (option nat)) :=
  if work is (i, n) :: work' then
    t <- vget ts i ;;
    a <- count_on builds itf t n ;;
    ts <- vset ts i a.1.2 ;;
    b <- counts_on builds a.1.1 ts work' ;;
    Ok (b.1, a.2 :: b.2)
  else Ok (itf, ts, [::]).
