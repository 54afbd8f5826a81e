(** Model of the queue through which the host drives an OpenCL device: the constructor of OpenCLBufferEvaluation,
    /repo/src/opencl/buffer_evaluation.cc:33-68, OpenCLKernelEvaluation::enqueue, /repo/src/opencl/kernel_evaluation.cc:85-119,
    OpenCLKernelReduction::_reduce, /repo/src/opencl/kernel_reduction.cc:79-128, for SIZE_PARTIAL_REDUCTION equal to 0 as shipped,
    and the loop of a thread over curves and tables, /repo/src/threaded/thread.cc:87-92.

    The queue is made without properties (/repo/src/opencl/interface.cc:42), so that the device executes the commands in the order in
    which they are queued, at times of its own.  The tables of a thread share the queue (/repo/src/threaded/thread.cc:115-118).  A write
    that does not block reads the memory of the host when it is executed.  The vector of coefficients is a parameter of [enqueue] and
    dies when it returns.  The tables of the host die when Thread::update_config replaces them (/repo/src/threaded/thread.cc:115); the
    blocks of the former configuration, which hold references to them (128), are taken to be through by then.

    Status values are taken to be CL_SUCCESS.  Kernels are those of OpenCL.v; which program a kernel has is in Setup.v.  [W] and [M]
    are as in OpenCL.v. *)
Set Warnings "-notation-overridden,-ambiguous-paths".
From mathcomp Require Import all_ssreflect.
From Verif Require Import Res Tables Curve OpenCL.

Set Implicit Arguments.
Unset Strict Implicit.
Unset Printing Implicit Defensive.

(** The contents of the buffers of a table, /repo/src/opencl/buffer_evaluation.hh:45-49, and those of the buffers for coefficients,
    one for every degree, /repo/src/opencl/kernel_evaluation.hh:45-53 and /repo/src/reduction_table.hh:86-95. *)
Record buffers := Buffers { b_red : seq nat; b_inc : seq nat; b_unram : seq nat; b_ram : seq nat; b_coeffs : smap (seq nat) }.

(** The commands: the writes of /repo/src/opencl/buffer_evaluation.cc:53-55 and 61-63 for a table, that of
    /repo/src/opencl/kernel_evaluation.cc:98-99 for a table, a degree and a call, and the run of the kernel, 113-114, with the order of
    its items. *)
Inductive command :=
  | WriteRed of nat
  | WriteInc of nat
  | WriteCoeffs of nat & nat & nat
  | RunKernel of nat & nat & seq nat.

(** The commands that wait, the contents of the buffers by table, the number of calls of [enqueue] since the last configuration, and
    the first table that is alive.  [queue] is /repo/src/opencl/interface.hh:82; tables are numbered through the life of the thread,
    which the code does not do. *)
Record qstate := QState { q_queue : seq command; q_bufs : seq buffers; q_calls : nat; q_first : nat }.

(** The write of a whole vector at the start of a buffer, /repo/src/opencl/buffer_evaluation.cc:53-55, 61-63,
    /repo/src/opencl/kernel_evaluation.cc:98-99; OpenCL refuses it if the buffer is too small, and then the process ends. *)
Definition write_buffer (buf v : seq nat) : res (seq nat) :=
  if size v <= size buf then Ok (v ++ drop (size v) buf) else Term.

(** The table as the kernel sees it: the power is an argument (/repo/src/opencl/kernel_evaluation.cc:54), the rest is in buffers
    (60-82). *)
Definition device_table (t : redtable) (b : buffers) : redtable :=
  RedTable (rt_prime t) (rt_exponent t) (rt_power t) (b_red b) (b_inc b).

Section Queue.
(** The tables of all configurations; the contents [junk buffer place] of new buffers, which OpenCL leaves unspecified; the numbers [sched call] of commands
    that the device executes between the two commands of [enqueue] and between the second one and the return; the order
    [orders call table] of the work items. *)
Variables (W M : nat) (tables : seq redtable) (junk : nat -> nat -> nat) (sched : nat -> nat * nat)
  (orders : nat -> nat -> seq nat).

(** The execution of a command; the memory of tables before [first] is freed; [param] is the call of [enqueue] that has not returned yet and its parameter,
    /repo/src/opencl/kernel_evaluation.cc:87-89.  The kernel reads POLY_SIZE coefficients
    (/repo/src/opencl/program_evaluation.hh:61-66, /repo/src/opencl/evaluation.cl:45-47). *)
Definition exec (first : nat) (param : option (nat * seq nat)) (bufs : seq buffers) (c : command) : res (seq buffers) :=
  match c with
  | WriteRed i =>
      if i < first then Undef else
      t <- vget tables i ;; b <- vget bufs i ;;
      v <- write_buffer (b_red b) (rt_red t) ;;
      vset bufs i (Buffers v (b_inc b) (b_unram b) (b_ram b) (b_coeffs b))
  | WriteInc i =>
      if i < first then Undef else
      t <- vget tables i ;; b <- vget bufs i ;;
      v <- write_buffer (b_inc b) (rt_inc t) ;;
      vset bufs i (Buffers (b_red b) v (b_unram b) (b_ram b) (b_coeffs b))
  | WriteCoeffs i d call =>
      b <- vget bufs i ;;
      if param is Some (call', coeffs) then
        if call != call' then Undef
        else
          old <- sm_at (b_coeffs b) d ;;
          v <- write_buffer old coeffs ;;
          vset bufs i (Buffers (b_red b) (b_inc b) (b_unram b) (b_ram b) (sm_set (b_coeffs b) d v))
      else Undef
  | RunKernel i d order =>
      t <- vget tables i ;; b <- vget bufs i ;;
      coeffs <- sm_at (b_coeffs b) d ;;
      ur <- evaluate M (device_table t b) (take d.+1 coeffs) order (b_unram b, b_ram b) ;;
      vset bufs i (Buffers (b_red b) (b_inc b) ur.1 ur.2 (b_coeffs b))
  end.

(** The device executes the first [n] commands that wait, or all if there are fewer; not a function of the code, see
    /repo/src/opencl/interface.cc:42. *)
Definition advance (n : nat) (param : option (nat * seq nat)) (st : qstate) : res qstate :=
  bufs <- foldM (exec (q_first st) param) (q_bufs st) (take n (q_queue st)) ;;
  Ok (QState (drop n (q_queue st)) bufs (q_calls st) (q_first st)).

(** enqueueWriteBuffer and enqueueNDRangeKernel put a command at the end of the queue, /repo/src/opencl/buffer_evaluation.cc:53, 61,
    /repo/src/opencl/kernel_evaluation.cc:98, 113. *)
Definition put (st : qstate) (c : command) : qstate := QState (rcons (q_queue st) c) (q_bufs st) (q_calls st) (q_first st).

(** OpenCLBufferEvaluation::OpenCLBufferEvaluation, /repo/src/opencl/buffer_evaluation.cc:33-68, for the table with the number [i]. *)
Definition mk_buffers (i : nat) (t : redtable) : buffers :=
  Buffers (mkseq (junk (4 * i)) (size (rt_red t))) (mkseq (junk (4 * i + 1)) (size (rt_inc t)))
          (mkseq (junk (4 * i + 2)) (rt_power t).-1) (mkseq (junk (4 * i + 3)) (rt_power t).-1) [::].
Definition add_table (st : qstate) (t : redtable) : qstate :=
  let i := size (q_bufs st) in
  put (put (QState (q_queue st) (rcons (q_bufs st) (mk_buffers i t)) (q_calls st) (q_first st)) (WriteRed i)) (WriteInc i).

(** A new thread, and Thread::update_config, /repo/src/threaded/thread.cc:115-118: the tables are freed and the next [k] are built. *)
Definition new_thread : qstate := QState [::] [::] 0 0.
Definition configure (st : qstate) (k : nat) : qstate :=
  let n := size (q_bufs st) in
  foldl add_table (QState (q_queue st) (q_bufs st) 0 n) (take k (drop n tables)).

(** ReductionTable::kernel_evaluation, /repo/src/reduction_table.hh:86-95, with /repo/src/opencl/kernel_evaluation.cc:48-49: the buffer
    for coefficients is made with the first kernel of the degree. *)
Definition need_kernel (st : qstate) (i d : nat) : res qstate :=
  b <- vget (q_bufs st) i ;;
  if sm_find (b_coeffs b) d is Some _ then Ok st
  else
    bufs <- vset (q_bufs st) i (Buffers (b_red b) (b_inc b) (b_unram b) (b_ram b)
              (sm_set (b_coeffs b) d (mkseq (junk (4 * size tables + q_calls st)) d.+1))) ;;
    Ok (QState (q_queue st) bufs (q_calls st) (q_first st)).

(** OpenCLKernelEvaluation::enqueue, /repo/src/opencl/kernel_evaluation.cc:85-119. *)
Definition enqueue_count (st : qstate) (i d : nat) (coeffs : seq nat) : res qstate :=
  if size coeffs != d.+1 then Term
  else
    let call := q_calls st in
    st <- advance (sched call).1 (Some (call, coeffs)) (put st (WriteCoeffs i d call)) ;;
    st <- advance (sched call).2 (Some (call, coeffs)) (put st (RunKernel i d (orders call i))) ;;
    Ok (QState (q_queue st) (q_bufs st) call.+1 (q_first st)).

(** The reads of OpenCLKernelReduction::_reduce, /repo/src/opencl/kernel_reduction.cc:88-93 and 127, called twice by
    OpenCLKernelReduction::reduce, 130-141.  They block (CL_TRUE), so that all commands before are executed; [sums] has
    [prime_power_pred] places (44). *)
Definition read_sum (buf : buffers -> seq nat) (st : qstate) (i : nat) : res (qstate * nat) :=
  t <- vget tables i ;;
  st <- advance (size (q_queue st)) None st ;;
  b <- vget (q_bufs st) i ;;
  if size (buf b) < (rt_power t).-1 then Term
  else s <- host_sum M (take (rt_power t).-1 (buf b)) ;; Ok (st, s).

(** Curve::count_opencl, /repo/src/curve.cc:210-243. *)
Definition count_queue (st : qstate) (i d : nat) (coeffs : seq nat) (pts : nat * nat) : res (qstate * (nat * nat)) :=
  st <- need_kernel st i d ;;
  st <- enqueue_count st i d coeffs ;;
  su <- read_sum b_unram st i ;;
  sr <- read_sum b_ram su.1 i ;;
  Ok (sr.1, (uadd W pts.1 su.2, uadd W pts.2 sr.2)).

(** Curve::count, /repo/src/curve.cc:162-208, with the table of the number [i]; compare [count] in Curve.v. *)
Definition count_queued (s : qstate * curve) (i : nat) : res (qstate * curve) :=
  let: (st, c) := s in
  t <- vget tables i ;;
  if rt_prime t != c_prime c then Term
  else if has_counted c (rt_exponent t) then Ok (st, c)
  else
    coeffs <- convert_coeffs W c t ;;
    sp <- count_queue st i (degree c) coeffs (0, 0) ;;
    front <- vget coeffs 0 ;;
    let pts := tally W (rt_power t).-1 sp.2 front in
    back <- vget (rev coeffs) 0 ;;
    Ok (sp.1, set_points c (rt_exponent t) (at_infinity W c (~~ odd back) pts)).

(** The loop of Thread::main_thread, /repo/src/threaded/thread.cc:87-92, over the curves with a square-free right side: every one is
    counted with all tables. *)
Fixpoint count_curves (st : qstate) (curves : seq curve) : res (qstate * seq curve) :=
  if curves is c :: curves' then
    sc <- foldM count_queued (st, c) (iota (q_first st) (size (q_bufs st) - q_first st)) ;;
    scs <- count_curves sc.1 curves' ;;
    Ok (scs.1, sc.2 :: scs.2)
  else Ok (st, [::]).
End Queue.

(** What happens to a thread: it gets a configuration with a number of tables, counts curves, and the device executes [e_idle] of the
    commands that wait before the next configuration comes.  [e_sched] and [e_orders] are as above.  Not a record of the code; see
    /repo/src/threaded/thread.cc:76-92 and 108-119. *)
Record epoch := Epoch
  { e_tables : nat; e_sched : nat -> nat * nat; e_orders : nat -> nat -> seq nat; e_curves : seq curve; e_idle : nat }.

(** /repo/src/threaded/thread.cc:87-92, 115-118, once for every configuration. *)
Fixpoint thread_life (W M : nat) (tables : seq redtable) (junk : nat -> nat -> nat) (st : qstate) (es : seq epoch)
    : res (seq (seq curve)) :=
  if es is e :: es' then
    sc <- count_curves W M tables junk (e_sched e) (e_orders e) (configure tables junk st (e_tables e)) (e_curves e) ;;
    st <- advance M tables (e_idle e) None sc.1 ;;
    css <- thread_life W M tables junk st es' ;;
    Ok (sc.2 :: css)
  else Ok [::].
