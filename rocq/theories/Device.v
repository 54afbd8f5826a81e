(** Model of the work of a thread that uses an OpenCL device, /repo/src/threaded/thread.cc:86-95 with
    /repo/src/curve.cc:186-187: as in Worker.v, but the points other than 0 and infinity are counted as in OpenCL.v.

    What the device does is given, for every call of Curve::count in a block: the order of the work items, the
    contents of the two buffers before the kernel runs, and whether the coefficients are copied in time.  The curves of a block differ,
    and so do the exponents of the tables of a thread, so a call is named by the coefficients of the curve and
    the exponent of the table. *)
Set Warnings "-notation-overridden,-ambiguous-paths".
From mathcomp Require Import all_ssreflect ssralg ssrint poly finalg.
From Verif Require Import Res OMap Tables BlockIter CurveIter Curve Store Text Config Worker OpenCL.

Set Implicit Arguments.
Unset Strict Implicit.
Unset Printing Implicit Defensive.

(** One call of Curve::count_opencl, /repo/src/curve.cc:210-243. *)
Record device_call := DeviceCall
  { dc_order : seq nat; dc_unramified : seq nat; dc_ramified : seq nat; dc_copied : bool }.
(** The calls for a block, /repo/src/threaded/thread.cc:86-93. *)
Definition device := seq nat -> nat -> device_call.

Section Device.
Variables (W S M : nat).
Variable flint : nat -> nat -> flint_field.
Variable is_squarefree : forall p r, seq (ff_field (flint p r)) -> bool.
Variable factor : nat -> nat -> seq nat -> seq (nat * nat).

(** Curve::count for a table with an OpenCL interface, /repo/src/curve.cc:162-208. *)
Definition device_count (dev : device) (v : seq nat) (cv : curve) (t : redtable) : res curve :=
  let d := dev v (rt_exponent t) in
  count_with_opencl W M cv t (dc_copied d) (dc_order d) (dc_unramified d, dc_ramified d).

(** The body of the loop of Thread::main_thread, /repo/src/threaded/thread.cc:86-93, see [work_curve]. *)
Definition device_curve (fuel : nat) (c : config) (dev : device) (tbl : seq (ff_field (flint (g_prime c) (g_exponent c))))
    (tables : seq redtable) (s : store) (v : seq nat) : res store :=
  let p := g_prime c in let r := g_exponent c in let q := p ^ r in
  curve <- mk_curve p r q v ;;
  sqf <- has_squarefree_rhs tbl (@is_squarefree p r) curve ;;
  if ~~ sqf then Ok s
  else
    curve <- foldM (device_count dev v) curve tables ;;
    k <- curve_key W fuel (factor p r) curve ;;
    n <- multiplicity p q (rhs_support curve) ;;
    Ok (register s (k, n)).

(** The whole loop, /repo/src/threaded/thread.cc:86-93, see [work_block]. *)
Definition device_block (fuel : nat) (c : config) (dev : device) (b : block) : res store :=
  tbl <- thread_table flint fuel c ;;
  tables <- thread_redtables W S flint fuel c ;;
  vs <- block_positions W fuel b ;;
  foldM (@device_curve fuel c dev tbl tables) [::] vs.
End Device.
