(** Model of the work of one thread, /repo/src/threaded/thread.cc, and of the jobs of the main
    program, /repo/src/executables/threaded.cc:131-150, in terms of the functions of Tables.v,
    CurveIter.v, Curve.v and Store.v.

    [W] is the number of values of [unsigned int] and [S] that of [size_t].  FLINT provides, for every
    prime [p] and exponent [k], a field with coordinates and a stream of candidates for a generator
    (/repo/src/fq_element_table.cc:45-72, /repo/src/reduction_table.cc:120-142), a test whether a polynomial is squarefree and
    a factorisation; all of these are arguments.  OpenCL is not modelled here. *)
Set Warnings "-notation-overridden,-ambiguous-paths".
From mathcomp Require Import all_ssreflect ssralg ssrint poly finalg.
From Verif Require Import Res OMap Tables BlockIter CurveIter Curve Store Text Config.

Set Implicit Arguments.
Unset Strict Implicit.
Unset Printing Implicit Defensive.

(** FLINT's context for a finite field, /repo/src/fq_element_table.cc:45 and /repo/src/reduction_table.cc:120: the
    field, the coordinates of its elements, and [fq_nmod_gen] followed by random elements. *)
Record flint_field := FlintField
  { ff_field : finFieldType; ff_coeff : ff_field -> nat -> nat; ff_cand : nat -> ff_field }.

(** The loop of Thread::update_config, /repo/src/threaded/thread.cc:113-117: the prime exponents of the tables. *)
Fixpoint table_exponents (S fuel fx r : nat) : res (seq nat) :=
  if fx == 0 then Ok [::]
  else if fuel is n.+1 then
    fxs <- table_exponents S n (usub S fx r) r ;; Ok (fx :: fxs)
  else OutOfFuel.
(** The initial value is a product of two values of type [unsigned int], /repo/src/threaded/thread.cc:114. *)
Definition config_exponents (W S fuel : nat) (c : config) : res (seq nat) :=
  table_exponents S fuel (umul W (g_count c) (g_exponent c)) (g_exponent c).

Section Worker.
Variables (W S : nat).
Variable flint : nat -> nat -> flint_field.
Variable is_squarefree : forall p r, seq (ff_field (flint p r)) -> bool.
Variable factor : nat -> nat -> seq nat -> seq (nat * nat).

(** ReductionTable::ReductionTable, /repo/src/reduction_table.cc:41-90. *)
Definition mk_redtable (fuel p k : nat) : res redtable :=
  inc <- incrementation_table (@ff_coeff (flint p k)) fuel p k (p ^ k) (@ff_cand (flint p k)) ;;
  Ok (RedTable p k (p ^ k) (exponent_reduction_table (p ^ k)) inc).

(** Thread::update_config, /repo/src/threaded/thread.cc:108-119: the element table and the reduction tables. *)
Definition thread_table (fuel : nat) (c : config) :=
  fq_elements fuel (g_prime c ^ g_exponent c) (@ff_cand (flint (g_prime c) (g_exponent c))).
Definition thread_redtables (fuel : nat) (c : config) : res (seq redtable) :=
  fxs <- config_exponents W S fuel c ;; mapM (mk_redtable fuel (g_prime c)) fxs.

(** The body of the loop of Thread::main_thread, /repo/src/threaded/thread.cc:86-93.  The key and the multiplicity
    are computed by Store::register_curve, /repo/src/store/store.cc:39-67. *)
Definition work_curve (fuel : nat) (c : config) (tbl : seq (ff_field (flint (g_prime c) (g_exponent c))))
    (tables : seq redtable) (s : store) (v : seq nat) : res store :=
  let p := g_prime c in let r := g_exponent c in let q := p ^ r in
  curve <- mk_curve p r q v ;;
  sqf <- has_squarefree_rhs tbl (@is_squarefree p r) curve ;;
  if ~~ sqf then Ok s
  else
    curve <- foldM (count W) curve tables ;;
    k <- curve_key W fuel (factor p r) curve ;;
    n <- multiplicity p q (rhs_support curve) ;;
    Ok (register s (k, n)).

(** The whole loop, /repo/src/threaded/thread.cc:86-93, starting with an empty store: the previous one was handed in by
    flush_to_static_store, which clears it. *)
Definition work_block (fuel : nat) (c : config) (b : block) : res store :=
  tbl <- thread_table fuel c ;;
  tables <- thread_redtables fuel c ;;
  vs <- block_positions W fuel b ;;
  foldM (@work_curve fuel c tbl tables) [::] vs.

(** The blocks of a configuration, /repo/src/executables/threaded.cc:143-147. *)
Definition config_blocks (fuel : nat) (c : config) : res (seq block) :=
  it <- mk_citer (g_prime c) (g_prime c ^ g_exponent c) (g_genus c) (g_marked c) (g_package c) ;;
  ci_iterate W (ci_as_block W) fuel it.

(** The calls of the main program, /repo/src/executables/threaded.cc:136-148, for configurations that pass verify: the
    [i]-th configuration is a job with the parameters number [i]; [dir] gives the directory a path stands
    for. *)
Definition program_jobs (fuel : nat) (dir : seq char -> nat) (cs : seq config)
    : res (seq (nat * nat * seq block)) :=
  mapM (fun ic : nat * config =>
          bs <- config_blocks fuel ic.2 ;; Ok (dir (g_path ic.2), ic.1, bs))
       (zip (iota 0 (size cs)) cs).

(** What a thread adds to the shared store for a block, given the number of the parameters,
    /repo/src/threaded/thread.cc:86-95; a run of the thread that fails is excluded in the theorems. *)
Definition contribution (fuel : nat) (cs : seq config) (i : nat) (b : block) : store :=
  if work_block fuel (nth (Config 0 0 0 false 0 [::] 0) cs i) b is Ok s then s else [::].
End Worker.
