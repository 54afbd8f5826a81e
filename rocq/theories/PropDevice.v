(** Property C64: threads with an OpenCL device.  Statements use the model functions of Worker.v and Device.v and the
    vocabulary of WorkerSpec.v and DeviceSpec.v only.  [M], [W] and [S] stand for 2^31, 2^32 and 2^64. *)
Set Warnings "-notation-overridden,-ambiguous-paths".
From Coq Require Import String.
From mathcomp Require Import all_ssreflect ssralg ssrnum ssrint poly finalg zmodp.
From Verif Require Import Res FinField TablesSpec CurveSpec OMap Store Text Curve Config Worker WorkerSpec FlintExists OpenCL
  Device DeviceSpec DeviceProofs.

Set Implicit Arguments.
Unset Strict Implicit.
Unset Printing Implicit Defensive.

(** C64: for every block of a configuration with q^n at most 2^30, whatever the order in which the device runs the
    work items and whatever its buffers contain, a thread with a device that copies the coefficients in time (see
    C61) gets the same store as a thread without a device. *)
Theorem C64_same_contribution :
  forall (W S M : nat) (flint : nat -> nat -> flint_field)
    (is_squarefree : forall p r, seq (ff_field (flint p r)) -> bool)
    (factor : nat -> nat -> seq nat -> seq (nat * nat)),
    2 * M <= W -> W <= S ->
  forall c : config, admissible M c -> flint_fields flint c -> flint_polys is_squarefree factor c ->
    2 * (g_prime c ^ g_exponent c) ^ g_count c <= M ->
  exists N bs, forall fuel, N <= fuel -> config_blocks W fuel c = Ok bs /\
    forall dev b, good_device c dev -> b \in bs ->
    exists s, device_block W S M is_squarefree factor fuel c dev b = Ok s /\
              work_block W S is_squarefree factor fuel c b = Ok s.
Proof. exact: device_same. Qed.
Print Assumptions C64_same_contribution.

(** There are devices, for example one that runs the items backwards and finds rubbish in its buffers, and fields for
    every configuration. *)
Definition backwards (p : nat) : device :=
  fun v e => DeviceCall (rev (iota 0 (p ^ e).-1)) (nseq (p ^ e).-1 (size v)) (nseq (p ^ e).-1 7) true.
Definition config_25 : config := Config 5 1 1 true 2 (text "q5g1") 100.

Example C64_case :
  [/\ admissible 100 config_25, 2 * (5 ^ 1) ^ 2 <= 100, forall c, good_device c (backwards (g_prime c)) &
  forall c, prime (g_prime c) -> 0 < g_exponent c ->
    exists flint (is_squarefree : forall p r, seq (ff_field (flint p r)) -> bool) factor,
      flint_fields flint c /\ flint_polys is_squarefree factor c].
Proof.
split=> [||c v j _|c Hp Hr]; [by vm_compute|by []| |].
  by split=> //=; rewrite ?size_nseq // perm_rev.
have [flint H] := flint_exists Hp Hr.
exists flint, (@squarefree_of flint), (factor_in flint); split=> //; exact: flint_polys_ok.
Qed.
