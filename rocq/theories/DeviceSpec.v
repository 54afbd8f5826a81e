(** Specification vocabulary for threads with an OpenCL device. *)
Set Warnings "-notation-overridden,-ambiguous-paths".
From mathcomp Require Import all_ssreflect.
From Verif Require Import Config Device.

Set Implicit Arguments.
Unset Strict Implicit.
Unset Printing Implicit Defensive.

(** A device that works as OpenCL specifies and copies in time: every item runs once, in any order, and the buffers have as many
    entries as there are items, whatever they contain. *)
Definition good_call (Q : nat) (d : device_call) : Prop :=
  [/\ dc_copied d, perm_eq (dc_order d) (iota 0 Q.-1), size (dc_unramified d) = Q.-1 & size (dc_ramified d) = Q.-1].
Definition good_device (c : config) (dev : device) : Prop :=
  forall v j, 0 < j <= g_count c -> good_call (g_prime c ^ (j * g_exponent c)) (dev v (j * g_exponent c)).
