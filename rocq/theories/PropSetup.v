(** The OpenCL objects a thread sets up.  The statements use the model of Setup.v only. *)
Set Warnings "-notation-overridden,-ambiguous-paths".
From Coq Require Import String.
From mathcomp Require Import all_ssreflect.
From Verif Require Import Res OMap Text Setup SetupProofs.

Set Implicit Arguments.
Unset Strict Implicit.
Unset Printing Implicit Defensive.

(** C76: whatever curves a thread counts with the tables it builds, in any order, every curve is counted on the device by a kernel
    for its number of coefficients, and every program is built once, however many tables need it. *)
Theorem C76_kernels :
  forall (builds : nat -> bool) (device m : nat) (work : seq (nat * nat)),
    (forall w, w \in work -> [/\ w.1 < m, 0 < w.2 & builds w.2.-1]) ->
    exists itf ts,
      [/\ counts_on builds (mk_interface device) (nseq m (table_by_reference true)) work
            = Ok (itf, ts, [seq Some w.2 | w <- work]),
          i_device itf = device, uniq (i_built itf) & i_built itf =i [seq w.2.-1 | w <- work]].
Proof. exact: counts_spec. Qed.
Print Assumptions C76_kernels.

(** Two tables and curves of degrees 5 and 6. *)
Example C76_kernels_case :
  exists itf ts,
    counts_on (fun _ => true) (mk_interface 3) (nseq 2 (table_by_reference true)) [:: (0, 6); (1, 6); (0, 7); (1, 6); (1, 7)]
      = Ok (itf, ts, [:: Some 6; Some 6; Some 7; Some 6; Some 7]) /\ i_built itf = [:: 5; 6].
Proof. by do 2 eexists; split; vm_compute. Qed.

(** C76 is false of a table that is given the interface as a temporary or with [move]: it claims to use OpenCL, but has neither
    buffers nor kernels, and the first count dereferences a null pointer. *)
Theorem C76_moved_refuted :
  forall (builds : nat -> bool) (device n : nat), builds n.-1 ->
    is_opencl_enabled (table_by_move true) /\
    count_on builds (mk_interface device) (table_by_move true) n = Undef.
Proof. exact: moved_undef. Qed.
Print Assumptions C76_moved_refuted.

(** The same count with the other constructor; a null pointer may be moved, as hycu-single does. *)
Example C76_moved_case :
  (exists itf t, count_on (fun _ => true) (mk_interface 3) (table_by_reference true) 6 = Ok (itf, t, Some 6)) /\
  count_on (fun _ => true) (mk_interface 3) (table_by_move false) 6 = Ok (mk_interface 3, table_by_move false, None).
Proof. by split; [do 2 eexists; vm_compute|]. Qed.

(** C76: the devices in use are the GPUs and accelerators of every platform that is the first of its vendor. *)
Theorem C76_devices :
  forall (pfs : seq platform) (d : nat),
    d \in devices pfs <->
    exists pre pf post, [/\ pfs = pre ++ pf :: post, pf_vendor pf \notin [seq pf_vendor x | x <- pre] &
                            d \in pf_gpus pf ++ pf_accelerators pf].
Proof. exact: devices_mem. Qed.
Print Assumptions C76_devices.

(** C76 for platforms of different vendors: every device is used, in the order of the platforms. *)
Theorem C76_devices_partial :
  forall pfs : seq platform, uniq [seq pf_vendor pf | pf <- pfs] ->
    devices pfs = flatten [seq pf_gpus pf ++ pf_accelerators pf | pf <- pfs].
Proof. exact: devices_all. Qed.
Print Assumptions C76_devices_partial.

(** C76 is false in general: the GPU of a second platform of the same vendor is not used. *)
Theorem C76_devices_refuted :
  exists (pfs : seq platform) (d : nat), (exists pf, List.In pf pfs /\ d \in pf_gpus pf) /\ d \notin devices pfs.
Proof. exact: devices_lost. Qed.
Print Assumptions C76_devices_refuted.

Example C76_devices_case :
  let pfs := [:: Platform (text "A") [:: 0; 1] [:: 2]; Platform (text "B") [::] [:: 3]; Platform (text "C") [:: 4] [::]] in
  uniq [seq pf_vendor pf | pf <- pfs] /\ devices pfs = [:: 0; 1; 2; 3; 4].
Proof. by vm_compute. Qed.
