(** Property C36: memory safety of the counts.  Statements use HeapSpec.v, the model functions of FmpzHeap.v and
    Store.v only. *)
Set Warnings "-notation-overridden,-ambiguous-paths".
From mathcomp Require Import all_ssreflect ssralg ssrnum ssrint.
From Verif Require Import Res OMap Store FmpzHeap HeapSpec HeapProofs.

Set Implicit Arguments.
Unset Strict Implicit.
Unset Printing Implicit Defensive.

(** C36, the part that holds: as long as every count stays below the limit at which FLINT uses the heap (2^62), no
    sequence of calls of any number of stores reads or clears a cleared number, and what is printed is what
    the stores of plain numbers of Store.v contain.  Missing are counts from the limit on, for which the
    property is false. *)
Theorem C36_below_partial :
  forall (lim : nat) (ops : seq sop), stays_below lim ([::], [::]) ops ->
    exists s, h_run lim h_start ops = Ok (s, plain_out ([::], [::]) ops).
Proof. by move=> lim ops; exact: (@run_below lim ops ([::], [::])). Qed.
Print Assumptions C36_below_partial.

Definition key_case (a : int) : key := ([:: 2; 1; 1], [:: a; 4%:Z%R]).
Definition ops_case (n : nat) : seq sop :=
  [:: Register 0 (key_case 1) n; Register 2 (key_case (-1)) 7; Register 0 (key_case 0) 3; Insert 0;
      FlushTo 0; FlushTo 2; Extract 0 (key_case 1) 12; Extract 0 (key_case 1) 9; Insert 0; FlushStatic; FlushStatic;
      Destroy 0].

Example C36_below_case :
  [/\ stays_below 100 ([::], [::]) (ops_case 40), ~~ stays_below 40 ([::], [::]) (ops_case 40),
      if h_run 100 h_start (ops_case 40) is Ok (s, out) then
        nth [::] out 9 = [:: (key_case (-1), 47); (key_case 0, 6); (key_case 1, 47)] else False &
      h_run 40 h_start (ops_case 40) = Undef].
Proof. by split; vm_compute. Qed.

(** C36 is false: whatever happened before, registering a curve whose multiplicity reaches the limit under a new
    key is undefined. *)
Theorem C36_register_refuted :
  forall (lim : nat) (ops : seq sop) (s : hstate) (outs : seq (seq (key * nat))),
    h_run lim h_start ops = Ok (s, outs) ->
  forall (t : nat) (k : key) (n : nat), ft_find (nth [::] (h_stores s) t) k = None -> lim <= n ->
    h_run lim h_start (ops ++ [:: Register t k n]) = Undef.
Proof. by move=> lim ops s outs Hrun t k n Hk Hn; exact: (register_undef Hrun Hk Hn). Qed.
Print Assumptions C36_register_refuted.

(** ... and so is printing a store after reading a count that reaches the limit under a new key. *)
Theorem C36_extract_refuted :
  forall (lim : nat) (ops : seq sop) (s : hstate) (outs : seq (seq (key * nat))),
    h_run lim h_start ops = Ok (s, outs) ->
  forall (t : nat) (k : key) (n : nat), ft_find (nth [::] (h_stores s) t) k = None -> lim <= n ->
    h_run lim h_start (ops ++ [:: Extract t k n; Insert t]) = Undef.
Proof. by move=> lim ops s outs Hrun t k n Hk Hn; exact: (extract_undef Hrun Hk Hn). Qed.
Print Assumptions C36_extract_refuted.

(** ... and so is saving after two curves with multiplicities below the limit whose sum is not. *)
Theorem C36_sum_refuted :
  forall (lim t : nat) (k : key) (n : nat), n < lim -> lim <= n + n -> twist k != k ->
    h_run lim h_start [:: Register t k n; Register t k n; FlushTo t; FlushStatic] = Undef.
Proof. exact: sum_big. Qed.
Print Assumptions C36_sum_refuted.

Example C36_refuted_case :
  (exists s, h_run 100 h_start (ops_case 40) = Ok (s, plain_out ([::], [::]) (ops_case 40)) /\
             ft_find (nth [::] (h_stores s) 0) (key_case 2) = None) /\
  h_run 100 h_start (ops_case 40 ++ [:: Register 0 (key_case 2) 100]) = Undef /\
  h_run 100 h_start (ops_case 40 ++ [:: Extract 0 (key_case 2) 100; Insert 0]) = Undef /\
  twist (key_case 2) != key_case 2 /\
  h_run 100 h_start [:: Register 0 (key_case 2) 60; Register 0 (key_case 2) 60; FlushTo 0; FlushStatic] = Undef.
Proof. by split; [eexists; split; vm_compute; reflexivity | do !split; vm_compute]. Qed.
