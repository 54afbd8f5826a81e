(** A block that is lost because the record of another one was cut. *)
Set Warnings "-notation-overridden,-ambiguous-paths".
From mathcomp Require Import all_ssreflect ssralg ssrnum ssrint zify.
From Verif Require Import Res ResFacts OMap OMapFacts OMapPerm Store StoreSpec StoreProofs
  Text TextSpec TextProofs FilesProofs Pool PoolProofs Standalone StandaloneSpec Account StandaloneProofs
  StandaloneTheorems TornSpec TornProofs.

Set Implicit Arguments.
Unset Strict Implicit.
Unset Printing Implicit Defensive.

(** ** A block that is lost *)
(** The blocks of genus 2 over the field with three elements, in packages of 27. *)
Definition blocks_3_2 : seq block :=
  let free := nseq 3 (0, 3) in
  [seq free ++ [:: (i, i.+1); (2, 3); (0, 1)] | i <- iota 0 3] ++
  [seq free ++ [:: (ij.2, ij.2.+1); (2, 3); (ij.1, ij.1.+1); (0, 1)] | ij <- [:: (0, 0); (0, 2); (1, 0); (1, 2)]] ++
  [seq (ij.1, ij.1.+1) :: free ++ [:: (ij.2, ij.2.+1); (2, 3); (0, 1)]
    | ij <- [:: (0, 0); (0, 1); (0, 2); (1, 0); (1, 1); (1, 2); (2, 0); (2, 1); (2, 2)]].

(** The second thread does not get on with the first block while the first thread does four others; then the
    program starts to save. *)
Definition slow_schedule : seq action :=
  flatten (nseq 40 [:: Main false; Step 0; Step 0]) ++ [:: Main true; Main false; Main false].

Section Lost.
Variable contrib : nat -> block -> store.
Hypothesis Hmap : forall c b, is_map (contrib c b).
Variables M W : nat.
Hypothesis HM : 3 < M.
Hypothesis HMW : M <= W.

Let jobs : seq job := [:: (1, 0, blocks_3_2)].
Let b1 : block := head [::] blocks_3_2.
Let r : seq block := [:: nth [::] blocks_3_2 3; nth [::] blocks_3_2 1; nth [::] blocks_3_2 2; nth [::] blocks_3_2 4].

Lemma slow_run : exists2 s, run contrib (start [:: false; false] [::] (main_program jobs)) slow_schedule = Ok s &
  s_pc s = PWriteRecord (AfterDelay (nth [::] blocks_3_2 5)) r.
Proof.
have Hwf : jobs_wf jobs by vm_compute.
have [s [Hrun _ _]] := threads_ok Hmap [::] Hwf [:: false; false] slow_schedule.
have : (if run contrib (start [:: false; false] [::] (main_program jobs)) slow_schedule is Ok s then s_pc s else PDone) =
    PWriteRecord (AfterDelay (nth [::] blocks_3_2 5)) r by vm_compute.
by move: Hrun; case: (run _ _ _) => // s' [->] Hpc; exists s.
Qed.

Lemma slow_torn : torn_read M W r [:: b1].
Proof.
exists (size (print_block b1)), 2.
have -> : take (size (print_block b1)) (print_record r) = print_block b1 by vm_compute.
have -> : extract_record M W 2 (open_text (print_block b1)) [::] =
    (stb <- extract_block M W (open_text (print_block b1)) ;; extract_blocks M W 1 stb.1 (os_insert block_lt [::] stb.2)).
  by [].
rewrite /extract_block getline_last ?block_neq // -[print_block b1]cat0s extract_boundsE //.
have H i : i <= 3 -> i < M by move=> Hi; exact: leq_ltn_trans Hi HM.
by rewrite [b1]/= /= !H.
Qed.

Lemma block_lost : exists fs, torn_history contrib M W jobs 1 fs /\
  forall kinds acts s, run contrib (start kinds fs (main_program jobs)) acts = Ok s -> s_pc s = PDone ->
    exists L, [/\ add_up contrib (files s) 1 0 L, b1 \notin L & {subset L <= blocks_3_2}].
Proof.
have Hwf : jobs_wf jobs by vm_compute.
have [s Hrun Hpc] := slow_run.
have [N [past [d [c [P [rest [fut I]]]]]]] := reached Hmap Hwf Hrun.
have := i_flight I; rewrite /flight Hpc => -[N' [st [EN _ Hst]]].
have HN : [seq f_dir f | f <- files s] = [:: 1].
  have : (if run contrib (start [:: false; false] [::] (main_program jobs)) slow_schedule is Ok s
          then [seq f_dir f | f <- files s] else [::]) = [:: 1] by vm_compute.
  by move: Hrun; case: (run _ _ _) => // s' [->].
have EF : files s = [:: File 1 st None].
  move: (i_files I) HN; rewrite EN; clear => ->; rewrite /= map_rcons.
  by case: N' => [|f [|f' N']] //= [->].
have Ec : c = 0.
  case: (i_link I) => [L1 L2 L3 L4 L5 L6 L7 L8 L9 L10|L1 L2 L3]; first by rewrite EN in L7; case: (N') L7.
  move: L1; rewrite /jobs; case: past {I} => [[_ -> _]|j [|]] //.
subst c.
pose fs := [:: File 1 st (Some [:: b1])]; exists fs; split.
  have -> : fs = complete_last (files s) [:: b1] by rewrite EF.
  exact: (TornKill (TornStart _ _ _ _) Hrun Hpc slow_torn).
move=> kinds acts s' Hrun' Hpc'.
have [H1 _ H3 H4] := left_files Hmap Hwf Hrun' (erefl : jobs = [::] ++ head (0, 0, [::]) jobs :: [::]) (or_introl Hpc').
exists (r ++ remaining fs (1, 0, blocks_3_2)); split.
- rewrite H1; apply: add_up_cat; last exact: H4.
  move=> k; rewrite -(proj2 Hst k) /tables /=; clear; by case: (st_find st k).
- by vm_compute.
- clear => b; rewrite mem_cat mem_filter => /orP[|/andP[_ Hb]]; last exact: Hb.
  by apply: (allP (_ : all (mem blocks_3_2) r)); vm_compute.
Qed.
End Lost.
