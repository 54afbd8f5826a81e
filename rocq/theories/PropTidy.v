(** Property C74: merging between runs.  Statements use the model functions of Main.v, Standalone.v, Mpi.v, Worker.v and Files.v and
    the vocabulary of TidySpec.v, TableSpec.v, DiskSpec.v, MainSpec.v, WorkerSpec.v and StandaloneSpec.v only.  [M], [W] and [S] stand for 2^31, 2^32 and
    2^64. *)
Set Warnings "-notation-overridden,-ambiguous-paths".
From Coq Require Import String.
From mathcomp Require Import all_ssreflect ssralg ssrnum ssrint poly finalg.
From Verif Require Import Res FinField OMap Store StoreSpec Text Files FilesSpec Pool Standalone StandaloneSpec Mpi Config Worker
  WorkerSpec FlintExists Main MainSpec PropMain TableSpec DiskSpec TidySpec TidyProofs TidyChecks.

Set Implicit Arguments.
Unset Strict Implicit.
Unset Printing Implicit Defensive.

(** C74, under the hypotheses of [C68_results_partial], which the name refers to: the results are right as well if between the
    earlier runs result directories were merged and replaced by the output of the merger, any number of times, and if files
    without a record were deleted. *)
Theorem C74_results_partial :
  forall (W S M : nat) (flint : nat -> nat -> flint_field)
    (is_squarefree : forall p r, seq (ff_field (flint p r)) -> bool)
    (factor : nat -> nat -> seq nat -> seq (nat * nat)),
    2 * M <= W -> W <= S ->
  forall (dir : seq char -> nat) (w : world) (fuel : nat) (o : options) (cs : seq config) (calls : seq cmd) (e : ending),
    main M W dir w fuel o = Ok (Ran cs calls e) -> proper W S M is_squarefree factor dir fuel cs ->
  forall (fs : seq file), tidied W S M is_squarefree factor dir cs fs ->
  let contrib := contribution W S is_squarefree factor fuel cs in
  (forall kinds acts s, run contrib (start kinds fs calls) acts = Ok s -> through e s ->
    forall i, promised e cs i -> sound M is_squarefree factor (nth c0 cs i) ->
      counted W M flint dir (nth c0 cs i) (files s)) /\
  (forall kinds acts s, 0 < size kinds -> mrun contrib (mstart kinds fs calls) acts = Ok s -> mthrough e s ->
    forall i, promised e cs i -> sound M is_squarefree factor (nth c0 cs i) ->
      counted W M flint dir (nth c0 cs i) (m_files s)).
Proof. move=> W S M flint is_squarefree factor HMW HWS; exact: tidy_results. Qed.
Print Assumptions C74_results_partial.

(** C74, C70 and C71 together: after such a history, the merged table of a run that is through still passes the checks of
    [C70_checks_partial], and if store files get shorter after that, counts can only get smaller, and the total tells whether one
    did. *)
Theorem C74_checks_partial :
  forall (W S M : nat) (flint : nat -> nat -> flint_field)
    (is_squarefree : forall p r, seq (ff_field (flint p r)) -> bool)
    (factor : nat -> nat -> seq nat -> seq (nat * nat)),
    2 * M <= W -> W <= S ->
  forall (dir : seq char -> nat) (w : world) (fuel : nat) (o : options) (cs : seq config) (calls : seq cmd) (e : ending),
    main M W dir w fuel o = Ok (Ran cs calls e) -> proper W S M is_squarefree factor dir fuel cs ->
  forall (fs : seq file), tidied W S M is_squarefree factor dir cs fs ->
  let contrib := contribution W S is_squarefree factor fuel cs in
  (forall kinds acts s, run contrib (start kinds fs calls) acts = Ok s -> through e s ->
    forall i, promised e cs i -> sound M is_squarefree factor (nth c0 cs i) ->
      checked M W dir (nth c0 cs i) (files s) /\ certified M W flint dir (nth c0 cs i) (files s)) /\
  (forall kinds acts s, 0 < size kinds -> mrun contrib (mstart kinds fs calls) acts = Ok s -> mthrough e s ->
    forall i, promised e cs i -> sound M is_squarefree factor (nth c0 cs i) ->
      checked M W dir (nth c0 cs i) (m_files s) /\ certified M W flint dir (nth c0 cs i) (m_files s)).
Proof. move=> W S M flint is_squarefree factor HMW HWS; exact: tidy_checks. Qed.
Print Assumptions C74_checks_partial.

(** C74: at any such point the directory of a configuration can be merged, whatever the names of its files and their order, and
    replaced.  The record has the same blocks, the table is the sum of the tables. *)
Theorem C74_any_time_partial :
  forall (W S M : nat) (flint : nat -> nat -> flint_field)
    (is_squarefree : forall p r, seq (ff_field (flint p r)) -> bool)
    (factor : nat -> nat -> seq nat -> seq (nat * nat)),
    2 * M <= W -> W <= S ->
  forall (dir : seq char -> nat) (w : world) (fuel : nat) (o : options) (cs : seq config) (calls : seq cmd) (e : ending),
    main M W dir w fuel o = Ok (Ran cs calls e) -> proper W S M is_squarefree factor dir fuel cs ->
  forall fs i d0 ids cuts d listing, tidied W S M is_squarefree factor dir cs fs -> i < size cs ->
  sound M is_squarefree factor (nth c0 cs i) ->
  let n := dir (g_path (nth c0 cs i)) in
  fresh d0 -> replay n fs ids cuts d0 = Ok d -> perm_eq listing (names d) ->
  exists N R T, [/\ forall fuel, N <= fuel -> merge_loop M W fuel d listing [::] [::] = Ok (Some (R, T)),
    forall b, b != [::] -> (b \in R) = (b \in recorded fs n),
    forall k, st_find T k = sum_opt [seq st_find st k | st <- tables fs n] &
    tidied W S M is_squarefree factor dir cs (rcons [seq f <- fs | f_dir f != n] (File n T (Some R)))].
Proof. move=> W S M flint is_squarefree factor HMW HWS; exact: tidy_any_time. Qed.
Print Assumptions C74_any_time_partial.

(** The hypotheses can be met: in the situation of [C68_case], a run of the MPI program is killed after any actions, the directory
    is merged and replaced, a run with two threads follows and ends. *)
Example C74_case :
  let ns := [:: node_case "3" "1" "a" "9"; node_case "3" "1" "b" "0"]%string in
  let c := Config 3 1 1 true 1 (text "/out/a") 9 in
  let n := dir_case (text "/out/a") in
  exists flint (is_squarefree : forall p r, seq (ff_field (flint p r)) -> bool) factor fuel calls,
    [/\ main 100 200 dir_case (world_case ns) fuel options_case = Ok (Ran [:: c] calls (Return 1)),
        proper 200 200 100 is_squarefree factor dir_case fuel [:: c], sound 100 is_squarefree factor c &
        forall macts ms, mrun (contribution 200 200 is_squarefree factor fuel [:: c])
            (mstart [:: [:: false]; [::]; [:: true]] [:: File 0 [::] None] calls) macts = Ok ms ->
          exists ids d N R T, let fs := rcons [seq f <- m_files ms | f_dir f != n] (File n T (Some R)) in
          [/\ replay n (m_files ms) ids id [::] = Ok d,
              forall fuel', N <= fuel' -> merge 100 200 fuel' d (names d) = Ok (Some (print_store T, print_record R)),
              tidied 200 200 100 is_squarefree factor dir_case [:: c] fs &
              exists acts s, run (contribution 200 200 is_squarefree factor fuel [:: c])
                (start [:: false; true] fs calls) acts = Ok s /\ through (Return 1) s]].
Proof.
move=> ns c n; have [flint [is_squarefree [factor [fuel [calls [Hm Hpr Hso Hrun]]]]]] := C68_case.
exists flint, is_squarefree, factor, fuel, calls; split=> // macts ms Hr.
have H1 : 2 * 100 <= 200 by []. have H2 : 200 <= 200 by [].
have Ht : tidied 200 200 100 is_squarefree factor dir_case [:: c] (m_files ms).
  apply: (TidiedMpi (w := world_case ns) (o := options_case) _ Hm Hpr _ _ Hr) => //.
    by apply: TidiedOther => f [|i] //= [<-|].
  by move=> [|i] [|i'].
have [ids [d Hd]] := replay_exists n (m_files ms) id.
have Hfr : fresh [::] by [].
have [N [R [T [E _ _ Ht']]]] := C74_any_time_partial H1 H2 Hm Hpr Ht (isT : 0 < size [:: c]) Hso Hfr Hd (perm_refl (names d)).
exists ids, d, N, R, T; split=> //; first by move=> fuel' Hf; rewrite /merge E.
set fs := rcons _ _; have [E' _] := C68_ends_partial H1 H2 Hm Hpr fs.
have [k Hk] := E' [:: false; true] [::] (start [:: false; true] fs calls) isT (erefl _).
have [||s Hs Hth] := Hk (nseq k [:: Main true; Step 0; Step 1; Wake 0; Wake 1]).
- by rewrite size_nseq.
- by elim: (k).
by exists (flatten (nseq k [:: Main true; Step 0; Step 1; Wake 0; Wake 1])), s.
Qed.
