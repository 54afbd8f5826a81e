(** Property C68: the program as a whole, from the command line and the configuration file to the exit code and the merged
    tables.  Statements use the model functions of Main.v, Standalone.v, Mpi.v, Worker.v and Files.v and the vocabulary of
    MainSpec.v, WorkerSpec.v, StandaloneSpec.v and CurveSpec.v only.  [M], [W] and [S] stand for 2^31, 2^32 and 2^64. *)
Set Warnings "-notation-overridden,-ambiguous-paths".
From Coq Require Import String.
From mathcomp Require Import all_ssreflect ssralg ssrnum ssrint poly finalg.
From Verif Require Import Res FinField CurveSpec OMap Store StoreSpec Text Files FilesSpec Pool Standalone
  StandaloneSpec Mpi MpiSpec Config Worker WorkerSpec FlintExists Main MainSpec MainProofs.

Set Implicit Arguments.
Unset Strict Implicit.
Unset Printing Implicit Defensive.

(** C68: what the exit code means.  A run that gets to a worker pool was given the paths of a file and of a directory; every
    item of the file is a configuration; it works on the configurations in their order, with the output path in front
    of their paths, all of which are correct; the code 0 means that these are all, the code 1 that the next one is
    incorrect; if it is terminated, then because a directory cannot be accessed or curves over the field are not
    implemented. *)
Theorem C68_exit_code :
  forall (M W : nat) (dir : seq char -> nat) (w : world) (fuel : nat) (o : options) (cs : seq config)
    (calls : seq cmd) (e : ending),
    main M W dir w fuel o = Ok (Ran cs calls e) ->
  exists config_file output_path doc (all : seq config), [/\ o_help o = false,
    o_config o = Some config_file /\ o_output o = Some output_path,
    [/\ w_mkdir w output_path = Ok true, w_regular w config_file & w_load w config_file = Ok doc],
    size all = size (items doc) /\
    (forall i, i < size all ->
      exists2 n, nth None (items doc) i = Some n & decode M W n = Ok (Some (nth c0 all i))) &
    (forall root, w_canonical w output_path = Ok root ->
      let placed := [seq prepend_output_path root c | c <- all] in
      [/\ cs = take (size cs) placed, forall i, i < size cs -> accepts w (nth c0 placed i) &
        match e with
        | Return 0 => size cs = size all
        | Return 1 => size cs < size all /\ rejects w (nth c0 placed (size cs))
        | Return _ => False
        | Killed => size cs < size all /\ w_mkdir w (g_path (nth c0 placed (size cs))) = Term \/
                    0 < size cs /\ config_blocks W fuel (last c0 cs) = Term
        end]) /\
    (w_canonical w output_path = Term -> cs = [::] /\ e = (if all is [::] then Return 0 else Killed))].
Proof. exact: main_result. Qed.
Print Assumptions C68_exit_code.

(** C68: a run that is refused has no worker pool; the exit code is 0 for the help and 1 otherwise. *)
Theorem C68_refused :
  forall (M W : nat) (dir : seq char -> nat) (w : world) (fuel : nat) (o : options) (n : nat),
    main M W dir w fuel o = Ok (Refused n) ->
  if o_help o then n = 0 else n = 1 /\
  (o_config o = None \/ o_output o = None \/ exists config_file output_path,
    o_config o = Some config_file /\ o_output o = Some output_path /\
    (w_mkdir w output_path = Ok false \/ w_regular w config_file = false \/
     exists doc v, [/\ w_load w config_file = Ok doc, yfind (y_top doc) k_store = Some v & v <> Scalar (text "EC")])).
Proof. move=> M W dir w fuel o n; exact: main_refused. Qed.
Print Assumptions C68_refused.

(** A file with three configurations, the second of which has a package size of zero, and one with the prime 2. *)
Definition node_case (p q r package : string) : option ynode :=
  Some [:: (k_prime, Scalar (text p)); (k_exponent, Scalar (text "1")); (k_genus, Scalar (text "1"));
           (k_marked, Scalar (text "true")); (k_path, Scalar (text r)); (k_package, Scalar (text package));
           (k_count, Scalar (text q))].
Definition doc_case (ns : seq (option ynode)) : document := Document [:: (k_store, Scalar (text "EC"))] (Some ns).
Definition world_case (ns : seq (option ynode)) : world :=
  World (fun _ => Ok true) (fun _ => true) (fun _ => Ok (doc_case ns)) (fun _ => Ok (text "/out")).
Definition options_case : options := Options false (Some (text "config.yaml")) (Some (text "out")).
Definition dir_case (p : seq char) : nat := last 0 p.

Example C68_exit_code_case :
  let run ns := main 100 200 dir_case (world_case ns) 100 options_case in
  let c r := Config 3 1 1 true 1 (text "/out/" ++ text r) 9 in
  let n r := node_case "3" "1" r "9" in
  match run [:: n "a"; node_case "3" "1" "b" "0"; n "c"]%string, run [:: n "a"; n "b"]%string,
        run [:: n "a"; node_case "2" "1" "b" "9"; n "c"]%string with
  | Ok (Ran cs _ e), Ok (Ran cs' calls' e'), Ok (Ran cs'' _ e'') =>
      [/\ cs = [:: c "a"]%string /\ e = Return 1, cs' = [:: c "a"; c "b"]%string /\ e' = Return 0, 4 < size calls' &
          cs'' = [:: c "a"; Config 2 1 1 true 1 (text "/out/b") 9]%string /\ e'' = Killed]
  | _, _, _ => False
  end.
Proof. by vm_compute. Qed.

Example C68_refused_case :
  let w ns s := World (fun _ => Ok true) (fun _ => true)
    (fun _ => Ok (Document [:: (k_store, Scalar (text s))] (Some ns))) (fun _ => Ok (text "/out")) in
  main 100 200 dir_case (w [::] "XY"%string) 100 options_case = Ok (Refused 1) /\
  main 100 200 dir_case (w [::] "EC"%string) 100 options_case = Ok (Ran [::] [:: CDestroy] (Return 0)) /\
  main 100 200 dir_case (w [:: None] "EC"%string) 100 options_case = Term.
Proof. by vm_compute. Qed.

(** C68: results.  The files [fs] on disk may have been left by any number of runs of either program that ended or were
    killed, each with its own configuration file, as long as a directory was always used for the same
    configuration.  Then after a run of either program that ends, with the code 0 or 1, merging the result directory
    of each configuration it worked on gives the numbers of curves; if the program is terminated when its pool has
    made all calls, this holds for each configuration but the last one.

    Missing from the full statement, as in [C45_end_to_end_partial]: [q^n + 1] and the degrees fit an [int] and FLINT has
    compatible generators ([sound]); no run is killed while it writes a record file; the standard error stream is not
    looked at. *)
Theorem C68_results_partial :
  forall (W S M : nat) (flint : nat -> nat -> flint_field)
    (is_squarefree : forall p r, seq (ff_field (flint p r)) -> bool)
    (factor : nat -> nat -> seq nat -> seq (nat * nat)),
    2 * M <= W -> W <= S ->
  forall (dir : seq char -> nat) (w : world) (fuel : nat) (o : options) (cs : seq config) (calls : seq cmd) (e : ending),
    main M W dir w fuel o = Ok (Ran cs calls e) -> proper W S M is_squarefree factor dir fuel cs ->
  forall (fs : seq file), earlier W S M is_squarefree factor dir cs fs ->
  let contrib := contribution W S is_squarefree factor fuel cs in
  (forall kinds acts s, run contrib (start kinds fs calls) acts = Ok s -> through e s ->
    forall i, promised e cs i -> sound M is_squarefree factor (nth c0 cs i) ->
      counted W M flint dir (nth c0 cs i) (files s)) /\
  (forall kinds acts s, 0 < size kinds -> mrun contrib (mstart kinds fs calls) acts = Ok s -> mthrough e s ->
    forall i, promised e cs i -> sound M is_squarefree factor (nth c0 cs i) ->
      counted W M flint dir (nth c0 cs i) (m_files s)).
Proof. move=> W S M flint is_squarefree factor HMW HWS; exact: results. Qed.
Print Assumptions C68_results_partial.

(** C68: at every point of a run of either program, only files in the result directories of configurations it
    works on have been added, and no file was changed. *)
Theorem C68_untouched :
  forall (W S M : nat) (flint : nat -> nat -> flint_field)
    (is_squarefree : forall p r, seq (ff_field (flint p r)) -> bool)
    (factor : nat -> nat -> seq nat -> seq (nat * nat)),
    2 * M <= W -> W <= S ->
  forall (dir : seq char -> nat) (w : world) (fuel : nat) (o : options) (cs : seq config) (calls : seq cmd) (e : ending),
    main M W dir w fuel o = Ok (Ran cs calls e) -> proper W S M is_squarefree factor dir fuel cs ->
  let contrib := contribution W S is_squarefree factor fuel cs in
  forall (fs : seq file),
  (forall kinds acts s, run contrib (start kinds fs calls) acts = Ok s ->
    exists2 N, files s = fs ++ N & forall f, List.In f N -> f_dir f \in [seq dir (g_path c) | c <- cs]) /\
  (forall kinds acts s, 0 < size kinds -> mrun contrib (mstart kinds fs calls) acts = Ok s ->
    exists2 N, m_files s = fs ++ N & forall f, List.In f N -> f_dir f \in [seq dir (g_path c) | c <- cs]).
Proof. move=> W S M flint is_squarefree factor HMW HWS; exact: untouched. Qed.
Print Assumptions C68_untouched.

(** C68: every command line with a proper file of configurations, the first [k] of which are correct and the next
    of which, if there is one, is not, leads to such a run. *)
Theorem C68_runs :
  forall (W S M : nat) (flint : nat -> nat -> flint_field)
    (is_squarefree : forall p r, seq (ff_field (flint p r)) -> bool)
    (factor : nat -> nat -> seq nat -> seq (nat * nat)),
    2 * M <= W -> W <= S ->
  forall (dir : seq char -> nat) (w : world) (o : options) config_file output_path doc (all : seq config) root (k : nat),
    o_help o = false -> o_config o = Some config_file -> o_output o = Some output_path ->
    w_mkdir w output_path = Ok true -> w_regular w config_file -> w_load w config_file = Ok doc ->
    (yfind (y_top doc) k_store = None \/ yfind (y_top doc) k_store = Some (Scalar (text "EC"))) ->
    size all = size (items doc) ->
    (forall i, i < size all ->
      exists2 n, nth None (items doc) i = Some n & decode M W n = Ok (Some (nth c0 all i))) ->
    w_canonical w output_path = Ok root ->
    let placed := [seq prepend_output_path root c | c <- all] in
    k <= size all ->
    (forall i, i < k -> accepts w (nth c0 placed i) /\ sound M is_squarefree factor (nth c0 placed i)) ->
    (k < size all -> rejects w (nth c0 placed k) /\ exists d, w_mkdir w (g_path (nth c0 placed k)) = Ok d) ->
    uniq [seq dir (g_path c) | c <- take k placed] ->
  exists N, forall fuel, N <= fuel -> proper W S M is_squarefree factor dir fuel (take k placed) /\
    exists calls, main M W dir w fuel o = Ok (Ran (take k placed) calls (Return (k < size all))).
Proof. move=> W S M flint is_squarefree factor HMW HWS; exact: main_runs. Qed.
Print Assumptions C68_runs.

(** C68: and such a run ends, if all threads run again and again and those that wait are woken (see C40 and C67). *)
Theorem C68_ends_partial :
  forall (W S M : nat) (flint : nat -> nat -> flint_field)
    (is_squarefree : forall p r, seq (ff_field (flint p r)) -> bool)
    (factor : nat -> nat -> seq nat -> seq (nat * nat)),
    2 * M <= W -> W <= S ->
  forall (dir : seq char -> nat) (w : world) (fuel : nat) (o : options) (cs : seq config) (calls : seq cmd) (n : nat),
    main M W dir w fuel o = Ok (Ran cs calls (Return n)) -> proper W S M is_squarefree factor dir fuel cs ->
  let contrib := contribution W S is_squarefree factor fuel cs in
  forall (fs : seq file),
  (forall kinds acts s, 0 < size kinds -> run contrib (start kinds fs calls) acts = Ok s ->
    exists k, forall rounds, k <= size rounds -> all (full_round (size kinds)) rounds ->
      exists2 s', run contrib s (flatten rounds) = Ok s' & through (Return n) s') /\
  (forall kinds acts s, 0 < sumn [seq size k | k <- kinds] -> mrun contrib (mstart kinds fs calls) acts = Ok s ->
    exists k, forall rounds, k <= size rounds -> all (mfull_round kinds) rounds ->
      exists2 s', mrun contrib s (flatten rounds) = Ok s' & mended s').
Proof. move=> W S M flint is_squarefree factor HMW HWS; exact: main_ends. Qed.
Print Assumptions C68_ends_partial.

(** The hypotheses of the four theorems can be met at the same time: a file with two configurations, of which
    the second one is incorrect; a run of the MPI program with three processes is killed after any actions, a run with two threads
    follows and ends. *)
Example C68_case :
  let ns := [:: node_case "3" "1" "a" "9"; node_case "3" "1" "b" "0"]%string in
  let c := Config 3 1 1 true 1 (text "/out/a") 9 in
  exists flint (is_squarefree : forall p r, seq (ff_field (flint p r)) -> bool) factor fuel calls,
    [/\ main 100 200 dir_case (world_case ns) fuel options_case = Ok (Ran [:: c] calls (Return 1)),
        proper 200 200 100 is_squarefree factor dir_case fuel [:: c], sound 100 is_squarefree factor c &
        forall macts ms, mrun (contribution 200 200 is_squarefree factor fuel [:: c])
            (mstart [:: [:: false]; [::]; [:: true]] [:: File 0 [::] None] calls) macts = Ok ms ->
          earlier 200 200 100 is_squarefree factor dir_case [:: c] (m_files ms) /\
          exists acts s, run (contribution 200 200 is_squarefree factor fuel [:: c])
            (start [:: false; true] (m_files ms) calls) acts = Ok s /\ through (Return 1) s].
Proof.
move=> ns c; have Hp : prime (g_prime c) by []; have Hr : 0 < g_exponent c by [].
have [flint Hf] := flint_exists Hp Hr; have Hq := flint_polys_ok Hf.
have Hso : sound 100 (@squarefree_of flint) (factor_in flint) c by split.
have H1 : 2 * 100 <= 200 by []. have H2 : 200 <= 200 by [].
pose cs := [:: Config 3 1 1 true 1 (text "a") 9; Config 3 1 1 true 1 (text "b") 0].
have HR := @C68_runs 200 200 100 flint (@squarefree_of flint) (factor_in flint) H1 H2 dir_case (world_case ns)
  options_case (text "config.yaml") (text "out") (doc_case ns) cs (text "/out") 1.
have [N HN] : exists N, forall fuel, N <= fuel ->
    proper 200 200 100 (@squarefree_of flint) (factor_in flint) dir_case fuel [:: c] /\
    exists calls, main 100 200 dir_case (world_case ns) fuel options_case = Ok (Ran [:: c] calls (Return 1)).
  apply: HR => //.
  - by right.
  - by case=> [|[|i]] // _; eexists; first reflexivity; vm_compute.
  - by case=> // _; split.
  - by move=> _; split; [left; vm_compute | exists true].
have [Hpr [calls Hm]] := HN N (leqnn N); exists flint, (@squarefree_of flint), (factor_in flint), N, calls.
split=> // macts ms Hrun.
have He : earlier 200 200 100 (@squarefree_of flint) (factor_in flint) dir_case [:: c] (m_files ms).
  apply: (EarlierMpi (w := world_case ns) (o := options_case) _ Hm Hpr _ _ Hrun) => //.
    by apply: EarlierOther => f [|i] //= [<-|].
  by move=> [|i] [|i'].
split=> //; have [E _] := C68_ends_partial H1 H2 Hm Hpr (m_files ms).
have [k Hk] := E [:: false; true] [::] (start [:: false; true] (m_files ms) calls) isT (erefl _).
have [||s Hs Ht] := Hk (nseq k [:: Main true; Step 0; Step 1; Wake 0; Wake 1]).
- by rewrite size_nseq.
- by elim: (k).
by exists (flatten (nseq k [:: Main true; Step 0; Step 1; Wake 0; Wake 1])), s.
Qed.
