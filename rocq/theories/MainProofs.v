(** The program as a whole. *)
Set Warnings "-notation-overridden,-ambiguous-paths".
From Coq Require Import String.
From mathcomp Require Import all_ssreflect ssralg ssrnum ssrint poly polydiv finalg finfield zify.
From Verif Require Import Res ResFacts FinField OMap CurveSpec Store StoreSpec Text Files FilesSpec Pool Standalone StandaloneSpec
  StandaloneProofs StandaloneTheorems Mpi MpiSpec MpiTheorems Progress MpiRounds Config CurveIter KeyMath Worker WorkerSpec WorkerProofs EndToEnd Main
  MainSpec MainRuns.

Set Implicit Arguments.
Unset Strict Implicit.
Unset Printing Implicit Defensive.

(** ** What [main] does *)
Section Loop.
Variables (M W : nat) (dir : seq char -> nat) (w : world).

Definition j0 : job := (0, 0, [::]).

Lemma loop_jobs fuel out i cs0 cs calls e : main_loop W dir w fuel out i cs0 = Ok (cs, calls, e) ->
  exists jobs : seq job, [/\ size jobs = size cs,
    calls = job_calls jobs ++ (if e is Return _ then [:: CDestroy] else [::]) &
    forall k, k < size cs -> let j := nth j0 jobs k in let c := nth c0 cs k in
      j.1 = (dir (g_path c), i + k) /\
      (config_blocks W fuel c = Ok j.2 \/ config_blocks W fuel c = Term /\ j.2 = [::])].
Proof.
elim: cs0 i cs calls e => [|c cs0 IH] i cs calls e /=; first by case=> <- <- <-; exists [::].
rewrite {1}/guarded; case: (w_canonical w out) => [root| | |] //=; last by case=> <- <- <-; exists [::].
set c' := prepend_output_path root c.
rewrite {1}/guarded; case: (check w c') => [ok| | |] //=; last by case=> <- <- <-; exists [::].
case: ok => /=; last by case=> <- <- <-; exists [::].
have E : config_blocks W fuel c' =
  (it <- mk_citer (g_prime c) (g_prime c ^ g_exponent c) (g_genus c) (g_marked c) (g_package c) ;;
   ci_iterate W (ci_as_block W) fuel it) by [].
case: mk_citer E => [it| | |] //= E; last first.
  case=> <- <- <-; exists [:: (dir (g_path c'), i, [::])]; split=> // -[|k] //= _.
  by rewrite addn0; split=> //; right.
move=> H; have [bs Hbs H1] := bind_Ok_inv H; have [[[cs1 calls1] e1] Hx [<- <- <-]] := bind_Ok_inv H1.
have [jobs [J1 J2 J3]] := IH _ _ _ _ Hx; exists ((dir (g_path c'), i, bs) :: jobs); split.
- by rewrite /= J1.
- by rewrite /= J2 /job_calls /= -catA.
case=> [|k] /= Hk; first by rewrite addn0 E; split=> //; left.
by have := J3 k Hk; rewrite addSnnS.
Qed.

(** The configurations of the file and what becomes of them. *)
Lemma check_true c : check w c = Ok true -> accepts w c.
Proof.
rewrite /check; case: ifP => // /negbT; rewrite !negb_or => /and4P[H1 H2 H3 H4] H.
have [d Hd [/and5P[_ _ _ _ /andP[Ed H5]]]] := bind_Ok_inv H.
by rewrite -!lt0n in H1 H2 H3 H4 H5; split=> //; rewrite Hd Ed.
Qed.

Lemma check_false c : check w c = Ok false -> rejects w c.
Proof.
rewrite /check /rejects; case: ifP => [|/negbT].
  by move=> H _; left; case/or4P: H => /eqP->; rewrite ?muln0 ?mul0n.
rewrite !negb_or => /and4P[H1 H2 H3 H4] H; have [d Hd [E]] := bind_Ok_inv H.
move: E; rewrite /verify H1 H2 H3 H4 /=; case: d Hd => Hd /=; last by right.
by move/negbT; rewrite negbK => /eqP->; left; rewrite muln0.
Qed.

Lemma check_term c : check w c = Term -> w_mkdir w (g_path c) = Term.
Proof. by rewrite /check; case: ifP => // _; case: (w_mkdir _ _). Qed.

Definition tail (root : seq char) (fuel : nat) (all cs : seq config) (e : ending) : Prop :=
  let placed := [seq prepend_output_path root c | c <- all] in
  [/\ cs = take (size cs) placed, forall i, i < size cs -> accepts w (nth c0 placed i) &
      match e with
      | Return 0 => size cs = size all
      | Return 1 => size cs < size all /\ rejects w (nth c0 placed (size cs))
      | Return _ => False
      | Killed => size cs < size all /\ w_mkdir w (g_path (nth c0 placed (size cs))) = Term \/
                  0 < size cs /\ config_blocks W fuel (last c0 cs) = Term
      end].

Lemma loop_tail root fuel out i all cs calls e : w_canonical w out = Ok root ->
  main_loop W dir w fuel out i all = Ok (cs, calls, e) -> tail root fuel all cs e.
Proof.
move=> Hr; elim: all i cs calls e => [|c all IH] i cs calls e /=; first by case=> <- _ <-.
rewrite Hr /guarded /=; set c' := prepend_output_path root c.
case Ec: (check w c') => [ok| | |] //=; last first.
  by case=> <- _ <-; split=> //; left; split=> //; exact: check_term Ec.
case: ok Ec => Ec /=; last by case=> <- _ <-; split=> //; split=> //; exact: check_false Ec.
have E : config_blocks W fuel c' =
  (it <- mk_citer (g_prime c) (g_prime c ^ g_exponent c) (g_genus c) (g_marked c) (g_package c) ;;
   ci_iterate W (ci_as_block W) fuel it) by [].
case: mk_citer E => [it| | |] //= E; last first.
  case=> <- _ <-; split=> /=; [by rewrite take0|by case=> // _; exact: check_true|by right].
move=> H; have [bs Hbs H1] := bind_Ok_inv H; have [[[cs1 calls1] e1] Hx [<- _ <-]] := bind_Ok_inv H1.
have [T1 T2 T3] := IH _ _ _ _ Hx; split=> /=.
- by rewrite -T1.
- by case=> [|k] Hk; [exact: check_true|exact: T2].
case: e1 T3 {Hx H H1} => [[|[|n]]|] //=; first by move=> ->.
case=> [[H1 H2]|[H1 H2]]; [by left|right; split=> //].
by case: (cs1) H1 H2.
Qed.

Lemma loop_no_root fuel out i all cs calls e : w_canonical w out = Term ->
  main_loop W dir w fuel out i all = Ok (cs, calls, e) -> cs = [::] /\ e = (if all is [::] then Return 0 else Killed).
Proof. by move=> Hr; case: all => [|c all] /=; rewrite ?Hr /guarded => -[<- _ <-]. Qed.

Lemma configs_items doc all : main_configs M W doc = Ok all -> size all = size (items doc) /\
  forall i, i < size all -> exists2 n, nth None (items doc) i = Some n & decode M W n = Ok (Some (nth c0 all i)).
Proof.
have one n c : as_config M W n = Ok c -> exists2 n', n = Some n' & decode M W n' = Ok (Some c).
  case: n => [n|] //= H; have [[c'|] Hc E] := bind_Ok_inv H => //; exists n => //.
  by rewrite Hc; case: E => ->.
rewrite /main_configs /items; case: (y_moduli doc) => [ns|].
  elim: ns all => [|n ns IH] all /=; first by case=> <-.
  move=> H; have [c Hc H1] := bind_Ok_inv H; have [l Hl [<-]] := bind_Ok_inv H1.
  have [H2 H3] := IH _ Hl; split=> /=; first by rewrite H2.
  by case=> [|i] Hi; [exact: one|exact: H3].
move=> H; have [c Hc [<-]] := bind_Ok_inv H; split=> // -[|i] // _; exact: (one (Some _)).
Qed.

Lemma main_inv fuel o cs calls e : main M W dir w fuel o = Ok (Ran cs calls e) ->
  exists config_file output_path doc all, [/\ o_help o = false,
    o_config o = Some config_file /\ o_output o = Some output_path,
    [/\ w_mkdir w output_path = Ok true, w_regular w config_file & w_load w config_file = Ok doc],
    main_configs M W doc = Ok all & main_loop W dir w fuel output_path 0 all = Ok (cs, calls, e)].
Proof.
rewrite /main; case: (o_help o) => //; case: (o_config o) => [cf|] //; case: (o_output o) => [out|] // H.
have [[] Hd] := bind_Ok_inv H; last by [].
rewrite [~~ true]/=; case Hr: (w_regular w cf) => // H1.
have [doc Hl H2] := bind_Ok_inv H1; have [kn Hk H3] := bind_Ok_inv H2.
case: kn Hk H3 => // Hk H3.
have [all Ha H4] := bind_Ok_inv H3; have [[[cs1 calls1] e1] Hx [<- <- <-]] := bind_Ok_inv H4.
by exists cf, out, doc, all.
Qed.

Lemma main_result fuel o cs calls e : main M W dir w fuel o = Ok (Ran cs calls e) ->
  exists config_file output_path doc all, [/\ o_help o = false,
    o_config o = Some config_file /\ o_output o = Some output_path,
    [/\ w_mkdir w output_path = Ok true, w_regular w config_file & w_load w config_file = Ok doc],
    size all = size (items doc) /\
    (forall i, i < size all ->
      exists2 n, nth None (items doc) i = Some n & decode M W n = Ok (Some (nth c0 all i))) &
    (forall root, w_canonical w output_path = Ok root -> tail root fuel all cs e) /\
    (w_canonical w output_path = Term -> cs = [::] /\ e = (if all is [::] then Return 0 else Killed))].
Proof.
move=> H; have [cf [out [doc [all [H1 H2 H3 H4 H5]]]]] := main_inv H; exists cf, out, doc, all; split=> //.
  exact: configs_items H4.
by split=> [root Hr|Hr]; [exact: loop_tail Hr H5|exact: loop_no_root Hr H5].
Qed.
End Loop.

(** ** Results *)
Section Results.
Variables (W S M : nat).
Variable flint : nat -> nat -> flint_field.
Variable is_squarefree : forall p r, seq (ff_field (flint p r)) -> bool.
Variable factor : nat -> nat -> seq nat -> seq (nat * nat).
Hypothesis HMW : 2 * M <= W.
Hypothesis HWS : W <= S.
Variable dir : seq char -> nat.

Local Notation sound := (sound M is_squarefree factor).
Local Notation enough := (enough W S is_squarefree factor).
Local Notation proper := (proper W S M is_squarefree factor dir).
Local Notation contribution := (contribution W S is_squarefree factor).
Local Notation computes := (computes W S is_squarefree factor).
Local Notation right := (right M flint).

Lemma sound_computes c : sound c -> exists bs kns, right c bs kns /\ forall fuel, enough fuel c -> computes fuel c bs kns.
Proof.
case=> K1 K2 K3; have [bs [kns [N [L1 L2 L3 L4 L5]]]] := config_ok HMW HWS K1 K2 K3.
exists bs, kns; split; first by split.
move=> fuel He; have [H1 H2] := He (maxn N fuel) (leq_maxr _ _); have HN := leq_maxl N fuel.
have E : config_blocks W fuel c = Ok bs by rewrite -H1 L1.
by split=> // b Hb; rewrite -(H2 _ _ E Hb) L3.
Qed.

Lemma two_blocks fuel c : g_prime c = 2 -> config_blocks W fuel c = Term.
Proof. by rewrite /config_blocks /mk_citer => ->. Qed.

(** The jobs of a run. *)
Definition jobs_of (fuel : nat) (cs : seq config) (jobs : seq job) : Prop :=
  size jobs = size cs /\
  forall k, k < size cs -> let j := nth j0 jobs k in let c := nth c0 cs k in
    j.1 = (dir (g_path c), k) /\
    (config_blocks W fuel c = Ok j.2 \/ config_blocks W fuel c = Term /\ j.2 = [::]).

Lemma main_jobs w fuel o cs calls e : main M W dir w fuel o = Ok (Ran cs calls e) ->
  exists jobs, jobs_of fuel cs jobs /\ calls = job_calls jobs ++ (if e is Return _ then [:: CDestroy] else [::]).
Proof.
move=> H; have [cf [out [doc [all [_ _ _ _ H5]]]]] := main_inv H.
by have [jobs [J1 J2 J3]] := loop_jobs H5; exists jobs.
Qed.

Section Jobs.
Variables (fuel : nat) (cs : seq config) (jobs : seq job).
Hypothesis Hp : proper fuel cs.
Hypothesis Hj : jobs_of fuel cs jobs.

Lemma job_nth j : j \in jobs -> exists2 k, k < size cs & j = nth j0 jobs k.
Proof. by move=> Hin; have := Hin; rewrite -index_mem (proj1 Hj) => Hk; exists (index j jobs); rewrite // nth_index. Qed.

Lemma sound_job k bs kns : k < size cs -> computes fuel (nth c0 cs k) bs kns -> (nth j0 jobs k).2 = bs.
Proof. by move=> Hk [H _]; have [_ []] := proj2 Hj k Hk; [rewrite H => -[]|rewrite H => -[]]. Qed.

Lemma two_job k : k < size cs -> g_prime (nth c0 cs k) = 2 -> (nth j0 jobs k).2 = [::].
Proof. by move=> Hk /(two_blocks fuel) H; have [_ []] := proj2 Hj k Hk; rewrite H => // -[]. Qed.

Lemma jobs_wf_of : jobs_wf jobs.
Proof.
have [Hs HJ] := Hj; have [Hu HP] := Hp; apply/and3P; split.
- rewrite (_ : [seq j.1.1 | j <- jobs] = [seq dir (g_path c) | c <- cs]) //.
  apply: (@eq_from_nth _ 0); rewrite !size_map // => k; rewrite Hs => Hk.
  by rewrite (nth_map j0) ?Hs // (nth_map c0) //; have [-> _] := HJ k Hk.
- rewrite (_ : [seq j.1.2 | j <- jobs] = iota 0 (size cs)) ?iota_uniq //.
  apply: (@eq_from_nth _ 0); rewrite size_map ?size_iota // => k; rewrite Hs => Hk.
  by rewrite (nth_map j0) ?Hs // nth_iota //; have [-> _] := HJ k Hk.
apply/allP => j /job_nth[k Hk ->]; have [[Hso|H2] He] := HP k Hk; last by rewrite two_job.
have [bs [kns [[[H1 H2 _] _ _] HC]]] := sound_computes Hso.
by rewrite (sound_job Hk (HC _ He)) H1 H2.
Qed.
End Jobs.

Section Final.
Variables (fuel : nat) (cs : seq config) (jobs : seq job).
Hypothesis Hp : proper fuel cs.
Hypothesis Hj : jobs_of fuel cs jobs.
Let contrib := contribution fuel cs.

Lemma run_fits fuel' cs' jobs' : proper fuel' cs' -> jobs_of fuel' cs' jobs' -> agree dir cs cs' ->
  forall j', j' \in jobs' -> fits contrib jobs (contribution fuel' cs') j'.
Proof.
move=> Hp' Hj' Ha j' /(job_nth Hj')[k' Hk' ->] j /(job_nth Hj)[k Hk ->].
have [E1 _] := proj2 Hj k Hk; have [E2 _] := proj2 Hj' k' Hk'; rewrite E1 E2 /= => Ed.
have Ec := Ha k k' Hk Hk' Ed; have [[Hso|H2] He] := proj2 Hp k Hk.
  have [bs [kns [_ HC]]] := sound_computes Hso; have [_ He'] := proj2 Hp' k' Hk'.
  have C1 := HC _ He; have C2 := HC fuel'; rewrite {2}Ec in C2.
  have C3 : computes fuel' (nth c0 cs' k') bs kns by apply: C2; rewrite Ec.
  rewrite (sound_job Hj Hk C1) (sound_job Hj' Hk' C3); split=> // b Hb.
  by rewrite (contributionE C3 Hb) /contrib (contributionE C1 Hb).
by rewrite Ec in H2; rewrite (two_job Hj' Hk' H2).
Qed.

Lemma past_of fs : earlier W S M is_squarefree factor dir cs fs -> past_runs contrib jobs fs.
Proof.
elim=> [F HF|F w o fuel' cs' calls e kinds acts s _ IH Hm Hp' Ha Hrun|
  F w o fuel' cs' calls e kinds acts s _ IH Hm Hp' Ha Hk Hrun].
- apply: PastStart => f Hf; apply/negP => /mapP[j /(job_nth Hj)[k Hk ->]].
  by have [-> _] := proj2 Hj k Hk; exact: HF.
- have [jobs' [HJ EC]] := main_jobs Hm; have Hw := jobs_wf_of Hp' HJ; have Hf := run_fits Hp' HJ Ha.
  case: e EC Hm => [n|] EC _; rewrite EC in Hrun.
    exact: (PastThreads IH (@contribution_map W S flint is_squarefree factor cs' fuel') Hw Hf Hrun).
  rewrite cats0 in Hrun; have [acts' Hrun'] := more_run [:: CDestroy] Hrun.
  exact: (PastThreads IH (@contribution_map W S flint is_squarefree factor cs' fuel') Hw Hf Hrun').
have [jobs' [HJ EC]] := main_jobs Hm; have Hw := jobs_wf_of Hp' HJ; have Hf := run_fits Hp' HJ Ha.
case: e EC Hm => [n|] EC _; rewrite EC in Hrun.
  exact: (PastMpi IH (@contribution_map W S flint is_squarefree factor cs' fuel') Hw Hf Hk Hrun).
rewrite cats0 in Hrun; have [acts' Hrun'] := mmore_run [:: CDestroy] Hrun.
exact: (PastMpi IH (@contribution_map W S flint is_squarefree factor cs' fuel') Hw Hf Hk Hrun').
Qed.

Lemma split_job k : k < size cs ->
  jobs = take k jobs ++ nth j0 jobs k :: drop k.+1 jobs.
Proof. by move=> Hk; rewrite -drop_nth ?cat_take_drop // (proj1 Hj). Qed.

Lemma later_jobs k : k.+1 < size cs -> drop k.+1 jobs <> [::].
Proof. by move=> Hk /(congr1 size); rewrite size_drop (proj1 Hj) /= => /eqP; rewrite subn_eq0 leqNgt Hk. Qed.

Lemma complete_counted k fs : k < size cs -> sound (nth c0 cs k) -> consistent contrib jobs fs ->
  perm_eq (recorded fs (nth j0 jobs k).1.1) (nth j0 jobs k).2 ->
  add_up contrib fs (nth j0 jobs k).1.1 (nth j0 jobs k).1.2 (nth j0 jobs k).2 ->
  counted W M flint dir (nth c0 cs k) fs.
Proof.
move=> Hk Hso Hc H1 H2 d0 ids cuts d listing Hd0 Hrep Hl.
have [bs [kns [HR HC]]] := sound_computes Hso; have [_ He] := proj2 Hp k Hk; have C := HC _ He.
have Eb := sound_job Hj Hk C; have [E _] := proj2 Hj k Hk; rewrite E Eb /= in H1 H2.
have Hin : (dir (g_path (nth c0 cs k)), k, bs) \in jobs.
  by rewrite -Eb -E -surjective_pairing mem_nth ?(proj1 Hj).
have [T [R [N [K1 K2 K3 K4]]]] := merged_ok HMW Hin HR C Hc H1 H2 Hd0 Hrep Hl.
exists T, R, N; split=> // L emb HL k'; rewrite K2 /expected.
have [Ha Hff _] := Hso; by rewrite brute_forceE //; exact: (EndToEnd.odd_field Ha Hff).
Qed.
End Final.

(** What holds of the complete results of a configuration holds at the end. *)
Lemma results_gen (Q : config -> seq file -> Prop) w fuel o cs calls e :
  main M W dir w fuel o = Ok (Ran cs calls e) -> proper fuel cs ->
  (forall jobs k fs, jobs_of fuel cs jobs -> k < size cs -> sound (nth c0 cs k) -> consistent (contribution fuel cs) jobs fs ->
    perm_eq (recorded fs (nth j0 jobs k).1.1) (nth j0 jobs k).2 ->
    add_up (contribution fuel cs) fs (nth j0 jobs k).1.1 (nth j0 jobs k).1.2 (nth j0 jobs k).2 -> Q (nth c0 cs k) fs) ->
  forall fs, earlier W S M is_squarefree factor dir cs fs ->
  (forall kinds acts s, run (contribution fuel cs) (start kinds fs calls) acts = Ok s -> through e s ->
    forall i, promised e cs i -> sound (nth c0 cs i) -> Q (nth c0 cs i) (files s)) /\
  (forall kinds acts s, 0 < size kinds -> mrun (contribution fuel cs) (mstart kinds fs calls) acts = Ok s -> mthrough e s ->
    forall i, promised e cs i -> sound (nth c0 cs i) -> Q (nth c0 cs i) (m_files s)).
Proof.
move=> Hm Hp HQ fs Hf; have [jobs [HJ EC]] := main_jobs Hm; have Hw := jobs_wf_of Hp HJ; have Hpast := past_of Hp HJ Hf.
have Hmap := @contribution_map W S flint is_squarefree factor cs fuel.
case: e Hm EC => [n|] Hm EC; rewrite EC ?cats0.
  split=> [kinds acts s Hrun Ht i Hi Hso|kinds acts s Hk Hrun Ht i Hi Hso].
    have [[K1 _] K2 K3] := left_complete Hw Hmap Hpast Hrun (split_job HJ Hi) (or_introl Ht).
    exact: (HQ _ _ _ HJ Hi Hso K1 K2 K3).
  have [[K1 _] K2 K3] := mleft_complete Hw Hmap Hpast Hk Hrun (split_job HJ Hi) (or_introl Ht).
  exact: (HQ _ _ _ HJ Hi Hso K1 K2 K3).
split=> [kinds acts s Hrun [Ht Ht'] i Hi Hso|kinds acts s Hk Hrun [Ht Ht'] i Hi Hso].
  have [acts' [Hr Hl]] := killed_left Hw Hmap Hrun Ht Ht' (split_job HJ (ltnW Hi)) (later_jobs HJ Hi).
  have [[K1 _] K2 K3] := left_complete Hw Hmap Hpast Hr (split_job HJ (ltnW Hi)) Hl.
  exact: (HQ _ _ _ HJ (ltnW Hi) Hso K1 K2 K3).
have [acts' [Hr Hl]] := mkilled_left Hw Hmap Hk Hrun Ht Ht' (split_job HJ (ltnW Hi)) (later_jobs HJ Hi).
have [[K1 _] K2 K3] := mleft_complete Hw Hmap Hpast Hk Hr (split_job HJ (ltnW Hi)) Hl.
exact: (HQ _ _ _ HJ (ltnW Hi) Hso K1 K2 K3).
Qed.

Lemma results w fuel o cs calls e : main M W dir w fuel o = Ok (Ran cs calls e) -> proper fuel cs ->
  forall fs, earlier W S M is_squarefree factor dir cs fs ->
  (forall kinds acts s, run (contribution fuel cs) (start kinds fs calls) acts = Ok s -> through e s ->
    forall i, promised e cs i -> sound (nth c0 cs i) -> counted W M flint dir (nth c0 cs i) (files s)) /\
  (forall kinds acts s, 0 < size kinds -> mrun (contribution fuel cs) (mstart kinds fs calls) acts = Ok s -> mthrough e s ->
    forall i, promised e cs i -> sound (nth c0 cs i) -> counted W M flint dir (nth c0 cs i) (m_files s)).
Proof.
move=> Hm Hp; apply: (results_gen Hm Hp) => jobs k fs HJ Hk Hso K1 K2 K3.
exact: (complete_counted Hp HJ Hk Hso K1 K2 K3).
Qed.

(** Files in other directories. *)
Lemma untouched w fuel o cs calls e : main M W dir w fuel o = Ok (Ran cs calls e) -> proper fuel cs ->
  forall fs,
  (forall kinds acts s, run (contribution fuel cs) (start kinds fs calls) acts = Ok s ->
    exists2 N, files s = fs ++ N & forall f, List.In f N -> f_dir f \in [seq dir (g_path c) | c <- cs]) /\
  (forall kinds acts s, 0 < size kinds -> mrun (contribution fuel cs) (mstart kinds fs calls) acts = Ok s ->
    exists2 N, m_files s = fs ++ N & forall f, List.In f N -> f_dir f \in [seq dir (g_path c) | c <- cs]).
Proof.
move=> Hm Hp fs; have [jobs [HJ EC]] := main_jobs Hm; have Hw := jobs_wf_of Hp HJ.
have Hmap := @contribution_map W S flint is_squarefree factor cs fuel.
have Hd d : d \in [seq j.1.1 | j <- jobs] -> d \in [seq dir (g_path c) | c <- cs].
  case/mapP=> j /(job_nth HJ)[k Hk ->] ->; have [-> _] := proj2 HJ k Hk.
  by apply/(nthP 0); exists k; rewrite ?size_map // (nth_map c0).
split=> [kinds acts s Hrun|kinds acts s Hk Hrun].
  have [acts' [s' Hr Es]] : exists acts', exists2 s', run (contribution fuel cs) (start kinds fs (main_program jobs)) acts' = Ok s'
      & files s' = files s.
    case: e Hm EC => [n|] Hm EC; rewrite EC ?cats0 in Hrun; first by exists acts, s.
    by have [acts' H] := more_run [:: CDestroy] Hrun; exists acts', (more [:: CDestroy] s).
  have [N EN HN] := new_dirs Hw Hmap Hr; exists N; first by rewrite -Es.
  by move=> f /HN/Hd.
have [acts' [s' Hr Es]] : exists acts', exists2 s', mrun (contribution fuel cs) (mstart kinds fs (main_program jobs)) acts' = Ok s'
    & m_files s' = m_files s.
  case: e Hm EC => [n|] Hm EC; rewrite EC ?cats0 in Hrun; first by exists acts, s.
  by have [acts' H] := mmore_run [:: CDestroy] Hrun; exists acts', (mmore [:: CDestroy] s).
have [N EN HN] := mnew_dirs Hw Hmap Hk Hr; exists N; first by rewrite -Es.
by move=> f /HN/Hd.
Qed.

(** A run for every command line and file. *)
Lemma accepts_check w c : accepts w c -> check w c = Ok true.
Proof.
move=> [[H1 H2 H3 H4] [H5 H6]]; rewrite !lt0n in H1 H2 H3 H4 H6.
by rewrite /check (negbTE H1) (negbTE H2) (negbTE H3) (negbTE H4) /= H5 /= /verify H1 H2 H3 H4 H6.
Qed.

Lemma rejects_check w c d : rejects w c -> w_mkdir w (g_path c) = Ok d -> check w c = Ok false.
Proof.
rewrite /rejects /check => H Hd; case: ifP => // /negbT; rewrite !negb_or => /and4P[H1 H2 H3 H4].
rewrite Hd /= /verify H1 H2 H3 H4 /=; case: H => [/esym/eqP|H]; last by move: H; rewrite Hd => -[->].
by rewrite !muln_eq0 (negbTE H1) (negbTE H2) (negbTE H3) (negbTE H4) /= => ->; rewrite andbF.
Qed.

Lemma loop_runs w fuel out root k all n : w_canonical w out = Ok root ->
  let placed := [seq prepend_output_path root c | c <- all] in
  (forall i, i < k -> check w (nth c0 placed i) = Ok true /\ exists bs, config_blocks W fuel (nth c0 placed i) = Ok bs) ->
  k <= size all -> (k < size all -> check w (nth c0 placed k) = Ok false) ->
  exists calls, main_loop W dir w fuel out n all = Ok (take k placed, calls, Return (k < size all)).
Proof.
move=> Hr; elim: all k n => [|c all IH] k n placed H1 H2 H3; first by exists [:: CDestroy]; rewrite leqn0 in H2; rewrite (eqP H2).
rewrite /= Hr /guarded [bind _ _]/=; case: k H1 H2 H3 => [|k] H1 H2 H3.
  by have := H3 isT; rewrite /placed /= => -> /=; exists [:: CDestroy].
have [E1 [bs E2]] := H1 0 isT; rewrite /= in E1 E2; rewrite E1 [bind _ _]/=.
move: E2; rewrite {1}/config_blocks; case: mk_citer => [it| | |] // E2; rewrite /= in E2; rewrite [bind _ _]/= E2 [bind _ _]/=.
have [| | |calls ->] := IH k n.+1 => //; first by move=> i Hi; exact: (H1 i.+1).
by eexists.
Qed.

Lemma main_runs w o config_file output_path doc all root k :
  o_help o = false -> o_config o = Some config_file -> o_output o = Some output_path ->
  w_mkdir w output_path = Ok true -> w_regular w config_file -> w_load w config_file = Ok doc ->
  (yfind (y_top doc) k_store = None \/ yfind (y_top doc) k_store = Some (Scalar (text "EC"))) ->
  size all = size (items doc) ->
  (forall i, i < size all -> exists2 n, nth None (items doc) i = Some n & decode M W n = Ok (Some (nth c0 all i))) ->
  w_canonical w output_path = Ok root ->
  let placed := [seq prepend_output_path root c | c <- all] in
  k <= size all -> (forall i, i < k -> accepts w (nth c0 placed i) /\ sound (nth c0 placed i)) ->
  (k < size all -> rejects w (nth c0 placed k) /\ exists d, w_mkdir w (g_path (nth c0 placed k)) = Ok d) ->
  uniq [seq dir (g_path c) | c <- take k placed] ->
  exists N, forall fuel, N <= fuel -> proper fuel (take k placed) /\
    exists calls, main M W dir w fuel o = Ok (Ran (take k placed) calls (Return (k < size all))).
Proof.
move=> O1 O2 O3 W1 W2 W3 W4 A1 A2 W5 placed Hk Hacc Hrej Hu.
have Hsz : size (take k placed) = k by rewrite size_takel // size_map.
have Hnth i : i < k -> nth c0 (take k placed) i = nth c0 placed i by move=> Hi; rewrite nth_take.
have [N HN] : exists N, forall fuel, N <= fuel -> forall i, i < k ->
    enough fuel (nth c0 placed i) /\ exists bs, config_blocks W fuel (nth c0 placed i) = Ok bs.
  elim: k {Hk Hrej Hu Hsz Hnth} Hacc => [|k IH] Hacc; first by exists 0.
  have [|N HN] := IH; first by move=> i Hi; exact: Hacc (leqW Hi).
  have [_ [K1 K2 K3]] := Hacc k (leqnn _); have [bs [kns [N' [L1 L2 L3 L4 L5]]]] := config_ok HMW HWS K1 K2 K3.
  exists (maxn N N') => fuel; rewrite geq_max => /andP[F1 F2] i; rewrite ltnS leq_eqVlt => /orP[/eqP->|Hi].
    split; last by exists bs; exact: L1.
    move=> f Hf; have F3 := leq_trans F2 Hf; rewrite !L1 //; split=> // bs' b [<-] Hb.
    by rewrite !L3.
  exact: HN.
exists N => fuel Hf; split.
  split=> // i; rewrite Hsz => Hi; rewrite Hnth //.
  by have [_ H1] := Hacc i Hi; have [H2 _] := HN _ Hf i Hi; split=> //; left.
have EC : main_configs M W doc = Ok all.
  move: A1 A2; rewrite /items /main_configs; case: (y_moduli doc) => [ns|]; last first.
    case: (all) => [|c [|c' l]] // _ /(_ 0 isT)[n /= [<-] E]; by rewrite E.
  elim: ns (all) => [|n ns IH] [|c l] //= [Hs] H; have [n' /= En E] := H 0 isT.
  by rewrite En /= E /= (IH l) // => i Hi; exact: (H i.+1).
rewrite /main O1 O2 O3 W1 /= W2 /= W3 /= /store_known.
have -> : (if yfind (y_top doc) k_store is None then Ok true
           else t <- as_string (yfind (y_top doc) k_store);; Ok (t == text "EC")) = Ok true.
  by case: W4 => ->.
rewrite [bind _ _]/= EC [bind _ _]/=.
have [| | |calls ->] := @loop_runs w fuel output_path root k all 0 W5 => //; last by exists calls.
  move=> i Hi; have [H1 _] := Hacc i Hi; have [_ H2] := HN _ Hf i Hi; split=> //; exact: accepts_check.
by move=> /Hrej[H1 [d H2]]; exact: rejects_check H1 H2.
Qed.

(** Refusals. *)
Lemma main_refused w fuel o n : main M W dir w fuel o = Ok (Refused n) ->
  if o_help o then n = 0 else n = 1 /\
  (o_config o = None \/ o_output o = None \/ exists config_file output_path,
    o_config o = Some config_file /\ o_output o = Some output_path /\
    (w_mkdir w output_path = Ok false \/ w_regular w config_file = false \/
     exists doc v, [/\ w_load w config_file = Ok doc, yfind (y_top doc) k_store = Some v & v <> Scalar (text "EC")])).
Proof.
rewrite /main; case: (o_help o); first by case.
case: (o_config o) => [cf|]; last by case=> <-; split=> //; left.
case: (o_output o) => [out|]; last by case=> <-; split=> //; right; left.
move=> H; have [d Hd H1] := bind_Ok_inv H; case: d Hd H1 => Hd; last first.
  by case=> <-; split=> //; right; right; exists cf, out; do 2 (split=> //); left.
case Hr: (w_regular w cf) => H1; last by case: H1 => <-; split=> //; right; right; exists cf, out; do 2 (split=> //); right; left.
have [doc Hl H2] := bind_Ok_inv H1; have [kn Hk H3] := bind_Ok_inv H2; case: kn Hk H3 => Hk H3.
  by have [all Ha H4] := bind_Ok_inv H3; have [x Hx] := bind_Ok_inv H4.
case: H3 => <-; split=> //; right; right; exists cf, out; do 2 (split=> //); right; right; exists doc.
move: Hk; rewrite /store_known; case: (yfind _ _) => [v|] // H4; exists v; split=> // E.
by move: H4; rewrite E /= eqxx.
Qed.

(** The program ends. *)
Lemma main_ends w fuel o cs calls n : main M W dir w fuel o = Ok (Ran cs calls (Return n)) -> proper fuel cs ->
  forall fs,
  (forall kinds acts s, 0 < size kinds -> run (contribution fuel cs) (start kinds fs calls) acts = Ok s ->
    exists k, forall rounds, k <= size rounds -> all (full_round (size kinds)) rounds ->
      exists2 s', run (contribution fuel cs) s (flatten rounds) = Ok s' & through (Return n) s') /\
  (forall kinds acts s, 0 < sumn [seq size k | k <- kinds] ->
    mrun (contribution fuel cs) (mstart kinds fs calls) acts = Ok s ->
    exists k, forall rounds, k <= size rounds -> all (mfull_round kinds) rounds ->
      exists2 s', mrun (contribution fuel cs) s (flatten rounds) = Ok s' & mended s').
Proof.
move=> Hm Hp fs; have [jobs [HJ EC]] := main_jobs Hm; have Hw := jobs_wf_of Hp HJ.
have Hmap := @contribution_map W S flint is_squarefree factor cs fuel; rewrite EC.
split=> [kinds acts s Hk|kinds acts s Hk]; last exact: (mprogram_ends Hmap Hw Hk).
exact: (program_ends Hmap Hw Hk (erefl (size kinds))).
Qed.
End Results.
