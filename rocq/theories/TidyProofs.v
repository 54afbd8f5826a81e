(** Proofs about results that were merged between runs. *)
Set Warnings "-notation-overridden,-ambiguous-paths".
From mathcomp Require Import all_ssreflect ssralg ssrnum ssrint poly finalg zify.
From Verif Require Import Res ResFacts FinField OMap OMapFacts OMapPerm CurveSpec Store StoreSpec StoreProofs Text TextSpec TextProofs
  Files FilesSpec FilesProofs Pool Standalone StandaloneSpec Account StandaloneProofs Mpi MpiSpec MpiProofs Config Worker WorkerSpec
  WorkerProofs EndToEnd Main MainSpec MainRuns MainProofs TidySpec.

Set Implicit Arguments.
Unset Strict Implicit.
Unset Printing Implicit Defensive.

(** ** Files with the same meaning *)
Definition similar (M : nat) (fs fs' : seq file) : Prop := forall d,
  [/\ read_records fs d = read_records fs' d,
      forall k, sum_opt [seq st_find st k | st <- tables fs d] = sum_opt [seq st_find st k | st <- tables fs' d] &
      all (fun x => well_saved M ([::], x)) (pairs fs d) -> all (fun x => well_saved M ([::], x)) (pairs fs' d)].

Lemma similar_refl M fs : similar M fs fs. Proof. by []. Qed.

Lemma similar_trans M fs1 fs2 fs3 : similar M fs1 fs2 -> similar M fs2 fs3 -> similar M fs1 fs3.
Proof.
move=> H1 H2 d; have [A1 A2 A3] := H1 d; have [B1 B2 B3] := H2 d.
by split=> [|k|/A3/B3 //]; [rewrite A1|rewrite A2].
Qed.

Lemma pairs_cat fs N d : pairs (fs ++ N) d = pairs fs d ++ pairs N d.
Proof. by rewrite /pairs filter_cat pmap_cat. Qed.

Lemma read_cat fs fs' N d : read_records fs d = read_records fs' d -> read_records (fs ++ N) d = read_records (fs' ++ N) d.
Proof. by rewrite /read_records !filter_cat !map_cat !flatten_cat !foldl_cat => ->. Qed.

Lemma similar_cat M fs fs' N : similar M fs fs' -> similar M (fs ++ N) (fs' ++ N).
Proof.
move=> H d; have [H1 H2 H3] := H d; split; first exact: read_cat.
  by move=> k; rewrite !tablesE !pairs_cat !map_cat !sum_opt_cat -!tablesE H2.
by rewrite !pairs_cat !all_cat => /andP[/H3 -> ->].
Qed.

(** ** Runs that start from such files *)
Section Sim.
Variables (contrib : nat -> block -> store) (F F' : seq file).
Hypothesis HF : forall d, read_records F d = read_records F' d.

Definition to (N : seq file) (s : state) : state := with_files s (F ++ N).

Lemma to_finished N s bs s' : foldM finished_block s bs = Ok s' ->
  files s' = files s /\ foldM finished_block (to N s) bs = Ok (to N s').
Proof.
elim: bs s => [|b bs IH] s /=; first by case=> <-.
rewrite {1 3}/finished_block [assigned (to N s)]/=; case: os_mem => //= H; exact: (IH _ H).
Qed.

Lemma to_flush N s s' : flush_finished_blocks s = Ok s' -> files s' = files s /\ flush_finished_blocks (to N s) = Ok (to N s').
Proof.
rewrite /flush_finished_blocks [s_proc (to N s)]/=; case: (flush_finished _) => p bs H.
exact: (to_finished N H).
Qed.

Lemma complete_cat (G N : seq file) r : ~~ nilp N -> complete_last (G ++ N) r = G ++ complete_last N r.
Proof.
move=> HN; elim: G => [|f G IH] //=; rewrite -IH.
have : ~~ nilp (G ++ N) by case: (G) => [|? ?] //; case: (N) HN.
by case: (G ++ N).
Qed.

Lemma complete_ne (N : seq file) r : ~~ nilp N -> ~~ nilp (complete_last N r).
Proof. by case: N => [|f [|f' N]]. Qed.

Definition writing (s : state) : bool := if s_pc s is PWriteRecord _ _ then true else false.

Lemma to_step N s a s' : files s = F' ++ N -> (writing s -> ~~ nilp N) -> step contrib s a = Ok s' ->
  exists N', [/\ files s' = F' ++ N', writing s' -> ~~ nilp N' & step contrib (to N s) a = Ok (to N' s')].
Proof.
move=> EF HN; have HN0 := HN; case: a => [save|t|t] /=.
- rewrite /main_step [s_pc (to N s)]/=; rewrite /writing in HN.
  case: (s_pc s) HN => [|b|b|b|b|b|t b|k|k|k r st|k r|k|t|t|t|] HN.
  + by rewrite [prog (to N s)]/=; case: (prog s) => [|[d c|b|] cs] [<-]; exists N.
  + by case=> <-; exists N; split=> //; rewrite /writing /=; case: (save).
  + rewrite [file_store (to N s)]/=; case: (file_store s) => [[d r]|] // [<-]; exists N; split=> //.
    by rewrite /writing /=; do !case: ifP.
  + by move=> H; have [s1 H1 [<-]] := bind_Ok_inv H; have [E ->] := to_flush N H1; exists N; rewrite /= E.
  + rewrite [s_proc (to N s)]/=; case: (flush_ready _) => p [c o] [<-]; exists N; split=> //.
    by rewrite /writing /=; case: ifP.
  + rewrite [nocl (to N s)]/= [ncpu (to N s)]/= [s_proc (to N s)]/=.
    case: ifP => // _ H; have [pt H1 [<-]] := bind_Ok_inv H; rewrite H1 /=.
    by exists N; case: (nocl s).
  + by case=> <-; exists N.
  + move=> H; have [s1 H1 [<-]] := bind_Ok_inv H; have [E ->] := to_flush N H1; exists N; split=> //=; first by rewrite E.
    by rewrite /writing /=; case: (assigned s1).
  + rewrite [file_store (to N s)]/= [s_proc (to N s)]/=; case: (file_store s) => [x|]; last by case=> <-; exists N.
    by case: (flush_global _) => p [r st] [<-]; exists N.
  + case=> <-; exists (rcons N (File (cur_dir s) st None)); split=> //=.
    * by rewrite EF rcons_cat.
    * by case: (N).
    * by rewrite /to /with_files /= rcons_cat.
  + case=> <-; exists (complete_last N r); split=> //=.
    * by rewrite EF complete_cat ?HN.
    * by rewrite /to /with_files /= complete_cat ?HN.
  + case: k {HN} => [b|d c|] [<-]; exists N => //; split=> //.
    by rewrite /to /with_files /with_file_store /goto /with_proc /= EF (read_cat N (HF d)).
  + by rewrite [s_proc (to N s)]/=; case: ifP => _ [<-]; exists N.
  + by case=> <-; exists N.
  + rewrite [s_proc (to N s)]/=; case: (t_phase _) => [||||b n|b|] [<-]; exists N; split=> //.
  + by case=> <-; exists N.
- by move=> H; have [p H1 [<-]] := bind_Ok_inv H; exists N; rewrite [s_proc (to N s)]/= H1.
by case=> <-; exists N.
Qed.

Lemma to_run N s acts s' : files s = F' ++ N -> (writing s -> ~~ nilp N) -> run contrib s acts = Ok s' ->
  exists N', files s' = F' ++ N' /\ run contrib (to N s) acts = Ok (to N' s').
Proof.
elim: acts N s => [|a acts IH] N s EF HN /=; first by case=> <-; exists N.
move=> H; have [s1 H1 H2] := bind_Ok_inv H; have [N1 [E1 H3 H4]] := to_step EF HN H1.
by have [N' [E' H5]] := IH _ _ E1 H3 H2; exists N'; rewrite /run /= H4.
Qed.

Definition mto (N : seq file) (s : mstate) : mstate := mset_files s (F ++ N).

Lemma mto_finished N i s bs s' : foldM (mfinished i) s bs = Ok s' ->
  m_files s' = m_files s /\ foldM (mfinished i) (mto N s) bs = Ok (mto N s').
Proof.
elim: bs s => [|b bs IH] s /=; first by case=> <-.
rewrite {1 3}/mfinished [m_asg (mto N s)]/=; case: os_mem => //= H; exact: (IH _ H).
Qed.

Definition mwriting (s : mstate) : bool := if m_pc s is QWriteRecord _ _ _ then true else false.

Lemma mto_step N s a s' : m_files s = F' ++ N -> (mwriting s -> ~~ nilp N) -> mstep contrib s a = Ok s' ->
  exists N', [/\ m_files s' = F' ++ N', mwriting s' -> ~~ nilp N' & mstep contrib (mto N s) a = Ok (mto N' s')].
Proof.
move=> EF HN; have HN0 := HN; case: a => [save|i|i t|i t]; rewrite /mstep.
- rewrite /master_step [m_pc (mto N s)]/= [m_nodes (mto N s)]/=; rewrite /mwriting in HN.
  case: (m_pc s) HN => [|b|b|ix k|ix k|ix b|ix b|b|b|t b|k|ix k|ix k|ix k r st|ix k r|k|t|t|t|] HN.
  + by rewrite [m_prog (mto N s)]/=; case: (m_prog s) => [|[d c|b|] cs] [<-]; exists N.
  + by case=> <-; exists N; split=> //; rewrite /mwriting /=; case: (save).
  + rewrite [m_store (mto N s)]/=; case: (m_store s) => [[d r]|] // [<-]; exists N; split=> //.
    by rewrite /mwriting /=; case: ifP => // _; case: (m_ocl s).
  + case: ifP => _.
      move=> H; have [s1 H1 [<-]] := bind_Ok_inv H.
      by have [E H2] := mto_finished N H1; exists N; rewrite /= E; split=> //; move: H2; rewrite /flush_finished /= => ->.
    case: ifP => _ [<-]; exists N; split=> //; by rewrite /mwriting /=; case: (k).
  + rewrite -[get_node (mto N s) ix]/(get_node s ix).
    case: (n_out _) => [|[nc no|r st|bs] out];
      [by case=> <-; exists N|by case=> <-; exists N|by case=> <-; exists N|].
    move=> H; have [s1 H1 [<-]] := bind_Ok_inv H.
    by have [E H2] := mto_finished N H1; exists N; rewrite /= E; split=> //; move: H2 => /= ->.
  + case: ifP => _.
      by rewrite -[get_node (mto N s) 0]/(get_node s 0); case: (flush_ready _) => p [nc no] [<-]; exists N.
    by case: ifP => _ [<-]; exists N.
  + by rewrite -[get_node (mto N s) ix]/(get_node s ix); case: (n_out _) => [|[nc no|r st|bs] out] [<-]; exists N.
  + by case=> <-; exists N; split=> //; rewrite /mwriting /=; case: ifP.
  + rewrite [m_ocl (mto N s)]/= [m_cpu (mto N s)]/=; case: (m_ocl s) => [|i ocl].
      case: (m_cpu s) => [|i cpu] //; rewrite ![bind (Ok _) _]/=.
      case: ifP => _ H; last by case: H => <-; exists N.
      by have [pt H1 [<-]] := bind_Ok_inv H; exists N; split=> //; move: H1; rewrite /get_node /= => ->.
    rewrite ![bind (Ok _) _]/=.
    case: ifP => _ H; last by case: H => <-; exists N.
    by have [pt H1 [<-]] := bind_Ok_inv H; exists N; split=> //; move: H1; rewrite /get_node /= => ->.
  + by case=> <-; exists N.
  + by case=> <-; exists N; split=> //; rewrite /mwriting /=; case: ifP.
  + case: ifP => _.
      rewrite [m_store (mto N s)]/=; case: (m_store s) => [x|]; last by case=> <-; exists N.
      by rewrite -[get_node (mto N s) 0]/(get_node s 0); case: (flush_global _) => p [r st] [<-]; exists N.
    by case: ifP => _ [<-]; exists N.
  + by rewrite -[get_node (mto N s) ix]/(get_node s ix); case: (n_out _) => [|[nc no|r st|bs] out] [<-]; exists N.
  + case=> <-; exists (rcons N (File (m_dir s) st None)); split=> //=.
    * by rewrite EF rcons_cat.
    * by case: (N).
    * by rewrite /mto /mset_files /= rcons_cat.
  + case=> <-; exists (complete_last N r); split=> //=.
    * by rewrite EF complete_cat ?HN.
    * by rewrite /mto /mset_files /= complete_cat ?HN.
  + case: k {HN} => [b|d c|] [<-]; exists N => //; split=> //.
    by rewrite /mto /mset_files /mset_store /mgoto /mset_nodes /= EF (read_cat N (HF d)).
  + by rewrite -[get_node (mto N s) 0]/(get_node s 0); case: ifP => _ [<-]; exists N.
  + by case=> <-; exists N.
  + rewrite -[get_node (mto N s) 0]/(get_node s 0).
    by case: (t_phase _) => [||||b n|b|] [<-]; exists N.
  + by case=> <-; exists N.
- rewrite [m_nodes (mto N s)]/=; case: ifP => _ => [H|[<-]]; last by exists N.
  by rewrite -[get_node (mto N s) i]/(get_node s i); have [w -> [<-]] := bind_Ok_inv H; exists N.
- rewrite [m_nodes (mto N s)]/=; case: ifP => _ => [H|[<-]]; last by exists N.
  by rewrite -[get_node (mto N s) i]/(get_node s i); have [w -> [<-]] := bind_Ok_inv H; exists N.
by rewrite [m_nodes (mto N s)]/=; case: ifP => _ [<-]; exists N.
Qed.

Lemma mto_run N s acts s' : m_files s = F' ++ N -> (mwriting s -> ~~ nilp N) -> mrun contrib s acts = Ok s' ->
  exists N', m_files s' = F' ++ N' /\ mrun contrib (mto N s) acts = Ok (mto N' s').
Proof.
elim: acts N s => [|a acts IH] N s EF HN /=; first by case=> <-; exists N.
move=> H; have [s1 H1 H2] := bind_Ok_inv H; have [N1 [E1 H3 H4]] := mto_step EF HN H1.
by have [N' [E' H5]] := IH _ _ E1 H3 H2; exists N'; rewrite /mrun /= H4.
Qed.

Lemma sim_run kinds calls acts s' : run contrib (start kinds F' calls) acts = Ok s' ->
  exists s N, [/\ run contrib (start kinds F calls) acts = Ok s, files s = F ++ N, files s' = F' ++ N,
    s_pc s = s_pc s' & prog s = prog s'].
Proof.
move=> H; have [||N [E1 E2]] := @to_run [::] _ _ _ _ _ H => //; first by rewrite cats0.
by exists (to N s'), N; split=> //; move: E2; rewrite /to /with_files /= cats0.
Qed.

Lemma sim_mrun kinds calls acts s' : mrun contrib (mstart kinds F' calls) acts = Ok s' ->
  exists s N, [/\ mrun contrib (mstart kinds F calls) acts = Ok s, m_files s = F ++ N, m_files s' = F' ++ N,
    m_pc s = m_pc s' & m_prog s = m_prog s'].
Proof.
move=> H; have [||N [E1 E2]] := @mto_run [::] _ _ _ _ _ H => //; first by rewrite cats0.
by exists (mto N s'), N; split=> //; move: E2; rewrite /mto /mset_files /= cats0.
Qed.
End Sim.

(** ** Merged and swept directories *)
Lemma merge_loop_ok M W fuel d listing svs : M <= W -> holds d listing svs -> all (well_saved M) svs -> all (short fuel) svs ->
  exists r s, [/\ merge_loop M W fuel d listing [::] [::] = Ok (Some (r, s)), sum_of_saves svs s & blocks_of_saves svs r].
Proof.
move=> HMW Hh Hok Hsh; case: (Hh) => Hul Hu Hp Hsub Hall.
have [r [s [E Hr Hs Hk Hb]]] := merge_loopE HMW Hp Hok Hsh (r := [::]) (s := [::]) isT isT Hall.
have Hperm := sel_perm Hu Hp Hh.
exists r, s; split=> //.
  split=> // k; rewrite Hk add_0opt -(map_the_save (fun sv => st_find sv.2.2 k) Hu).
  exact/sum_opt_perm/perm_map.
split=> // b; rewrite Hb in_nil /= !(perm_has _ Hperm).
by rewrite (has_the_save (fun sv => b \in sv.2.1) Hu) (has_the_save (fun sv => sv.2.1 != [::]) Hu).
Qed.

Lemma well_savedE M (svs : seq saved) : all (well_saved M) svs = all (fun x => well_saved M ([::], x)) [seq sv.2 | sv <- svs].
Proof. by rewrite all_map. Qed.

Lemma saves_of_pairs (l : seq (seq block * store)) : [seq sv.2 | sv <- [seq ([::], x) : saved | x <- l]] = l.
Proof. by rewrite -map_comp map_id. Qed.

Lemma merged_similar M W fs n d0 ids cuts d listing N R T : M <= W ->
  all (fun x => well_saved M ([::], x)) (pairs fs n) ->
  fresh d0 -> replay n fs ids cuts d0 = Ok d -> perm_eq listing (names d) ->
  (forall fuel, N <= fuel -> merge_loop M W fuel d listing [::] [::] = Ok (Some (R, T))) ->
  similar M fs (rcons [seq f <- fs | f_dir f != n] (File n T (Some R))).
Proof.
move=> HMW Hws Hd0 Hrep Hl HRT m; set fs' := rcons _ _.
case: (m =P n) => [->|Hm]; last first.
  have E : [seq f <- fs' | f_dir f == m] = [seq f <- fs | f_dir f == m].
    rewrite filter_rcons /= eq_sym (introF eqP Hm) -filter_predI; apply: eq_filter => f /=.
    by case: (f_dir f =P m) => [->|//]; rewrite (introF eqP Hm).
  by rewrite /read_records /tables /pairs E.
have E : [seq f <- fs' | f_dir f == n] = [:: File n T (Some R)].
  rewrite filter_rcons /= eqxx -filter_predI (eq_filter (a2 := pred0)) ?filter_pred0 // => f /=.
  by rewrite andbN.
have [Hun Hpl _] := Hd0; have [svs [_ _ K3 K4]] := replay_ok Hun Hpl (fresh_holds Hd0) Hrep.
have Hw : all (well_saved M) svs by rewrite well_savedE (perm_all _ K4).
have [N' HN'] := short_exists svs.
have [r [s [E1 HT HR]]] := merge_loop_ok HMW (holds_perm Hl K3) Hw (HN' (maxn N N') (leq_maxr _ _)).
have [Er Es] : R = r /\ T = s by move: E1; rewrite HRT ?leq_maxl // => -[<- <-].
rewrite -{}Er -{}Es {r s E1} in HT HR.
have Hww : well_saved M ([::], (R, T)) := sum_well_saved [::] Hw HT HR.
split.
- rewrite (blocks_unique (read_records_saves K4) HR).
  have P : perm_eq [seq sv.2 | sv <- [:: (([::], (R, T)) : saved)]] (pairs fs' n) by rewrite /pairs E.
  apply: (@blocks_unique [:: (([::], (R, T)) : saved)]); last exact: (read_records_saves P).
  have [H1 H2] := HR; split=> // b /=; rewrite !orbF; case: (b =P [::]) => [->|_] /=; last by rewrite orbF.
  case ER: R => [|x R'] /=; first by [].
  rewrite orbT -ER H2 eqxx /=; apply/orP; right.
  have := H2 x; rewrite {1}ER mem_head => /esym/orP[/hasP[sv Hsv Hx]|/andP[_ //]].
  by apply/hasP; exists sv => //; apply: contraL Hx => /eqP->.
- move=> k; have [_ HT2] := HT; have -> : tables fs' n = [:: T] by rewrite /tables E.
  rewrite map_cons sum_opt_cons [sum_opt _ in RHS]/= add_opt0 HT2 tablesE -map_comp; apply: sum_opt_perm.
  by rewrite (map_comp (fun x => st_find x.2 k) (fun sv : saved => sv.2)) perm_sym; exact: perm_map.
by rewrite /pairs E /= Hww.
Qed.

Lemma swept_similar M fs (keep : file -> bool) : (forall f, List.In f fs -> f_record f <> None -> keep f) ->
  similar M fs [seq f <- fs | keep f].
Proof.
move=> H m.
have E1 : flatten [seq file_blocks f | f <- fs & f_dir f == m] = flatten [seq file_blocks f | f <- [seq f <- fs | keep f] & f_dir f == m].
  elim: fs H => [|f fs IH] H //=; have IH' := IH (fun g Hg => H g (or_intror Hg)).
  case Hk: (keep f); first by rewrite /=; case: ifP => _ //=; rewrite IH'.
  case: ifP => _ //=; rewrite IH' /file_blocks; case Er: (f_record f) => [r|] //.
  by move: Hk; rewrite H ?Er //; left.
have E2 : pairs fs m = pairs [seq f <- fs | keep f] m.
  rewrite /pairs; elim: fs H {E1} => [|f fs IH] H //=; have IH' := IH (fun g Hg => H g (or_intror Hg)).
  case Hk: (keep f); first by rewrite /=; case: ifP => _ //=; rewrite IH'.
  case: ifP => _ //=; rewrite IH'; case Er: (f_record f) => [r|] //.
  by move: Hk; rewrite H ?Er //; left.
by rewrite /read_records E1 !tablesE E2.
Qed.

(** ** Results *)
Section Results.
Variables (W S M : nat).
Variable flint : nat -> nat -> flint_field.
Variable is_squarefree : forall p r, seq (ff_field (flint p r)) -> bool.
Variable factor : nat -> nat -> seq nat -> seq (nat * nat).
Hypothesis HMW : 2 * M <= W.
Hypothesis HWS : W <= S.
Variable dir : seq char -> nat.

Local Notation sound := (sound M is_squarefree factor).
Local Notation proper := (proper W S M is_squarefree factor dir).
Local Notation contribution := (contribution W S is_squarefree factor).
Local Notation earlier := (earlier W S M is_squarefree factor dir).
Local Notation tidied := (tidied W S M is_squarefree factor dir).

Section Past.
Variables (fuel : nat) (cs : seq config) (jobs : seq job).
Hypothesis Hp : proper fuel cs.
Hypothesis Hj : jobs_of W dir fuel cs jobs.

Lemma job_in k bs kns : k < size cs -> computes W S is_squarefree factor fuel (nth c0 cs k) bs kns ->
  (dir (g_path (nth c0 cs k)), k, bs) \in jobs.
Proof.
move=> Hk HC; have [E _] := proj2 Hj k Hk.
by rewrite -(sound_job Hj Hk HC) -E -surjective_pairing mem_nth ?(proj1 Hj).
Qed.

Lemma well_saved_at fs k : k < size cs -> sound (nth c0 cs k) -> consistent (contribution fuel cs) jobs fs ->
  {subset recorded fs (nth j0 jobs k).1.1 <= (nth j0 jobs k).2} ->
  all (fun x => well_saved M ([::], x)) (pairs fs (dir (g_path (nth c0 cs k)))).
Proof.
move=> Hk Hso Hc Hsub; have [bs [kns [HR HC]]] := sound_computes HMW HWS Hso; have [_ He] := proj2 Hp k Hk.
have C := HC _ He; have Hin := job_in Hk C; have [E _] := proj2 Hj k Hk; rewrite E (sound_job Hj Hk C) in Hsub.
set l := pairs _ _; rewrite -[l]saves_of_pairs -well_savedE.
by apply: (saves_ok Hin HR C Hc Hsub erefl); rewrite saves_of_pairs.
Qed.

Lemma tidied_similar fs' : tidied cs fs' -> exists2 fs, earlier cs fs & similar M fs fs'.
Proof.
elim=> [F HF|F w o fuel' cs' calls e kinds acts s _ [G HG HS] Hm Hp' Ha Hrun|
  F w o fuel' cs' calls e kinds acts s _ [G HG HS] Hm Hp' Ha Hk Hrun|
  F i d0 ids cuts d listing N R T _ [G HG HS] Hi Hso c Hd0 Hrep Hl HRT|F keep _ [G HG HS] Hkeep].
- by exists F; [exact: EarlierOther|exact: similar_refl].
- have HF d : read_records G d = read_records F d by have [] := HS d.
  have [s1 [N [H1 E1 E2 _ _]]] := sim_run HF Hrun.
  exists (files s1); first exact: (EarlierThreads HG Hm Hp' Ha H1).
  by rewrite E1 E2; exact: similar_cat.
- have HF d : read_records G d = read_records F d by have [] := HS d.
  have [s1 [N [H1 E1 E2 _ _]]] := sim_mrun HF Hrun.
  exists (m_files s1); first exact: (EarlierMpi HG Hm Hp' Ha Hk H1).
  by rewrite E1 E2; exact: similar_cat.
- exists G => //; apply: (similar_trans HS); have HMW' := half_le HMW.
  apply: (merged_similar HMW' _ Hd0 Hrep Hl HRT); have [_ _] := HS (dir (g_path c)); apply.
  have [Hc Hr] := past_kept (past_of HMW HWS Hp Hj HG); apply: well_saved_at => //.
  by have [] := Hr (nth j0 jobs i); rewrite ?mem_nth ?(proj1 Hj).
by exists G => //; apply: (similar_trans HS); exact: swept_similar.
Qed.

Lemma similar_counted k fs fs' : k < size cs -> sound (nth c0 cs k) -> consistent (contribution fuel cs) jobs fs ->
  perm_eq (recorded fs (nth j0 jobs k).1.1) (nth j0 jobs k).2 ->
  add_up (contribution fuel cs) fs (nth j0 jobs k).1.1 (nth j0 jobs k).1.2 (nth j0 jobs k).2 ->
  similar M fs fs' -> counted W M flint dir (nth c0 cs k) fs'.
Proof.
move=> Hk Hso Hc H1 H2 HS d0 ids cuts d listing Hd0 Hrep Hl.
have Hws := well_saved_at Hk Hso Hc (fun b => etrans (esym (perm_mem H1 b))).
have [bs [kns [HR HC]]] := sound_computes HMW HWS Hso; have [_ He] := proj2 Hp k Hk; have C := HC _ He.
have Eb := sound_job Hj Hk C; have [E _] := proj2 Hj k Hk; rewrite E Eb /= in H1 H2.
have Hin := job_in Hk C; have [S1 S2 S3] := HS (dir (g_path (nth c0 cs k))).
have [Hun Hpl _] := Hd0; have [svs [_ _ K3 K4]] := replay_ok Hun Hpl (fresh_holds Hd0) Hrep.
have Hw : all (well_saved M) svs by rewrite well_savedE (perm_all _ K4); apply: S3; apply: Hws.
have [N HN] := short_exists svs; have Hho := holds_perm Hl K3; have HMW' := half_le HMW.
have [R [T [_ HT HR']]] := merge_ok HMW' Hho Hw (HN N (leqnn _)).
exists T, R, N; split; first by case: HT.
  move=> fuel' Hf; have [R1 [T1 [-> HT1 HR1]]] := merge_ok HMW' Hho Hw (HN _ Hf).
  by rewrite (sum_unique HT1 HT) (blocks_unique HR1 HR').
have HA : add_up (contribution fuel cs) fs' (dir (g_path (nth c0 cs k))) k bs by move=> k'; rewrite -S2.
move=> L emb HL k'; rewrite (saves_expected HR C HA K4 HT) /expected.
have [Ha Hff _] := Hso; by rewrite brute_forceE //; exact: (EndToEnd.odd_field Ha Hff).
Qed.
End Past.

Lemma tidy_gen (P : config -> seq file -> Prop) w fuel o cs calls e : main M W dir w fuel o = Ok (Ran cs calls e) -> proper fuel cs ->
  (forall jobs k F F', jobs_of W dir fuel cs jobs -> k < size cs -> sound (nth c0 cs k) -> consistent (contribution fuel cs) jobs F ->
    perm_eq (recorded F (nth j0 jobs k).1.1) (nth j0 jobs k).2 ->
    add_up (contribution fuel cs) F (nth j0 jobs k).1.1 (nth j0 jobs k).1.2 (nth j0 jobs k).2 ->
    similar M F F' -> P (nth c0 cs k) F') ->
  forall fs, tidied cs fs ->
  (forall kinds acts s, run (contribution fuel cs) (start kinds fs calls) acts = Ok s -> through e s ->
    forall i, promised e cs i -> sound (nth c0 cs i) -> P (nth c0 cs i) (files s)) /\
  (forall kinds acts s, 0 < size kinds -> mrun (contribution fuel cs) (mstart kinds fs calls) acts = Ok s -> mthrough e s ->
    forall i, promised e cs i -> sound (nth c0 cs i) -> P (nth c0 cs i) (m_files s)).
Proof.
move=> Hm Hp HP fs Hf; have [jobs [HJ _]] := main_jobs Hm; have [G HG HS] := tidied_similar Hp HJ Hf.
pose Q c F := forall F', similar M F F' -> P c F'.
have HF d : read_records G d = read_records fs d by have [] := HS d.
have [R1 R2] : _ /\ _ := @results_gen W S M flint is_squarefree factor HMW HWS dir Q w fuel o cs calls e Hm Hp
  (fun jobs k F HJ Hk Hso K1 K2 K3 F' => @HP jobs k F F' HJ Hk Hso K1 K2 K3) G HG.
split=> [kinds acts s Hrun Ht i Hi Hso|kinds acts s Hk Hrun Ht i Hi Hso].
  have [s1 [N [H1 E1 E2 E3 E4]]] := sim_run HF Hrun; rewrite E2.
  apply: (R1 kinds acts s1 H1 _ i Hi Hso); last by rewrite E1; exact: similar_cat.
  by move: Ht; rewrite /through E3 E4.
have [s1 [N [H1 E1 E2 E3 E4]]] := sim_mrun HF Hrun; rewrite E2.
apply: (R2 kinds acts s1 Hk H1 _ i Hi Hso); last by rewrite E1; exact: similar_cat.
by move: Ht; rewrite /mthrough E3 E4.
Qed.

Lemma tidy_results w fuel o cs calls e : main M W dir w fuel o = Ok (Ran cs calls e) -> proper fuel cs ->
  forall fs, tidied cs fs ->
  (forall kinds acts s, run (contribution fuel cs) (start kinds fs calls) acts = Ok s -> through e s ->
    forall i, promised e cs i -> sound (nth c0 cs i) -> counted W M flint dir (nth c0 cs i) (files s)) /\
  (forall kinds acts s, 0 < size kinds -> mrun (contribution fuel cs) (mstart kinds fs calls) acts = Ok s -> mthrough e s ->
    forall i, promised e cs i -> sound (nth c0 cs i) -> counted W M flint dir (nth c0 cs i) (m_files s)).
Proof.
move=> Hm Hp; apply: (tidy_gen Hm Hp) => jobs k F F' HJ Hk Hso K1 K2 K3; exact: (similar_counted Hp HJ Hk Hso K1 K2 K3).
Qed.
End Results.

(** ** Names can always be found *)
Definition numbered (n : nat) : seq (seq char) := [:: nseq n (48)].

Lemma replay_named n fs cuts d : (forall f, f \in names d -> size fs <= size f.1) ->
  exists d', replay n fs numbered cuts d = Ok d'.
Proof.
elim: fs d => [|f fs IH] d Hd /=; first by exists d.
have Hw g t d1 : size g.1 = size fs -> (forall f, f \in names d1 -> size fs <= size f.1) ->
    forall f, f \in names (write_file d1 g t) -> size fs <= size f.1.
  by move=> Hg H1 h; rewrite mem_write => /orP[/eqP->|/H1//]; rewrite Hg.
have Hd' g : g \in names d -> size fs <= size g.1 by move/Hd/ltnW.
case: (f_dir f == n); last exact: IH.
have Hid x : is_regular d (nseq (size fs) (48), x) = false.
  by apply/negbTE/negP => /regular_name/Hd /=; rewrite size_nseq ltnn.
rewrite /write_pair /new_stem /= !Hid /=.
case: (f_record f) => [r|]; apply: IH; last by apply: Hw => //=; rewrite size_nseq.
by apply: (Hw); [rewrite /= size_nseq|apply: (Hw) => //=; rewrite size_nseq].
Qed.

Lemma replay_exists n fs cuts : exists ids d, replay n fs ids cuts [::] = Ok d.
Proof. by have [//|d H] := @replay_named n fs cuts [::]; exists numbered, d. Qed.

Section AnyTime.
Variables (W S M : nat).
Variable flint : nat -> nat -> flint_field.
Variable is_squarefree : forall p r, seq (ff_field (flint p r)) -> bool.
Variable factor : nat -> nat -> seq nat -> seq (nat * nat).
Hypothesis HMW : 2 * M <= W.
Hypothesis HWS : W <= S.

Lemma tidy_any_time dir w fuel o cs calls e : main M W dir w fuel o = Ok (Ran cs calls e) ->
  proper W S M is_squarefree factor dir fuel cs ->
  forall fs i d0 ids cuts d listing, tidied W S M is_squarefree factor dir cs fs -> i < size cs ->
  sound M is_squarefree factor (nth c0 cs i) ->
  let n := dir (g_path (nth c0 cs i)) in
  fresh d0 -> replay n fs ids cuts d0 = Ok d -> perm_eq listing (names d) ->
  exists N R T, [/\ forall fuel, N <= fuel -> merge_loop M W fuel d listing [::] [::] = Ok (Some (R, T)),
    forall b, b != [::] -> (b \in R) = (b \in recorded fs n),
    forall k, st_find T k = sum_opt [seq st_find st k | st <- tables fs n] &
    tidied W S M is_squarefree factor dir cs (rcons [seq f <- fs | f_dir f != n] (File n T (Some R)))].
Proof.
move=> Hm Hp fs i d0 ids cuts d listing Hf Hi Hso n Hd0 Hrep Hl.
have [jobs [HJ _]] := main_jobs Hm; have [G HG HS] := tidied_similar HMW HWS Hp HJ Hf.
have [Hun Hpl _] := Hd0; have [svs [_ _ K3 K4]] := replay_ok Hun Hpl (fresh_holds Hd0) Hrep.
have Hw : all (well_saved M) svs.
  rewrite well_savedE (perm_all _ K4); have [_ _] := HS n; apply.
  have [Hc Hr] := past_kept (past_of HMW HWS Hp HJ HG); apply: (well_saved_at HMW HWS Hp HJ) => //.
  by have [] := Hr (nth j0 jobs i); rewrite ?mem_nth ?(proj1 HJ).
have [N HN] := short_exists svs; have Hho := holds_perm Hl K3; have HMW' := half_le HMW.
have [R [T [_ HT HR]]] := merge_loop_ok HMW' Hho Hw (HN N (leqnn _)).
have HE fuel' : N <= fuel' -> merge_loop M W fuel' d listing [::] [::] = Ok (Some (R, T)).
  move=> H; have [R' [T' [-> HT' HR']]] := merge_loop_ok HMW' Hho Hw (HN _ H).
  by rewrite (sum_unique HT' HT) (blocks_unique HR' HR).
exists N, R, T; split=> //.
- move=> b Hb; case: HR => _ ->; rewrite (negbTE Hb) /= orbF recordedE.
  rewrite -(has_map (fun sv : saved => sv.2) (fun x => b \in x.1)) (eq_has_r (perm_mem K4)).
  apply/hasP/flattenP => [[x Hx Hbx]|[r /mapP[x Hx ->] Hbx]]; last by exists x.
  by exists x.1 => //; exact: map_f.
- move=> k; case: HT => _ ->; rewrite tablesE -map_comp; apply: sum_opt_perm.
  by rewrite (map_comp (fun x => st_find x.2 k) (fun sv : saved => sv.2)); exact: perm_map.
exact: (TidiedMerge Hf Hi Hso Hd0 Hrep Hl HE).
Qed.
End AnyTime.
