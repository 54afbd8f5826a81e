(** Executions of programs without the destructor, and files left by runs with other configurations. *)
Set Warnings "-notation-overridden,-ambiguous-paths".
From mathcomp Require Import all_ssreflect zify.
From Verif Require Import Res ResFacts OMap OMapFacts Store StoreSpec StoreProofs Pool Standalone StandaloneSpec Account
  StandaloneProofs StandaloneTheorems Mpi MpiSpec MpiProofs MpiTheorems.

Set Implicit Arguments.
Unset Strict Implicit.
Unset Printing Implicit Defensive.

(** ** More calls at the end *)
Section More.
Variable contrib : nat -> block -> store.
Variable Q : seq cmd.

Definition more (s : state) : state := with_prog s (prog s ++ Q).

Lemma more_finished s bs s' : foldM finished_block s bs = Ok s' -> foldM finished_block (more s) bs = Ok (more s').
Proof.
elim: bs s => [|b bs IH] s /=; first by case=> <-.
rewrite {1 3}/finished_block [assigned (more s)]/=; case: os_mem => //= H; exact: (IH _ H).
Qed.

Lemma more_flush s s' : flush_finished_blocks s = Ok s' -> flush_finished_blocks (more s) = Ok (more s').
Proof.
rewrite /flush_finished_blocks [s_proc (more s)]/=; case: (flush_finished _) => p bs H.
exact: (more_finished H).
Qed.

Lemma more_step s a s' : step contrib s a = Ok s' -> step contrib (more s) a = Ok (more s') \/ s' = s.
Proof.
case: a => [save|t|t] /=.
- rewrite /main_step [s_pc (more s)]/=.
  case: (s_pc s) => [|b|b|b|b|b|t b|k|k|k r st|k r|k|t|t|t|] //=.
  + by case: (prog s) => [|[d c|b|] cs] /= [<-]; [right|left|left|left].
  + by case=> <-; left.
  + by case: (file_store s) => [[d r]|] // [<-]; left.
  + by move=> H; have [s1 H1 [<-]] := bind_Ok_inv H; rewrite (more_flush H1); left.
  + by case: (flush_ready _) => p [c o] [<-]; left.
  + case: ifP => // _ H; have [pt H1 [<-]] := bind_Ok_inv H; rewrite H1 /=.
    by case: (nocl s); left.
  + by case=> <-; left.
  + move=> H; have [s1 H1 [<-]] := bind_Ok_inv H; rewrite (more_flush H1); left => /=.
    by case: (assigned s1).
  + case: (file_store s) => [x|]; last by case=> <-; left.
    by case=> <-; left.
  + by case=> <-; left.
  + by case=> <-; left.
  + by case: k => [b|d c|] [<-]; left.
  + by case: ifP => _ [<-]; left.
  + by case=> <-; left.
  + by case: (t_phase _) => [||||b n|b|] [<-]; left.
  + by case=> <-; right.
- by move=> H; have [p -> [<-]] := bind_Ok_inv H; left.
by case=> <-; left.
Qed.

Lemma more_run s acts s' : run contrib s acts = Ok s' -> exists acts', run contrib (more s) acts' = Ok (more s').
Proof.
elim: acts s => [|a acts IH] s /=; first by case=> <-; exists [::].
move=> H; have [s1 H1 H2] := bind_Ok_inv H; have [acts' H3] := IH _ H2.
case: (more_step H1) => [H4|E]; last by exists acts'; rewrite -E.
by exists (a :: acts'); rewrite /run /= H4.
Qed.

Definition mmore (s : mstate) : mstate := mset_prog s (m_prog s ++ Q).

Lemma mmore_finished i s bs s' : foldM (mfinished i) s bs = Ok s' -> foldM (mfinished i) (mmore s) bs = Ok (mmore s').
Proof.
elim: bs s => [|b bs IH] s /=; first by case=> <-.
rewrite {1 3}/mfinished [m_asg (mmore s)]/=; case: os_mem => //= H; exact: (IH _ H).
Qed.

Lemma mmore_step s a s' : mstep contrib s a = Ok s' -> mstep contrib (mmore s) a = Ok (mmore s') \/ s' = s.
Proof.
case: a => [save|i|i t|i t]; rewrite /mstep.
- rewrite /master_step [m_pc (mmore s)]/= [m_nodes (mmore s)]/=.
  case: (m_pc s) => [|b|b|ix k|ix k|ix b|ix b|b|b|t b|k|ix k|ix k|ix k r st|ix k r|k|t|t|t|].
  + by rewrite [m_prog (mmore s)]/=; case: (m_prog s) => [|[d c|b|] cs] /= [<-]; [right|left|left|left].
  + by case=> <-; left.
  + by rewrite /=; case: (m_store s) => [[d r]|] // [<-]; left.
  + case: ifP => _.
      move=> H; have [s1 H1 [<-]] := bind_Ok_inv H.
      by have := mmore_finished H1; rewrite /flush_finished /= => ->; left.
    by case: ifP => _ [<-]; left.
  + rewrite -[get_node (mmore s) ix]/(get_node s ix); case: (n_out _) => [|[nc no|r st|bs] out]; [by case=> <-; left|by case=> <-; left|by case=> <-; left|].
    move=> H; have [s1 H1 [<-]] := bind_Ok_inv H.
    by rewrite (mmore_finished H1); left.
  + case: ifP => _.
      by rewrite -[get_node (mmore s) 0]/(get_node s 0); case: (flush_ready _) => p [nc no] [<-]; left.
    by case: ifP => _ [<-]; left.
  + by rewrite -[get_node (mmore s) ix]/(get_node s ix); case: (n_out _) => [|[nc no|r st|bs] out] [<-]; left.
  + by case=> <-; left.
  + rewrite [m_ocl (mmore s)]/= [m_cpu (mmore s)]/=; case: (m_ocl s) => [|i ocl].
      case: (m_cpu s) => [|i cpu] //; rewrite [bind _ _]/= [X in X = _ \/ _]/=.
      case: ifP => _ H; last by case: H => <-; left.
      by have [pt H1 [<-]] := bind_Ok_inv H; rewrite H1; left.
    rewrite [bind _ _]/= [X in X = _ \/ _]/=.
    case: ifP => _ H; last by case: H => <-; left.
    by have [pt H1 [<-]] := bind_Ok_inv H; rewrite H1; left.
  + by case=> <-; left.
  + by case=> <-; left.
  + case: ifP => _.
      rewrite [m_store (mmore s)]/=; case: (m_store s) => [x|]; last by case=> <-; left.
      by rewrite -[get_node (mmore s) 0]/(get_node s 0); case: (flush_global _) => p [r st] [<-]; left.
    by case: ifP => _ [<-]; left.
  + by rewrite -[get_node (mmore s) ix]/(get_node s ix); case: (n_out _) => [|[nc no|r st|bs] out] [<-]; left.
  + by case=> <-; left.
  + by case=> <-; left.
  + by case: k => [b|d c|] [<-]; left.
  + by rewrite -[get_node (mmore s) 0]/(get_node s 0); case: ifP => _ [<-]; left.
  + by case=> <-; left.
  + rewrite -[get_node (mmore s) 0]/(get_node s 0).
    by case: (t_phase _) => [||||b n|b|] [<-]; left.
  + by case=> <-; right.
- rewrite [m_nodes (mmore s)]/=; case: ifP => _ => [H|[<-]]; last by right.
  by rewrite -[get_node (mmore s) i]/(get_node s i); have [w -> [<-]] := bind_Ok_inv H; left.
- rewrite [m_nodes (mmore s)]/=; case: ifP => _ => [H|[<-]]; last by right.
  by rewrite -[get_node (mmore s) i]/(get_node s i); have [w -> [<-]] := bind_Ok_inv H; left.
by rewrite [m_nodes (mmore s)]/=; case: ifP => _ [<-]; [left|right].
Qed.

Lemma mmore_run s acts s' : mrun contrib s acts = Ok s' -> exists acts', mrun contrib (mmore s) acts' = Ok (mmore s').
Proof.
elim: acts s => [|a acts IH] s /=; first by case=> <-; exists [::].
move=> H; have [s1 H1 H2] := bind_Ok_inv H; have [acts' H3] := IH _ H2.
case: (mmore_step H1) => [H4|E]; last by exists acts'; rewrite -E.
by exists (a :: acts'); rewrite /mrun /= H4.
Qed.
End More.

(** ** Runs with other configurations *)

(** The blocks of [j'] are blocks of the job with the same directory, and contribute the same. *)
Definition fits (contrib : nat -> block -> store) (jobs : seq job) (contrib' : nat -> block -> store) (j' : job) : Prop :=
  forall j, j \in jobs -> j.1.1 = j'.1.1 ->
    {subset j'.2 <= j.2} /\ forall b, b \in j'.2 -> contrib' j'.1.2 b = contrib j.1.2 b.

Inductive past_runs (contrib : nat -> block -> store) (jobs : seq job) : seq file -> Prop :=
  | PastStart fs : (forall f, List.In f fs -> f_dir f \notin [seq j.1.1 | j <- jobs]) -> past_runs contrib jobs fs
  | PastThreads fs contrib' jobs' kinds acts s : past_runs contrib jobs fs -> (forall c b, is_map (contrib' c b)) ->
      jobs_wf jobs' -> (forall j', j' \in jobs' -> fits contrib jobs contrib' j') ->
      run contrib' (start kinds fs (main_program jobs')) acts = Ok s -> past_runs contrib jobs (files s)
  | PastMpi fs contrib' jobs' kinds acts s : past_runs contrib jobs fs -> (forall c b, is_map (contrib' c b)) ->
      jobs_wf jobs' -> (forall j', j' \in jobs' -> fits contrib jobs contrib' j') -> 0 < size kinds ->
      mrun contrib' (mstart kinds fs (main_program jobs')) acts = Ok s -> past_runs contrib jobs (m_files s).

Section Past.
Variable contrib : nat -> block -> store.
Variable jobs : seq job.
Hypothesis Hjobs : jobs_wf jobs.

(** What is known about the files. *)
Definition kept (fs : seq file) : Prop := consistent contrib jobs fs /\
  forall j, j \in jobs -> uniq (recorded fs j.1.1) /\ {subset recorded fs j.1.1 <= j.2}.

Lemma recorded_nil fs d : (forall f, List.In f fs -> f_record f <> None -> f_dir f <> d) -> recorded fs d = [::].
Proof.
rewrite /recorded; elim: fs => [|f fs IH] //= H; have E := IH (fun f' Hf => H f' (or_intror Hf)).
case: eqP => //= Ed; rewrite E cats0; case Er: (f_record f) => [r|] //.
by have := H f (or_introl erefl); rewrite Er Ed => /(_ _ erefl); case.
Qed.

Lemma kept_more contrib' (jobs' : seq job) F N : kept F -> (forall j', j' \in jobs' -> fits contrib jobs contrib' j') ->
  (forall j', j' \in jobs' -> uniq (recorded N j'.1.1) /\ {subset recorded N j'.1.1 <= remaining F j'}) ->
  (forall f r, List.In f N -> f_record f = Some r ->
    exists2 j, j \in jobs' & [/\ f_dir f = j.1.1, uniq r, {subset r <= remaining F j} & sums contrib' j.1.2 r (f_store f)]) ->
  kept (F ++ N).
Proof.
move=> [K1 K2] Hfit HN Hf; split.
  move=> f r j /List.in_app_iff[|] Hin Hr Hj Ed; first exact: K1 Hin Hr Hj Ed.
  have [j' Hj' [Ed' _ Hsub [Hm Hs]]] := Hf f r Hin Hr; split=> // k; rewrite Hs; congr sum_opt.
  have [_ H] := Hfit _ Hj' j Hj (etrans (esym Ed) Ed'); apply/eq_in_map => b /Hsub.
  by rewrite mem_filter => /andP[_ /H ->].
move=> j Hj; have [H1 H2] := K2 j Hj.
case Hd: (j.1.1 \in [seq j'.1.1 | j' <- jobs']).
  case/mapP: Hd => j' Hj' Ed; have [H3 H4] := HN j' Hj'; rewrite -Ed in H3 H4.
  apply: extend_ok => // b /H4; rewrite !mem_filter Ed => /andP[-> Hb] /=.
  by have [H _] := Hfit _ Hj' j Hj Ed; exact: H.
rewrite recorded_cat [recorded N _]recorded_nil ?cats0 // => f Hin Hr E.
case Er: (f_record f) Hr => [r|] // _; have [j' Hj' [Ed _ _ _]] := Hf f r Hin Er.
by move: Hd; rewrite -E Ed => /mapP[]; exists j'.
Qed.

Lemma past_kept fs : past_runs contrib jobs fs -> kept fs.
Proof.
elim=> [F HF|F contrib' jobs' kinds acts s HF IH Hm Hw Hfit Hrun|F contrib' jobs' kinds acts s HF IH Hm Hw Hfit Hk Hrun].
- have H d : d \in [seq j.1.1 | j <- jobs] -> recorded F d = [::].
    by move=> Hd; apply: recorded_nil => f /HF Hf _ E; move: Hf; rewrite E Hd.
  split=> [f r j /HF Hf _ Hj E|j Hj]; first by move: Hf; rewrite E (map_f (fun j : job => j.1.1) Hj).
  by rewrite H // (map_f (fun j : job => j.1.1) Hj).
- have [N EN HN] := consistent_ok Hm Hw Hrun; rewrite EN; apply: (kept_more IH Hfit) => // j' Hj'.
  by have [N' EN' HN'] := new_records Hm Hw Hrun Hj'; rewrite -(new_filesE EN) (new_filesE EN').
have [N EN HN] := mconsistent_ok Hm Hw Hk Hrun; rewrite EN; apply: (kept_more IH Hfit) => // j' Hj'.
by have [N' EN' HN'] := mnew_records Hm Hw Hk Hrun Hj'; rewrite -(mfilesE EN) (mfilesE EN').
Qed.

Lemma kept_blocks fs j : kept fs -> j \in jobs -> perm_eq (recorded fs j.1.1 ++ remaining fs j) j.2.
Proof.
move=> [H1 H2] Hj; have [H3 H4] := H2 j Hj.
have Hu : uniq j.2 by have /and3P[_ _ /allP/(_ j Hj)/andP[]] := Hjobs.
apply: uniq_perm => //.
  rewrite cat_uniq H3 filter_uniq // andbT; apply/hasPn => b; by rewrite mem_filter => /andP[].
move=> b; rewrite mem_cat mem_filter; case Hb: (b \in recorded fs _) => //=.
by rewrite (H4 _ Hb).
Qed.

(** A complete directory. *)
Lemma kept_complete F N j : kept F -> kept (F ++ N) -> j \in jobs -> perm_eq (recorded N j.1.1) (remaining F j) ->
  perm_eq (recorded (F ++ N) j.1.1) j.2 /\ add_up contrib (F ++ N) j.1.1 j.1.2 j.2.
Proof.
move=> K K' Hj Hp.
have H : perm_eq (recorded (F ++ N) j.1.1) j.2.
  rewrite recorded_cat; apply: perm_trans (kept_blocks K Hj); by rewrite perm_cat2l.
split=> //; apply: add_up_perm H _; apply: add_up_recorded => f r Hf Ed Hr.
by have [K1 _] := K'; exact: K1 Hf Hr Hj Ed.
Qed.

Hypothesis Hmap : forall c b, is_map (contrib c b).

Lemma self_fits j' : j' \in jobs -> fits contrib jobs contrib j'.
Proof. by move=> Hj' j Hj E; rewrite (job_unique Hjobs Hj Hj' E); split. Qed.

Lemma left_complete fs kinds acts s earlier j later : past_runs contrib jobs fs ->
  run contrib (start kinds fs (main_program jobs)) acts = Ok s -> jobs = earlier ++ j :: later -> left s later ->
  [/\ kept (files s), perm_eq (recorded (files s) j.1.1) j.2 & add_up contrib (files s) j.1.1 j.1.2 j.2].
Proof.
move=> Hp Hrun EJ HL; have K := past_kept Hp.
have K' := past_kept (PastThreads Hp Hmap Hjobs self_fits Hrun).
have [N EN [_ _ H]] := left_ok Hmap Hjobs Hrun EJ HL.
have Hj : j \in jobs by rewrite EJ mem_cat inE eqxx orbT.
rewrite EN in K' *; have [H1 H2] := kept_complete K K' Hj H; by split.
Qed.

Lemma mleft_complete fs kinds acts s earlier j later : past_runs contrib jobs fs -> 0 < size kinds ->
  mrun contrib (mstart kinds fs (main_program jobs)) acts = Ok s -> jobs = earlier ++ j :: later -> mleft s later ->
  [/\ kept (m_files s), perm_eq (recorded (m_files s) j.1.1) j.2 & add_up contrib (m_files s) j.1.1 j.1.2 j.2].
Proof.
move=> Hp Hk Hrun EJ HL; have K := past_kept Hp.
have K' := past_kept (PastMpi Hp Hmap Hjobs self_fits Hk Hrun).
have [N EN [_ _ _ H]] := mleft_ok Hmap Hjobs Hk Hrun EJ HL.
have Hj : j \in jobs by rewrite EJ mem_cat inE eqxx orbT.
rewrite EN in K' *; have [H1 H2] := kept_complete K K' Hj H; by split.
Qed.

(** New files are in the directories of the jobs. *)
Lemma started_dir past d c bs fut x : jobs = past ++ (d, c, bs) :: fut ->
  x \in rcons [seq j.1 | j <- past] (d, c) -> x.1 \in [seq j.1.1 | j <- jobs].
Proof.
move=> E; rewrite mem_rcons inE => /orP[/eqP->|/mapP[j Hj ->]].
  by apply/mapP; exists (d, c, bs); rewrite // E mem_cat inE eqxx orbT.
by apply/mapP; exists j; rewrite // E mem_cat Hj.
Qed.

Lemma new_dirs fs kinds acts s : run contrib (start kinds fs (main_program jobs)) acts = Ok s ->
  exists2 N, files s = fs ++ N & forall f, List.In f N -> f_dir f \in [seq j.1.1 | j <- jobs].
Proof.
move=> Hrun; have [N [past [d [c [P [rest [fut I]]]]]]] := reached Hmap Hjobs Hrun.
exists N; first exact: (i_files I).
move=> f Hf; have [_ _ _ /(_ f Hf)[c' [Hin _]]] := i_track I.
case: (i_link I) => [L1 L2 L3 L4 L5 L6 L7|L1 _ _]; first by rewrite L7 in Hf.
exact: (started_dir L1 Hin).
Qed.

Lemma mnew_dirs fs kinds acts s : 0 < size kinds -> mrun contrib (mstart kinds fs (main_program jobs)) acts = Ok s ->
  exists2 N, m_files s = fs ++ N & forall f, List.In f N -> f_dir f \in [seq j.1.1 | j <- jobs].
Proof.
move=> Hk Hrun; have [N [past [d [c [P [rest [fut I]]]]]]] := mreached Hmap Hjobs Hk Hrun.
exists N; first exact: (j_files I).
move=> f Hf; have [_ _ _ _ /(_ f Hf)[c' [Hin _]]] := j_track I.
case: (j_link I) => [L1 L2 L3 L4 L5 L6|L1 _]; first by rewrite L6 in Hf.
exact: (started_dir L1 Hin).
Qed.

(** The calls of the jobs without the destructor. *)
Definition job_calls : seq cmd := flatten [seq CConfig j.1.1 j.1.2 :: [seq CAssign b | b <- j.2] | j <- jobs].

Lemma assigns_end rest fut : [:: CDestroy] = assigns rest fut -> fut = [::].
Proof. by case: rest fut => [|b rest] [|j fut]. Qed.

Lemma last_dir past d c P rest earlier j later : jobs = past ++ [:: (d, c, P ++ rest)] ->
  jobs = earlier ++ j :: later -> later <> [::] -> d \in [seq i.1.1 | i <- later].
Proof.
move=> E1 E2; case: (lastP later) E2 => [|l i] // E2 _; apply/mapP; exists (d, c, P ++ rest) => //.
rewrite mem_rcons inE; apply/orP; left; apply/eqP.
by have := congr1 (last j) E2; rewrite E1 !last_cat last_cons last_rcons.
Qed.

Lemma killed_left fs kinds acts s earlier j later : run contrib (start kinds fs job_calls) acts = Ok s ->
  s_pc s = PNext -> prog s = [::] -> jobs = earlier ++ j :: later -> later <> [::] ->
  exists acts', run contrib (start kinds fs (main_program jobs)) acts' = Ok (more [:: CDestroy] s) /\
    left (more [:: CDestroy] s) later.
Proof.
move=> Hrun Hpc Hpr EJ Hl; have [acts' H] := more_run [:: CDestroy] Hrun.
exists acts'; split; first exact: H.
have [N [past [d [c [P [rest [fut I]]]]]]] := reached Hmap Hjobs H; right.
have := i_prog I; rewrite /todo [s_pc _]/= Hpc [prog _]/= Hpr => /assigns_end Ef.
case: (i_link I) => [L1|L1 L2 _]; first by move: EJ; rewrite L1 Ef; case: (earlier).
by rewrite [file_store _]/= in L2; rewrite [file_store _]/= L2; rewrite Ef in L1; exact: last_dir L1 EJ Hl.
Qed.

Lemma mkilled_left fs kinds acts s earlier j later : 0 < size kinds ->
  mrun contrib (mstart kinds fs job_calls) acts = Ok s ->
  m_pc s = QNext -> m_prog s = [::] -> jobs = earlier ++ j :: later -> later <> [::] ->
  exists acts', mrun contrib (mstart kinds fs (main_program jobs)) acts' = Ok (mmore [:: CDestroy] s) /\
    mleft (mmore [:: CDestroy] s) later.
Proof.
move=> Hk Hrun Hpc Hpr EJ Hl; have [acts' H] := mmore_run [:: CDestroy] Hrun.
exists acts'; split; first exact: H.
have [N [past [d [c [P [rest [fut I]]]]]]] := mreached Hmap Hjobs Hk H; right.
have := j_prog I; rewrite [m_pc _]/= Hpc [m_prog _]/= Hpr => /assigns_end Ef.
case: (j_link I) => [L1|L1 L2]; first by move: EJ; rewrite L1 Ef; case: (earlier).
by rewrite [m_store _]/= in L2; rewrite [m_store _]/= L2; rewrite Ef in L1; exact: last_dir L1 EJ Hl.
Qed.
End Past.
