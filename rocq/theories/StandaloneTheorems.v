(** Consequences of the invariant of the standalone worker pool. *)
Set Warnings "-notation-overridden,-ambiguous-paths".
From mathcomp Require Import all_ssreflect zify.
From Verif Require Import Res ResFacts OMap OMapFacts OMapPerm Store StoreSpec StoreProofs FilesProofs
  Pool PoolProofs Standalone StandaloneSpec Account StandaloneProofs.

Set Implicit Arguments.
Unset Strict Implicit.
Unset Printing Implicit Defensive.

Section Theorems.
Variable contrib : nat -> block -> store.
Hypothesis Hmap : forall c b, is_map (contrib c b).

Lemma held_ok p g c t : proc_ok p g c -> t < size (p_threads p) ->
  held (nth thread0 (p_threads p) t) = [seq bt.1 | bt <- p_busy p & bt.2 == t].
Proof.
move=> Hok Ht; have [H1 _ _] := ok_thr Hok Ht.
have -> : held (nth thread0 (p_threads p) t) = holding (nth thread0 (p_threads p) t).
  by rewrite /held /holding /todo_of /waiting map_cat -catA; case: (t_phase _) => [||||b n|b|] //=; rewrite ?cats0.
have Hu : uniq [seq bt.2 | bt <- p_busy p] by have := all_uniq Hok; rewrite !cat_uniq => /and3P[_ _ /and3P[]].
case: (holding _) H1 => [|b [|b' l]] //= H.
  rewrite (eq_in_filter (a2 := pred0)) ?filter_pred0 // => bt Hbt /=.
  by apply/negP => /eqP E; move/negP: H; apply; rewrite -E; exact: (map_f snd Hbt).
elim: (p_busy p) H Hu => [|[b1 t1] l IH] //=; rewrite inE xpair_eqE => /orP[/andP[/eqP<- /eqP<-]|Hin] /andP[Hn Hu].
  rewrite eqxx /=; congr (_ :: _).
  rewrite (eq_in_filter (a2 := pred0)) ?filter_pred0 // => bt Hbt /=.
  by apply/negP => /eqP E; move/negP: Hn; apply; rewrite -E; exact: (map_f snd Hbt).
case: eqP => [E|_]; last exact: IH.
by move/negP: Hn; case; rewrite E; exact: (map_f snd Hin).
Qed.

Section Jobs.
Variables (jobs : seq job) (F0 : seq file).
Hypothesis Hjobs : jobs_wf jobs.

Lemma threads_ok kinds acts :
  exists s, [/\ run contrib (start kinds F0 (main_program jobs)) acts = Ok s, partitioned (s_proc s) &
    forall t, t < size (p_threads (s_proc s)) ->
      held (nth thread0 (p_threads (s_proc s)) t) = [seq bt.1 | bt <- p_busy (s_proc s) & bt.2 == t]].
Proof.
have [s H1 [N [past [d [c [P [rest [fut I]]]]]]]] := run_ok Hmap Hjobs acts (start_good contrib jobs F0 kinds).
exists s; split=> //; first exact: (ok_perm (i_ok I)).
by move=> t Ht; exact: (held_ok (i_ok I)).
Qed.

Section Run.
Variables (kinds : seq bool) (acts : seq action) (s : state).
Hypothesis Hrun : run contrib (start kinds F0 (main_program jobs)) acts = Ok s.

Lemma reached : good contrib jobs F0 s.
Proof. by have [s' H1 H2] := run_ok Hmap Hjobs acts (start_good contrib jobs F0 kinds); move: H1; rewrite Hrun => -[->]. Qed.

Lemma remaining_uniq j : j \in jobs -> uniq (remaining F0 j).
Proof. by move=> Hj; apply: filter_uniq; have /and3P[_ _ /allP/(_ j Hj)/andP[]] := Hjobs. Qed.

Lemma remaining_take d c P rest :
  remaining F0 (d, c, P) = take (size (remaining F0 (d, c, P))) (remaining F0 (d, c, P ++ rest)).
Proof. by rewrite /remaining /= filter_cat take_size_cat. Qed.

Variant cases (s : state) (N : seq file) (j : job) : Prop :=
  | IsPast of past_ok F0 s N j & cur_dir s <> j.1.1 \/ unsaved s j.1.1 = [::]
  | IsCur c P rest of j = (cur_dir s, c, P ++ rest) & file_store s = Some (j.1.1, read_records F0 j.1.1) &
      acct contrib (s_proc s) c (remaining F0 (j.1.1, c, P)) (at_dir (reported s) j.1.1)
        (recorded N j.1.1 ++ infl (s_pc s)) & at_dir (handed s) j.1.1 = remaining F0 (j.1.1, c, P)
  | IsFuture of at_dir (handed s) j.1.1 = [::] & at_dir (reported s) j.1.1 = [::] &
      done_at (s_proc s) j.1.2 = [::] & recorded N j.1.1 = [::].

Lemma job_cases j : j \in jobs -> exists2 N, files s = F0 ++ N & cases s N j.
Proof.
move=> Hj; have [N [past [d [c [P [rest [fut [I1 I2 I3 I4 I5 I6 I7 I8 I9 I10 I11 I12]]]]]]]] := reached.
exists N => //; case: I1 => [L1 L2 L3 L4 L5 L6 L7 L8 L9 L10|L1 L2 L3].
  by apply: IsFuture; rewrite /at_dir /done_at ?L7 ?L8 ?L9 ?L10.
have Ecd : cur_dir s = d by rewrite /cur_dir L2.
move: Hj; rewrite L1 mem_cat inE => /or3P[Hj|/eqP->|Hj].
- apply: IsPast; first exact: I11.
  by left; rewrite Ecd; apply/eqP; exact: (job_dir Hjobs L1 Hj).
- by apply: (@IsCur _ _ _ c P rest); rewrite /= ?Ecd.
have [T1 T2 T3 T4] := I12.
have Hd x : x \in [seq y.1 | y <- rcons [seq j.1 | j <- past] (d, c)] -> x != j.1.1.
  have /and3P[H _ _] := Hjobs; move: H; rewrite L1 map_cat cat_uniq /= => /and4P[_ /norP[_ /hasPn H] Hn _].
  rewrite map_rcons mem_rcons inE => /orP[/eqP-> /=|/mapP[y /mapP[j' Hj' ->] ->]].
    apply/eqP => E; move/negP: Hn; apply; rewrite E; exact: (map_f (fun j : job => j.1.1) Hj).
  apply/eqP => E; have := H j.1.1 (map_f (fun j : job => j.1.1) Hj).
  by rewrite -E => /negP; apply; exact: (map_f (fun j : job => j.1.1) Hj').
have Hc x : x \in [seq Some y.2 | y <- rcons [seq j.1 | j <- past] (d, c)] -> x != Some j.1.2.
  have /and3P[_ H _] := Hjobs; move: H; rewrite L1 map_cat cat_uniq /= => /and4P[_ /norP[_ /hasPn H] Hn _].
  rewrite map_rcons mem_rcons inE => /orP[/eqP-> /=|/mapP[y /mapP[j' Hj' ->] ->]].
    apply/eqP => -[E]; move/negP: Hn; apply; rewrite E; exact: (map_f (fun j : job => j.1.2) Hj).
  apply/eqP => -[E]; have := H j.1.2 (map_f (fun j : job => j.1.2) Hj).
  by rewrite -E => /negP; apply; exact: (map_f (fun j : job => j.1.2) Hj').
have at0 l : all (fun x => x.1 \in [seq y.1 | y <- rcons [seq j.1 | j <- past] (d, c)]) l -> at_dir l j.1.1 = [::].
  move=> /allP H; rewrite /at_dir (eq_in_filter (a2 := pred0)) ?filter_pred0 // => x Hx.
  by apply: negbTE; apply: Hd; exact: H.
apply: IsFuture; try exact: at0.
  rewrite /done_at (eq_in_filter (a2 := pred0)) ?filter_pred0 // => x Hx.
  by apply: negbTE; apply: Hc; exact: (allP T3).
apply: recorded_out => f /T4[c' [Hin _]]; apply/eqP; apply: Hd; exact: (map_f fst Hin).
Qed.

(** Handing out, reporting and sharing. *)
Lemma blocks_ok j : j \in jobs ->
  let hd := at_dir (handed s) j.1.1 in let rep := at_dir (reported s) j.1.1 in
  [/\ exists n, hd = take n (remaining F0 j), uniq hd /\ uniq rep, {subset rep <= hd},
      (forall b, b \in hd -> count_mem b (done_at (s_proc s) j.1.2) <= 1) &
      forall b, b \in rep -> count_mem b (done_at (s_proc s) j.1.2) = 1 /\
        count_mem b (recorded (files s) j.1.1 ++ unsaved s j.1.1) = 1].
Proof.
move=> Hj hd rep; have [N EN HC] := job_cases Hj; have Hu := remaining_uniq Hj.
have Hnot b : b \in remaining F0 j -> count_mem b (recorded F0 j.1.1) = 0.
  by rewrite mem_filter => /andP[/count_memPn].
case: HC => [[K1 K2 K3 K4] K5|c P rest Ej K0 A K1|K1 K2 K3 K4].
- rewrite /hd /rep K1; split.
  + by exists (size (remaining F0 j)); rewrite take_size.
  + by rewrite -(perm_uniq K2).
  + by move=> b; rewrite (perm_mem K2).
  + by move=> b Hb; rewrite -(permP K3) (count_uniq_mem b Hu) leq_b1.
  move=> b; rewrite -(perm_mem K2) => Hb; rewrite -(permP K3) (count_uniq_mem b Hu) Hb; split=> //.
  rewrite EN recorded_cat !count_cat (Hnot b Hb) -(permP K4) (count_uniq_mem b Hu) Hb /unsaved.
  by case: K5 => [/eqP/negbTE ->|]; [|rewrite /unsaved => ->].
- have Ed : cur_dir s = j.1.1 by rewrite Ej.
  have Ec : c = j.1.2 by rewrite Ej.
  have E : remaining F0 (j.1.1, c, P) = take (size (remaining F0 (j.1.1, c, P))) (remaining F0 j).
    have -> : remaining F0 j = remaining F0 (j.1.1, c, P ++ rest) by rewrite -Ed {1}Ej.
    exact: remaining_take.
  have Hsub : {subset remaining F0 (j.1.1, c, P) <= remaining F0 j} by move=> b; rewrite E; exact: mem_take.
  have Huh : uniq (remaining F0 (j.1.1, c, P)) by rewrite E take_uniq.
  have Hud : uniq (done_at (s_proc s) c).
    by move: Huh; rewrite (perm_uniq (a_pend A)) cat_uniq => /and3P[].
  have Hur : uniq rep by move: Huh; rewrite (perm_uniq (a_keys A)) !cat_uniq => /and3P[_ _ /and3P[]].
  rewrite -Ec; split.
  + by exists (size (remaining F0 (j.1.1, c, P))); rewrite /hd K1 -E.
  + by rewrite /hd K1.
  + by move=> b Hb; rewrite /hd K1 (perm_mem (a_keys A)) !mem_cat Hb !orbT.
  + by move=> b Hb; rewrite (count_uniq_mem b Hud) leq_b1.
  move=> b Hb; have Hh : b \in remaining F0 (j.1.1, c, P) by rewrite (perm_mem (a_keys A)) !mem_cat Hb !orbT.
  have Hd : b \in done_at (s_proc s) c.
    have Hnk : b \notin keys (s_proc s).
      move: Huh; rewrite (perm_uniq (a_keys A)) cat_uniq => /and3P[_ /hasPn H _].
      by have := H b; rewrite mem_cat Hb orbT => /(_ isT).
    have [N' [past [d [c' [P' [rest' [fut I]]]]]]] := reached.
    move: Hh; rewrite (perm_mem (a_pend A)) mem_cat => /orP[|//] Hp.
    by rewrite (pend_keys (i_ok I) Hp) in Hnk.
  rewrite (count_uniq_mem b Hud) Hd; split=> //.
  rewrite EN recorded_cat /unsaved Ed eqxx -catA count_cat (Hnot b (Hsub _ Hh)) add0n catA.
  rewrite -[RHS]/(nat_of_bool true) -Hd -(count_uniq_mem b Hud) (permP (a_out A)).
  by rewrite /infl -!catA.
- rewrite /hd /rep K1 K2 K3; split=> //; by exists 0; rewrite take0.
Qed.

(** Leaving a configuration. *)
Lemma left_ok J1 j J2 : jobs = J1 ++ j :: J2 -> left s J2 ->
  exists2 N, files s = F0 ++ N & [/\ at_dir (handed s) j.1.1 = remaining F0 j,
    perm_eq (at_dir (reported s) j.1.1) (remaining F0 j) & perm_eq (recorded N j.1.1) (remaining F0 j)].
Proof.
move=> EJ HL; have [N [past [d [c [P [rest [fut I]]]]]]] := reached.
exists N; first exact: (i_files I).
have Hj : j \in jobs by rewrite EJ mem_cat inE eqxx orbT.
have Hpast : j \in past -> [/\ at_dir (handed s) j.1.1 = remaining F0 j,
    perm_eq (at_dir (reported s) j.1.1) (remaining F0 j) & perm_eq (recorded N j.1.1) (remaining F0 j)].
  by move/(i_past I) => [K1 K2 K3 K4]; split; rewrite // perm_sym.
case: (i_link I) => [L1 L2 L3 L4 L5 L6 L7 L8 L9 L10|L1 L2 L3].
  case: HL; last by rewrite L5.
  move=> Epc; have := i_prog I; rewrite Epc => -[_ Ef _].
  by rewrite L1 Ef in Hj.
case: HL => [Epc|].
  have := i_prog I; rewrite Epc => -[Er Ef _].
  have Hjp : j \in rcons past (d, c, P) by move: Hj; rewrite L1 Er Ef cats0 cats1.
  move: Hjp; rewrite mem_rcons inE => /orP[/eqP->|]; last exact: Hpast.
  have [Hk Hf] : keys (s_proc s) = [::] /\ p_finished (s_proc s) = [::] by apply: (i_quiet I); rewrite Epc.
  have Hsh : p_shared (s_proc s) = shared_empty by apply: (i_clean I); rewrite Epc.
  have [Q1 Q2 Q3] := acct_quiet (i_ok I) (i_acct I) Hk Hf; split=> /=.
  - exact: (i_handed I).
  - by rewrite perm_sym.
  - by rewrite perm_sym; apply: (perm_trans Q3); have := a_out (i_acct I); rewrite Epc Hsh /= !cats0.
rewrite L2 => /mapP[j' Hj' Ed]; apply: Hpast.
(* the current job comes after [j], so [j] comes before it *)
have Hu : uniq [seq j.1.1 | j <- jobs] by case/and3P: Hjobs.
have Hidx : index j.1.1 [seq j.1.1 | j <- jobs] = size J1.
  rewrite EJ map_cat index_cat /= eqxx size_map addn0.
  case: ifP => // Hin; move: Hu; rewrite EJ map_cat cat_uniq /= => /and3P[_ /norP[]].
  by rewrite Hin.
have Hidx' : index d [seq j.1.1 | j <- jobs] = size past.
  rewrite L1 map_cat index_cat /= eqxx size_map addn0.
  case: ifP => // Hin; move: Hu; rewrite L1 map_cat cat_uniq /= => /and3P[_ /norP[]].
  by rewrite Hin.
have Hlt : size J1 < size past.
  rewrite -Hidx' EJ map_cat index_cat size_map /=.
  have Hd1 : d \notin [seq j.1.1 | j <- J1] /\ j.1.1 != d.
    move: Hu; rewrite EJ map_cat cat_uniq /= => /and4P[_ /norP[_ /hasPn H] Hn _].
    rewrite Ed; split; first by apply: H; exact: (map_f (fun j : job => j.1.1)).
    by apply/eqP => E; move/negP: Hn; apply; rewrite E; exact: (map_f (fun j : job => j.1.1)).
  by rewrite (negbTE Hd1.1) (negbTE Hd1.2) addnS ltnS leq_addr.
have : nth j jobs (size J1) = j by rewrite EJ nth_cat ltnn subnn.
by rewrite L1 nth_cat Hlt => <-; apply: mem_nth.
Qed.

Lemma consistent_ok : exists2 N, files s = F0 ++ N &
  forall f r, List.In f N -> f_record f = Some r ->
    exists2 j, j \in jobs & [/\ f_dir f = j.1.1, uniq r, {subset r <= remaining F0 j} & sums contrib j.1.2 r (f_store f)].
Proof.
have [N [past [d [c [P [rest [fut I]]]]]]] := reached; exists N; first exact: (i_files I).
move=> f r Hf Hr.
have [_ _ _ /(_ f Hf)[c' [Hin /(_ r Hr)[Hset Hsum]]]] := i_track I.
case: (i_link I) => [L1 L2 L3 L4 L5 L6 L7|L1 L2 L3]; first by rewrite L7 in Hf.
have [j Hj Ej] : exists2 j, j \in jobs & (f_dir f, c') = j.1.
  move: Hin; rewrite mem_rcons inE => /orP[/eqP->|/mapP[j Hj ->]].
    by exists (d, c, P ++ rest) => //; rewrite L1 mem_cat inE eqxx orbT.
  by exists j => //; rewrite L1 mem_cat Hj.
exists j => //; have [Ed Ec] : f_dir f = j.1.1 /\ c' = j.1.2 by rewrite -Ej.
have Hrec : {subset r <= recorded N j.1.1}.
  move=> b Hb; rewrite /recorded -Ed; elim: (N) Hf => [|f' N' IH] //= [->|/IH H].
    by rewrite eqxx /= mem_cat Hr Hb.
  by case: ifP => _ //=; rewrite mem_cat H orbT.
split; rewrite -?Ec //; first exact: (os_wf_uniq block_total).
move=> b /Hrec; have [N' EN HC] := job_cases Hj.
have EN' : N' = N by move: EN; rewrite (i_files I) => /(congr1 (drop (size F0))); rewrite !drop_size_cat.
rewrite EN' in HC.
case: HC => [[K1 K2 K3 K4] _|c0 P' rest' Ej' K0 A K1|K1 K2 K3 ->] //; first by rewrite (perm_mem K4).
move=> Hb; have : b \in remaining F0 (j.1.1, c0, P').
  by rewrite (perm_mem (a_pend A)) mem_cat (perm_mem (a_out A)) !mem_cat Hb !orbT.
rewrite !mem_filter /= => /andP[-> HP] /=; rewrite Ej' /= mem_cat.
by rewrite HP.
Qed.

Lemma new_records j : j \in jobs -> exists2 N, files s = F0 ++ N &
  uniq (recorded N j.1.1) /\ {subset recorded N j.1.1 <= remaining F0 j}.
Proof.
move=> Hj; have [N EN HC] := job_cases Hj; exists N => //; have Hu := remaining_uniq Hj.
case: HC => [[K1 K2 K3 K4] _|c P rest Ej K0 A K1|K1 K2 K3 ->] //.
  by rewrite -(perm_uniq K4); split=> // b; rewrite (perm_mem K4).
have E : remaining F0 j = remaining F0 (j.1.1, c, P ++ rest).
  by have Ed : cur_dir s = j.1.1 by [rewrite Ej]; rewrite -Ed {1}Ej.
have Hsub : {subset remaining F0 (j.1.1, c, P) <= remaining F0 j}.
  by move=> b; rewrite E !mem_filter /= mem_cat => /andP[-> ->].
have Huh : uniq (remaining F0 (j.1.1, c, P)).
  by move: Hu; rewrite E {1}/remaining /= filter_cat cat_uniq => /andP[].
split.
  move: Huh; rewrite (perm_uniq (a_pend A)) cat_uniq => /and3P[_ _].
  by rewrite (perm_uniq (a_out A)) -catA cat_uniq => /andP[].
move=> b Hb; apply: Hsub.
by rewrite (perm_mem (a_pend A)) mem_cat (perm_mem (a_out A)) !mem_cat Hb !orbT.
Qed.
End Run.

(** ** Tables *)
Lemma add_up_recorded fs d c :
  (forall f r, List.In f fs -> f_dir f = d -> f_record f = Some r -> sums contrib c r (f_store f)) ->
  add_up contrib fs d c (recorded fs d).
Proof.
move=> H k; rewrite /tables /recorded.
elim: fs H => [|f fs IH] H //=.
have {}IH := IH (fun f' r Hf => H f' r (or_intror Hf)).
case: eqP => Hd //=; case Er: (f_record f) => [r|] //=.
rewrite map_cat sum_opt_cat -IH; congr add_opt.
by have [_ ->] := H f r (or_introl erefl) Hd Er.
Qed.

Lemma add_up_perm fs d c bs bs' : perm_eq bs bs' -> add_up contrib fs d c bs -> add_up contrib fs d c bs'.
Proof. by move=> Hp H k; rewrite H; apply: sum_opt_perm; apply: perm_map. Qed.

Lemma job_unique j j' : j \in jobs -> j' \in jobs -> j.1.1 = j'.1.1 -> j = j'.
Proof. by case/and3P: Hjobs => H _ _ Hj Hj' E; exact: (uniq_map_in H). Qed.

Lemma run_consistent kinds acts s : run contrib (start kinds F0 (main_program jobs)) acts = Ok s ->
  consistent contrib jobs F0 -> consistent contrib jobs (files s).
Proof.
move=> Hrun HF f r j Hf Hr Hj Ed; have [N EN HN] := consistent_ok Hrun.
move: Hf; rewrite EN => /List.in_app_iff[Hf|Hf]; first exact: HF Hf Hr Hj Ed.
have [j' Hj' [Ed' _ _ Hs]] := HN f r Hf Hr.
by have -> : j = j' by apply: job_unique; rewrite // -Ed.
Qed.

(** A complete run, whatever files it found. *)
Lemma complete_run kinds acts s j : run contrib (start kinds F0 (main_program jobs)) acts = Ok s ->
  s_pc s = PDone -> consistent contrib jobs F0 -> j \in jobs ->
  perm_eq (recorded (files s) j.1.1) (recorded F0 j.1.1 ++ remaining F0 j) /\
  add_up contrib (files s) j.1.1 j.1.2 (recorded F0 j.1.1 ++ remaining F0 j).
Proof.
move=> Hrun Hpc HF Hj.
have [J1 [J2 EJ]] : exists J1 J2, jobs = J1 ++ j :: J2.
  by case: (splitPr Hj) => J1 J2; exists J1, J2.
have [N EN [H1 H2 H3]] := left_ok Hrun EJ (or_introl Hpc).
have Hp : perm_eq (recorded (files s) j.1.1) (recorded F0 j.1.1 ++ remaining F0 j).
  by rewrite EN recorded_cat perm_cat2l.
split=> //; apply: (add_up_perm Hp); apply: add_up_recorded => f r Hf Hd Hr.
exact: (run_consistent Hrun HF Hf Hr Hj Hd).
Qed.
End Jobs.

Lemma new_filesE fs s N : files s = fs ++ N -> new_files fs s = N.
Proof. by rewrite /new_files => ->; exact: drop_size_cat. Qed.

Lemma left_files jobs fs : jobs_wf jobs ->
  forall kinds acts s, run contrib (start kinds fs (main_program jobs)) acts = Ok s ->
  forall earlier j later, jobs = earlier ++ j :: later -> left s later ->
  [/\ files s = fs ++ new_files fs s, perm_eq (at_dir (reported s) j.1.1) (remaining fs j),
      perm_eq (recorded (new_files fs s) j.1.1) (remaining fs j) &
      add_up contrib (new_files fs s) j.1.1 j.1.2 (remaining fs j)].
Proof.
move=> Hjobs kinds acts s Hrun J1 j J2 EJ HL.
have [N EN [H1 H2 H3]] := left_ok Hjobs Hrun EJ HL; rewrite (new_filesE EN); split=> //.
apply: (add_up_perm H3); apply: add_up_recorded => f r Hf Hd Hr.
have [N' EN' /(_ f r)] := consistent_ok Hjobs Hrun.
have -> : N' = N by rewrite -(new_filesE EN) -(new_filesE EN').
move=> /(_ Hf Hr)[j' Hj' [Hd' _ _ Hs]].
have Hj : j \in jobs by rewrite EJ mem_cat inE eqxx orbT.
by have -> : j = j' by apply: (job_unique Hjobs); rewrite // -Hd.
Qed.

Lemma consistent_files jobs fs : jobs_wf jobs ->
  forall kinds acts s, run contrib (start kinds fs (main_program jobs)) acts = Ok s ->
  files s = fs ++ new_files fs s /\
  forall f r, List.In f (new_files fs s) -> f_record f = Some r ->
    exists2 j, j \in jobs & [/\ f_dir f = j.1.1, uniq r, {subset r <= remaining fs j} &
      sums contrib j.1.2 r (f_store f)].
Proof.
move=> Hjobs kinds acts s Hrun; have [N EN HN] := consistent_ok Hjobs Hrun.
by rewrite (new_filesE EN).
Qed.

(** ** Crashes and restarts *)
Lemma history_ok jobs fs : jobs_wf jobs -> history contrib jobs fs ->
  consistent contrib jobs fs /\
  forall j, j \in jobs -> uniq (recorded fs j.1.1) /\ {subset recorded fs j.1.1 <= j.2}.
Proof.
move=> Hjobs; elim=> [|F kinds acts s HF [IH1 IH2] Hrun]; first by split.
split; first exact: run_consistent Hrun IH1.
move=> j Hj; have [H1 H2] := IH2 j Hj; have [N EN [H3 H4]] := new_records Hjobs Hrun Hj.
rewrite EN recorded_cat cat_uniq H1 H3 andbT; split.
  apply/hasPn => b /H4; by rewrite mem_filter => /andP[].
move=> b; rewrite mem_cat => /orP[/H2//|/H4]; by rewrite mem_filter => /andP[].
Qed.

Lemma restart_ok jobs fs kinds acts s j : jobs_wf jobs -> history contrib jobs fs ->
  run contrib (start kinds fs (main_program jobs)) acts = Ok s -> s_pc s = PDone -> j \in jobs ->
  perm_eq (recorded (files s) j.1.1) j.2 /\ add_up contrib (files s) j.1.1 j.1.2 j.2.
Proof.
move=> Hjobs Hh Hrun Hpc Hj; have [H1 H2] := history_ok Hjobs Hh; have [H3 H4] := H2 j Hj.
have [K1 K2] := complete_run Hjobs Hrun Hpc H1 Hj.
have Hp : perm_eq (recorded fs j.1.1 ++ remaining fs j) j.2.
  have Hu : uniq j.2 by have /and3P[_ _ /allP/(_ j Hj)/andP[]] := Hjobs.
  apply: uniq_perm => //.
    rewrite cat_uniq H3 filter_uniq // andbT; apply/hasPn => b; by rewrite mem_filter => /andP[].
  move=> b; rewrite mem_cat mem_filter; case Hb: (b \in recorded fs _) => //=.
  by rewrite (H4 _ Hb).
by split; [exact: perm_trans K1 Hp | exact: add_up_perm Hp K2].
Qed.

(** ** A lost notification *)
(** The only thread sleeps with a block in its queue. *)
Definition asleep (s : state) : Prop :=
  exists b n, [/\ p_threads (s_proc s) = [:: Thread false [:: (b, n)] TWait false],
    p_ready (s_proc s) = [::], p_finished (s_proc s) = [::], ncpu s = 0 /\ nocl s = 0 &
    [/\ assigned s != [::], isSome (file_store s) &
      match s_pc s with
      | PNext | PDelay _ | PContains _ | PFillFinished _ | PFillReady _ | PWait _ => true
      | PSave k | PWriteStore k _ _ | PWriteRecord k _ | PAfter k => delay k
      | _ => false
      end]].

Lemma asleep_step s a s' : asleep s -> not_woken 0 a -> step contrib s a = Ok s' -> asleep s'.
Proof.
move=> [b [n [H1 H2 H3 [H4 H5] [H6 H7 H8]]]]; case: a => [save|t|t] //= Hw.
- rewrite /main_step; case Epc: (s_pc s) H8 => [|b'|b'|b'|b'|b'|t b'|k|k|k r st|k r|k|t|t|t|] //= H8.
  + by case: (prog s) => [|[d c|b'|] cs] [<-]; exists b, n; rewrite /= ?Epc.
  + by case=> <-; exists b, n; split=> //=; split=> //; case: save.
  + case Ef: (file_store s) H7 => [[d r]|] // _ [<-]; exists b, n; split=> //=; split=> //; rewrite ?Ef //.
    by case: ifP => // _; rewrite H5.
  + rewrite /flush_finished_blocks /flush_finished H3 /= => -[<-]; by exists b, n.
  + rewrite /flush_ready H2 /= H4 H5 => -[<-] /=; by exists b, n; split=> //=; rewrite ?H4 ?H5.
  + rewrite /flush_finished_blocks /flush_finished H3 /= => -[<-]; exists b, n; split=> //=; split=> //.
    by case: (assigned s) H6.
  + case Ef: (file_store s) H7 => [[d r]|] // _.
    by rewrite /flush_global /flush_static => -[<-]; exists b, n; split=> //=; rewrite Ef.
  + by case=> <-; exists b, n; split.
  + by case=> <-; exists b, n; split.
  + by case: k Epc H8 => // b' Epc _ [<-]; exists b, n; split.
- rewrite /thread_step H1; case: t => [|t] /=; case=> <-; exists b, n; split=> //=; by case: (s_proc s) H1 H2 H3.
- move=> [<-]; rewrite /wake /notify H1.
  by case: t Hw => [|[|t]] // _; exists b, n; split.
Qed.

Lemma asleep_run acts s s' : asleep s -> all (not_woken 0) acts -> run contrib s acts = Ok s' -> asleep s'.
Proof.
elim: acts s => [|a acts IH] s Hs; first by move=> _ [<-].
move=> /= /andP[Ha Hacts] Hrun; have [s1 H1 H2] := bind_Ok_inv Hrun.
exact: IH (asleep_step Hs Ha H1) Hacts H2.
Qed.

Definition race : seq action :=
  nseq 9 (Main false) ++ [:: Step 0; Main false; Main false; Step 0].

Lemma race_asleep d c b B J :
  exists2 s, run contrib (start [:: false] [::] (main_program ((d, c, b :: B) :: J))) race = Ok s & asleep s.
Proof.
eexists; first by cbv; reflexivity.
by exists b, (Some c); split.
Qed.

Lemma lost_notification d c b bs later :
  exists acts s, [/\ all (not_woken 0) acts,
    run contrib (start [:: false] [::] (main_program ((d, c, b :: bs) :: later))) acts = Ok s &
    forall acts' s', all (not_woken 0) acts' -> run contrib s acts' = Ok s' ->
      s_pc s' <> PDone /\
      exists b n, p_threads (s_proc s') = [:: Thread false [:: (b, n)] TWait false]].
Proof.
have [s H1 H2] := race_asleep d c b bs later; exists race, s; split; [by [] | exact: H1 |].
move=> acts' s' Hw H3.
have [b' [n [K1 K2 K3 K4 [K5 K6 K7]]]] := asleep_run H2 Hw H3.
by split; [move=> E; rewrite E in K7 | exists b', n].
Qed.

(** ** No threads *)
Definition empty_pool (s : state) : Prop :=
  [/\ p_threads (s_proc s) = [::], p_ready (s_proc s) = [::], ncpu s = 0 /\ nocl s = 0, handed s = [::] &
      if s_pc s is PNotify _ _ then false else true].

Lemma reported_fields l s s' : foldM finished_block s l = Ok s' ->
  [/\ s_proc s' = s_proc s, ncpu s' = ncpu s, nocl s' = nocl s, handed s' = handed s & s_pc s' = s_pc s].
Proof.
elim: l s => [|b l IH] s /=; first by move=> [<-].
move=> H; have [s1 H1 H2] := bind_Ok_inv H; have [K1 K2 K3 K4 K5] := IH _ H2.
by move: H1; rewrite /finished_block; case: ifP => // _ [E]; rewrite K1 K2 K3 K4 K5 -E.
Qed.

Lemma empty_step s a s' : empty_pool s -> step contrib s a = Ok s' -> empty_pool s'.
Proof.
move=> [H1 H2 [H3 H4] H5 H6]; case: a => [save|t|t] /=.
- rewrite /main_step; case Epc: (s_pc s) H6 => [|b'|b'|b'|b'|b'|t b'|k|k|k r st|k r|k|t|t|t|] //= _.
  + by case: (prog s) => [|[d c|b'|] cs] [<-]; split; rewrite //= ?Epc.
  + by case=> <-; split=> //=; case: save.
  + by case: (file_store s) => [[d r]|] // [<-]; split=> //=; case: ifP => // _; rewrite H4.
  + move=> H; have [s1 K1 [<-]] := bind_Ok_inv H; have [E1 E2 E3 E4 E5] := reported_fields K1.
    by split; rewrite /= ?E1 ?E2 ?E3 ?E4.
  + by rewrite /flush_ready H2 /= H3 H4 => -[<-].
  + by rewrite H3 H4.
  + move=> H; have [s1 K1 [<-]] := bind_Ok_inv H; have [E1 E2 E3 E4 E5] := reported_fields K1.
    by split; rewrite /= ?E1 ?E2 ?E3 ?E4 //; case: (assigned s1).
  + by case: (file_store s) => [x|] [<-].
  + by case=> <-.
  + by case=> <-.
  + by case: k {Epc} => [b|d c|] [<-].
  + by rewrite H1 /= => -[<-].
  + by rewrite /notify H1 nth_nil /= => -[<-].
  + by rewrite H1 nth_nil /= => -[<-].
  + by move=> [<-]; split; rewrite ?Epc.
- by rewrite /thread_step H1 /= => -[<-].
- by rewrite /wake /notify H1 nth_nil /= => -[<-].
Qed.

Lemma empty_run acts s s' : empty_pool s -> run contrib s acts = Ok s' -> empty_pool s'.
Proof.
elim: acts s => [|a acts IH] s Hs; first by move=> [<-].
by move=> /= Hrun; have [s1 H1 H2] := bind_Ok_inv Hrun; exact: IH (empty_step Hs H1) H2.
Qed.

Lemma no_threads jobs F0 acts s j : jobs_wf jobs ->
  run contrib (start [::] F0 (main_program jobs)) acts = Ok s -> j \in jobs -> remaining F0 j != [::] ->
  handed s = [::] /\ s_pc s <> PDone.
Proof.
move=> Hjobs Hrun Hj Hr.
have He : empty_pool (start [::] F0 (main_program jobs)) by split.
have [_ _ _ Hh _] := empty_run He Hrun; split=> // Hpc.
have [J1 [J2 EJ]] : exists J1 J2, jobs = J1 ++ j :: J2.
  by case: (splitPr Hj) => J1 J2; exists J1, J2.
have [N EN [H1 _ _]] := left_ok Hjobs Hrun EJ (or_introl Hpc).
by rewrite -H1 Hh in Hr.
Qed.

Lemma kinds_count devices hardware nmb per_gpu :
  let kinds := spark_kinds devices hardware nmb per_gpu in
  count_mem true kinds = devices * per_gpu /\
  count_mem false kinds = (if nmb is Some n then n else hardware) - (devices * per_gpu) %/ 8.
Proof.
rewrite /= /spark_kinds !count_cat !count_nseq size_nseq /= !mul0n mul1n mul1n; by rewrite addn0.
Qed.

Lemma no_kinds devices hardware nmb per_gpu : devices * per_gpu = 0 ->
  (if nmb is Some n then n else hardware) = 0 -> spark_kinds devices hardware nmb per_gpu = [::].
Proof. by rewrite /spark_kinds => -> ->. Qed.
End Theorems.
