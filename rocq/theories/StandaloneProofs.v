(** Invariant of the standalone worker pool under every schedule. *)
Set Warnings "-notation-overridden,-ambiguous-paths".
From mathcomp Require Import all_ssreflect zify.
From Verif Require Import Res ResFacts OMap OMapFacts OMapPerm Store StoreSpec StoreProofs FilesProofs
  Pool PoolProofs Standalone StandaloneSpec Account.

Set Implicit Arguments.
Unset Strict Implicit.
Unset Printing Implicit Defensive.

(** ** The observations *)
Lemma at_dir_cat l l' d : at_dir (l ++ l') d = at_dir l d ++ at_dir l' d.
Proof. by rewrite /at_dir filter_cat map_cat. Qed.

Lemma at_dir_pair d d' (bs : seq block) : at_dir [seq (d, b) | b <- bs] d' = if d == d' then bs else [::].
Proof.
rewrite /at_dir filter_map -map_comp /=; case: eqP => [->|Hd].
  by rewrite (eq_filter (a2 := predT)) ?filter_predT ?map_id // => b /=; rewrite eqxx.
by rewrite (eq_filter (a2 := pred0)) ?filter_pred0 // => b /=; apply/eqP.
Qed.

Lemma at_dir_rcons l d b d' : at_dir (rcons l (d, b)) d' = at_dir l d' ++ (if d == d' then [:: b] else [::]).
Proof. by rewrite -cats1 at_dir_cat (at_dir_pair d d' [:: b]). Qed.

Lemma recorded_cat fs fs' d : recorded (fs ++ fs') d = recorded fs d ++ recorded fs' d.
Proof. by rewrite /recorded filter_cat map_cat flatten_cat. Qed.

Lemma recorded_rcons fs f d : recorded (rcons fs f) d =
  recorded fs d ++ (if f_dir f == d then if f_record f is Some r then r else [::] else [::]).
Proof. by rewrite -cats1 recorded_cat /recorded /=; case: ifP => _ //=; rewrite cats0. Qed.

Lemma recorded_out fs d : (forall f, List.In f fs -> f_dir f <> d) -> recorded fs d = [::].
Proof.
elim: fs => [|f fs IH] H //; rewrite -cat1s recorded_cat IH ?cats0.
  by rewrite /recorded /=; case: eqP => // /(H f (or_introl erefl)).
by move=> f' Hf; apply: H; right.
Qed.

(** ** The record read at the start *)
Lemma os_foldl l s b : os_wf block_lt s ->
  os_wf block_lt (foldl (os_insert block_lt) s l) /\
  (b \in foldl (os_insert block_lt) s l) = (b \in s) || (b \in l).
Proof.
elim: l s => [|x l IH] s Hs /=; first by rewrite orbF.
have [H1 H2] := IH _ (os_wf_insert block_total x Hs); split=> //.
by rewrite H2 (mem_os_insert block_total) // inE orbCA orbA.
Qed.

Lemma read_recordsE fs d b : b <> [::] -> os_mem block_lt (read_records fs d) b = (b \in recorded fs d).
Proof.
move=> /eqP Hb; rewrite /read_records.
have [H1 H2] := @os_foldl (flatten [seq file_blocks f | f <- fs & f_dir f == d]) [::] b isT.
rewrite (os_memE block_total) // H2 /= /recorded.
elim: [seq f <- fs | f_dir f == d] => [|f l IH] //=; rewrite !mem_cat IH; congr (_ || _).
rewrite /file_blocks; case: (f_record f) => [[|x r]|] //.
by rewrite inE (negbTE Hb).
Qed.

Lemma read_records_cat fs fs' d : (forall f, List.In f fs' -> f_dir f <> d) ->
  read_records (fs ++ fs') d = read_records fs d.
Proof.
move=> H; rewrite /read_records filter_cat map_cat flatten_cat.
have -> : [seq f <- fs' | f_dir f == d] = [::]; last by rewrite cats0.
elim: fs' H => [|f l IH] H //=; case: eqP => [/(H f (or_introl erefl))|_] //.
by apply: IH => f' Hf; apply: H; right.
Qed.

Lemma complete_last_rcons fs f r :
  complete_last (rcons fs f) r = rcons fs (File (f_dir f) (f_store f) (Some r)).
Proof. by elim: fs => [|x fs IH] //=; rewrite IH; case: fs {IH}. Qed.

(** ** Reporting finished blocks *)
Lemma report_ok l K s : is_set (assigned s) -> perm_eq (assigned s) (l ++ K) ->
  exists a, [/\ foldM finished_block s l =
      Ok (with_reported (with_assigned s a) (reported s ++ [seq (cur_dir s, b) | b <- l])),
    is_set a & perm_eq a K].
Proof.
elim: l s => [|b l IH] s Hs Hp /=.
  by exists (assigned s); rewrite cats0; split=> //; case: (s).
have Hb : b \in assigned s by rewrite (perm_mem Hp) inE eqxx.
rewrite /finished_block (os_memE block_total) // Hb /=.
set s' := with_reported _ _.
have Hs' : is_set (assigned s') by apply: (os_wf_erase block_total).
have Hp' : perm_eq (assigned s') (l ++ K).
  have := os_erase_perm block_total Hs Hb; rewrite perm_sym => H.
  by have := perm_trans H Hp; rewrite /= perm_cons.
have [a [H1 H2 H3]] := IH s' Hs' Hp'; exists a; split=> //.
by rewrite H1 /s' /with_reported /with_assigned /= cat_rcons.
Qed.

(** ** The calls still to be made *)
Definition cmd_of (k : after) : cmd :=
  match k with AfterDelay b => CAssign b | AfterConfig d c => CConfig d c | AfterDestroy => CDestroy end.
Definition todo (s : state) : seq cmd :=
  match s_pc s with
  | PDelay b | PContains b | PFillFinished b | PFillReady b | PHand b => CAssign b :: prog s
  | PWait k | PSave k | PWriteStore k _ _ | PWriteRecord k _ | PAfter k => cmd_of k :: prog s
  | _ => prog s
  end.
Definition closing (x : pc) : bool := if x is (PShut _ | PShutNotify _ | PJoin _ | PDone) then true else false.
Definition notif (x : pc) : seq block := if x is PNotify _ b then [:: b] else [::].
Definition infl (x : pc) : seq block := match x with PWriteStore _ r _ | PWriteRecord _ r => r | _ => [::] end.
Definition delay (k : after) : bool := if k is AfterDelay _ then true else false.
Definition quiet (x : pc) : bool :=
  match x with
  | PSave k | PWriteStore k _ _ | PWriteRecord k _ | PAfter k => ~~ delay k
  | _ => closing x
  end.
Definition clean (x : pc) : bool :=
  match x with
  | PWriteStore k _ _ | PWriteRecord k _ | PAfter k => ~~ delay k
  | _ => closing x
  end.

Definition assigns (rest : seq block) (fut : seq job) : seq cmd :=
  [seq CAssign b | b <- rest] ++ main_program fut.

Lemma assigns_assign rest fut b cs : CAssign b :: cs = assigns rest fut ->
  exists2 rest', rest = b :: rest' & cs = assigns rest' fut.
Proof. by case: rest => [|b' rest]; [case: fut => [|j fut] | move=> [-> ->]; exists rest]. Qed.

Lemma assigns_config rest fut d c cs : CConfig d c :: cs = assigns rest fut ->
  exists B fut', [/\ rest = [::], fut = (d, c, B) :: fut' & cs = assigns B fut'].
Proof.
case: rest => [|b' rest] //; case: fut => [|[[d' c'] B] fut] // [-> -> ->]; exists B, fut; split=> //.
by rewrite /assigns /main_program catA.
Qed.

Lemma assigns_destroy rest fut cs : CDestroy :: cs = assigns rest fut -> [/\ rest = [::], fut = [::] & cs = [::]].
Proof. by case: rest => [|b' rest] //; case: fut => [|j fut] // [->]. Qed.

Section Inv.
Variable contrib : nat -> block -> store.
Hypothesis Hmap : forall c b, is_map (contrib c b).
Variables (jobs : seq job) (F0 : seq file).
Hypothesis Hjobs : jobs_wf jobs.
Local Notation sums := (sums contrib).

Variant link (s : state) (N : seq file) (past : seq job) (d c : nat) (P rest : seq block) (fut : seq job) : Prop :=
  | NoJob of jobs = fut & past = [::] & P = [::] & rest = [::] & file_store s = None &
      p_config (s_proc s) = None & N = [::] & handed s = [::] & reported s = [::] & p_done (s_proc s) = [::]
  | Job of jobs = past ++ (d, c, P ++ rest) :: fut & file_store s = Some (d, read_records F0 d) &
      p_config (s_proc s) = Some c.

(** What is known about a configuration that has been left. *)
Definition past_ok (s : state) (N : seq file) (j : job) : Prop :=
  let h := remaining F0 j in
  [/\ at_dir (handed s) j.1.1 = h, perm_eq h (at_dir (reported s) j.1.1),
      perm_eq h (done_at (s_proc s) j.1.2) & perm_eq h (recorded N j.1.1)].

(** Every file and observation belongs to a configuration that was started, and complete files are
    consistent. *)
Definition track (s : state) (N : seq file) (st : seq (nat * nat)) : Prop :=
  [/\ all (fun x => x.1 \in [seq y.1 | y <- st]) (handed s),
      all (fun x => x.1 \in [seq y.1 | y <- st]) (reported s),
      all (fun x => x.2 \in [seq Some y.2 | y <- st]) (p_done (s_proc s)) &
      forall f, List.In f N -> exists c, (f_dir f, c) \in st /\
        forall r, f_record f = Some r -> is_set r /\ sums c r (f_store f)].

Definition flight (s : state) (N : seq file) (d c : nat) : Prop :=
  match s_pc s with
  | PWriteStore _ r st => [/\ isSome (file_store s), is_set r & sums c r st]
  | PWriteRecord _ r => exists N' st, [/\ N = rcons N' (File d st None), is_set r & sums c r st]
  | PFillFinished b | PFillReady b => b \notin recorded F0 d
  | PHand b => b \notin recorded F0 d /\ 0 < nocl s + ncpu s
  | _ => True
  end.

Record inv (s : state) (N : seq file) (past : seq job) (d c : nat) (P rest : seq block) (fut : seq job) : Prop := MkInv
  { i_link : link s N past d c P rest fut;
    i_files : files s = F0 ++ N;
    i_prog : if closing (s_pc s) then [/\ rest = [::], fut = [::] & prog s = [::]] else todo s = assigns rest fut;
    i_ok : proc_ok (s_proc s) (nocl s) (ncpu s);
    i_acct : acct contrib (s_proc s) c (remaining F0 (d, c, P)) (at_dir (reported s) d)
               (recorded N d ++ infl (s_pc s));
    i_handed : at_dir (handed s) d = remaining F0 (d, c, P);
    i_asg : is_set (assigned s) /\ perm_eq (assigned s ++ notif (s_pc s)) (keys (s_proc s) ++ p_finished (s_proc s));
    i_flight : flight s N d c;
    i_quiet : quiet (s_pc s) -> keys (s_proc s) = [::] /\ p_finished (s_proc s) = [::];
    i_clean : clean (s_pc s) -> p_shared (s_proc s) = shared_empty;
    i_past : forall j, j \in past -> past_ok s N j;
    i_track : track s N (rcons [seq j.1 | j <- past] (d, c)) }.

Definition good (s : state) : Prop := exists N past d c P rest fut, inv s N past d c P rest fut.

(** ** Consequences of the well-formedness of the jobs *)
Section Jobs.
Variables (past : seq job) (d c : nat) (B : seq block) (fut : seq job).
Hypothesis HJ : jobs = past ++ (d, c, B) :: fut.

Lemma job_uniq : uniq B /\ [::] \notin B.
Proof.
by have /and3P[_ _] := Hjobs; rewrite HJ all_cat => /andP[_ /= /andP[/andP[-> ->]]].
Qed.

Lemma job_dir j : j \in past -> d != j.1.1.
Proof.
move=> Hj; have /and3P[H _ _] := Hjobs; move: H; rewrite HJ map_cat cat_uniq => /and3P[_ H _].
apply/eqP => E; move/negP: H; apply; apply/hasP; exists d; first by rewrite inE eqxx.
by rewrite E; exact: (map_f (fun j => j.1.1)).
Qed.

Lemma job_par j : j \in past -> c != j.1.2.
Proof.
move=> Hj; have /and3P[_ H _] := Hjobs; move: H; rewrite HJ map_cat cat_uniq => /and3P[_ H _].
apply/eqP => E; move/negP: H; apply; apply/hasP; exists c; first by rewrite inE eqxx.
by rewrite E; exact: (map_f (fun j => j.1.2)).
Qed.
End Jobs.

Lemma link_uniq s N past d c P rest fut : link s N past d c P rest fut -> uniq P.
Proof.
by case=> [_ _ ->|HJ _ _] //; have [H _] := job_uniq HJ; move: H; rewrite cat_uniq => /and3P[].
Qed.

Lemma rem_uniq s N past d c P rest fut : link s N past d c P rest fut -> uniq (remaining F0 (d, c, P)).
Proof. by move=> H; apply: filter_uniq; exact: (link_uniq H). Qed.

(** ** Steps that only move the main thread *)
Lemma inv_goto s N past d c P rest fut cs x : inv s N past d c P rest fut ->
  closing (s_pc s) = closing x -> (closing x -> cs = prog s) ->
  todo (goto (with_prog s cs) x) = todo s -> infl (s_pc s) = [::] -> infl x = [::] ->
  notif (s_pc s) = [::] -> notif x = [::] -> flight (goto s x) N d c ->
  (quiet x -> keys (s_proc s) = [::] /\ p_finished (s_proc s) = [::]) ->
  (clean x -> p_shared (s_proc s) = shared_empty) -> inv (goto (with_prog s cs) x) N past d c P rest fut.
Proof.
move=> [I1 I2 I3 I4 I5 I6 I7 I8 I9 I10 I11 I12] Hc Hcs Ht Hi Hi' Hn Hn' Hf Hq Hcl; split=> //=.
- by case: I1 => *; [apply: NoJob|apply: Job].
- by rewrite -Hc Ht; case: ifP I3 => // Hcl'; rewrite Hcs // -Hc.
- by move: I5; rewrite Hi Hi'.
- by move: I7; rewrite Hn Hn'.
Qed.

Lemma goto_prog s x : goto (with_prog s (prog s)) x = goto s x. Proof. by []. Qed.

(** ** Steps of the threads *)
Lemma inv_counts s N past d c P rest fut p g n : inv s N past d c P rest fut ->
  proc_ok p g n -> same (s_proc s) p ->
  let s' := with_nocl (with_ncpu (with_proc s p) n) g in
  flight s' N d c -> inv s' N past d c P rest fut.
Proof.
move=> [I1 I2 I3 I4 I5 I6 I7 I8 I9 I10 I11 I12] Hok Hs s' Hf.
have [S1 S2 S3 [S4 S5 S6 S7]] := Hs; split=> //=.
- by case: I1 => *; [apply: NoJob|apply: Job]; rewrite //= ?S5 ?S6.
- exact: acct_same Hs I5.
- by rewrite /keys S2 S3.
- by move/I9; rewrite /keys S2 S3.
- by move/I10; rewrite S4.
- by move=> j Hj; have [K1 K2 K3 K4] := I11 j Hj; split=> //=; rewrite /done_at S5.
- by have [K1 K2 K3 K4] := I12; split=> //=; rewrite S5.
Qed.

Lemma inv_same s N past d c P rest fut p : inv s N past d c P rest fut ->
  proc_ok p (nocl s) (ncpu s) -> same (s_proc s) p -> inv (with_proc s p) N past d c P rest fut.
Proof.
move=> I Hok Hs; have := @inv_counts s N past d c P rest fut p (nocl s) (ncpu s) I Hok Hs.
by apply; exact: (i_flight I).
Qed.

Lemma inv_thread s N past d c P rest fut t : inv s N past d c P rest fut ->
  exists2 p, thread_step contrib (s_proc s) t = Ok p & inv (with_proc s p) N past d c P rest fut.
Proof.
move=> I; have [p [H1 H2 H3 H4 H5]] := thread_step_ok contrib t (i_ok I); exists p => //.
have Hkey : keys (s_proc s) = [::] -> p_finished (s_proc s) = [::] ->
    keys p = [::] /\ p_finished p = [::].
  move=> E1 E2; case: H5 => [K1 K2 K3 K4 K5|b n K0 K1 K2 K3 K4 K5|b K1 K2 K3 K4 K5].
  - by rewrite /keys K2 K3.
  - by rewrite /keys K2 K3.
  - by move/perm_size: K2; rewrite E1.
have Hpend : keys (s_proc s) = [::] -> p_shared p = p_shared (s_proc s).
  move=> E1; case: H5 => [K1 K2 K3 K4 K5|b n K0 K1 K2 K3 K4 K5|b K1 K2 K3 K4 K5] //.
  have : b \in keys (s_proc s) by apply: (pend_keys (i_ok I)); rewrite (perm_mem K1) inE eqxx.
  by rewrite E1.
have Hquiet : clean (s_pc s) -> quiet (s_pc s) by case: (s_pc s).
case: (i_link I) => [L1 L2 L3 L4 L5 L6 L7 L8 L9 L10|L1 L2 L3].
  apply: inv_same => //.
  have [Ek Ef] : keys (s_proc s) = [::] /\ p_finished (s_proc s) = [::].
    have := a_keys (i_acct I); rewrite L3 perm_sym => /perm_nilP.
    by case: (keys _); case: (p_finished _).
  case: H5 => [K1 K2 K3 K4 K5|b n K0|b K1 K2 K3 K4 K5] //; first by rewrite L6 in K0.
  by move/perm_size: K2; rewrite Ek.
case: I => [I1 I2 I3 I4 I5 I6 I7 I8 I9 I10 I11 I12]; split=> //=.
- by apply: Job => //=; rewrite H3.
- by apply: acct_step H5 I5 => //; exact: (rem_uniq I1).
- case: I7 => J1 J2; split=> //; apply: (perm_trans J2).
  case: H5 => [K1 K2 K3 K4 K5|b n K0 K1 K2 K3 K4 K5|b K1 K2 K3 K4 K5]; rewrite ?K3.
  + by rewrite /keys K2.
  + by rewrite /keys K2.
  + apply: (@perm_trans _ ((b :: keys p) ++ p_finished (s_proc s))); first by rewrite perm_cat2r.
    by rewrite -cats1 -cat1s -catA perm_catCA perm_cat2l perm_catC.
- by move/I9 => [E1 E2]; apply: Hkey.
- by move=> Hc; have [E1 E2] := I9 (Hquiet Hc); rewrite Hpend // I10.
- move=> j Hj; have [J1 J2 J3 J4] := I11 j Hj; split=> //=.
  suff -> : done_at p j.1.2 = done_at (s_proc s) j.1.2 by [].
  case: H5 => [K1 K2 K3 K4 K5|b n K0 K1 K2 K3 K4 K5|b K1 K2 K3 K4 K5]; try exact: done_eq.
  have -> : done_at p j.1.2 = done_at (set_done (s_proc s) (rcons (p_done (s_proc s)) (b, Some n))) j.1.2.
    exact: done_eq.
  rewrite done_rcons; move: K0; rewrite L3 => -[<-].
  by rewrite (negbTE (job_par L1 Hj)).
- have [J1 J2 J3 J4] := I12; split=> //=.
  case: H5 => [K1 K2 K3 K4 ->|b n K0 K1 K2 K3 K4 ->|b K1 K2 K3 K4 ->] //.
  rewrite all_rcons J3 andbT /=; move: K0; rewrite L3 => -[<-].
  by rewrite map_rcons mem_rcons inE eqxx.
Qed.

(** ** Steps of the main thread *)
Lemma inv_report s N past d c P rest fut : inv s N past d c P rest fut -> notif (s_pc s) = [::] ->
  exists s', [/\ flush_finished_blocks s = Ok s', inv s' N past d c P rest fut, s_pc s' = s_pc s,
    nocl s' = nocl s /\ ncpu s' = ncpu s & p_finished (s_proc s') = [::] /\ (assigned s' = [::] -> keys (s_proc s') = [::])].
Proof.
move=> [I1 I2 I3 I4 I5 I6 I7 I8 I9 I10 I11 I12] Hn.
case: I7 => Hs; rewrite Hn cats0 => Hp0; have := perm_trans Hp0 (permEl (perm_catC _ _)) => {Hp0} Hp.
rewrite /flush_finished_blocks /flush_finished; set s0 := with_proc _ _.
have [a [H1 H2 H3]] := @report_ok (p_finished (s_proc s)) (keys (s_proc s)) s0 Hs Hp.
rewrite H1; eexists; split; first by reflexivity.
- have Hd : [seq (cur_dir s0, b) | b <- p_finished (s_proc s)] = [seq (d, b) | b <- p_finished (s_proc s)].
    case: I1 => [L1 L2 L3 L4 L5 L6 L7 L8 L9 L10|L1 L2 L3]; last by rewrite /cur_dir /= L2.
    by have := a_keys I5; rewrite L3 perm_sym => /perm_nilP; case: (keys _); case: (p_finished _).
  split=> //=.
  + case: I1 => [L1 L2 L3 L4 L5 L6 L7 L8 L9 L10|L1 L2 L3]; last by apply: Job.
    apply: NoJob => //=; rewrite L9.
    by have := a_keys I5; rewrite L3 perm_sym => /perm_nilP; case: (keys _); case: (p_finished _).
  + by case: I4 => *; split.
  + by rewrite Hd at_dir_cat at_dir_pair eqxx; exact: acct_finished.
  + by rewrite Hn !cats0.
  + by move/I9 => [E _].
  + move=> j Hj; have [K1 K2 K3 K4] := I11 j Hj; split=> //=.
    rewrite Hd at_dir_cat at_dir_pair.
    case: I1 => [L1 L2|L1 L2 L3]; first by rewrite L2 in Hj.
    by rewrite (negbTE (job_dir L1 Hj)) cats0.
  + have [K1 K2 K3 K4] := I12; split=> //=.
    rewrite all_cat K2 Hd all_map /=; apply/allP => b _ /=.
    by rewrite map_rcons mem_rcons inE eqxx.
- by [].
- by [].
- by split=> //= Ha; move: H3; rewrite Ha perm_sym => /perm_nilP.
Qed.

Lemma sums_eq c r st st' : sums c r st -> sums c r st' -> st = st'.
Proof. by move=> [H1 H2] [H3 H4]; apply: map_ext => // k; rewrite H2. Qed.

Lemma acct_empty p c h rep out : acct contrib p c h rep out -> sh_record (p_shared p) = [::] -> p_shared p = shared_empty.
Proof.
move=> A H; have := a_sum A; rewrite H => /sums_eq /(_ (sums_nil contrib c)).
by move: H; case: (p_shared p) => r st /= -> ->.
Qed.

Lemma remaining_rcons d c P b : remaining F0 (d, c, rcons P b) =
  if b \in recorded F0 d then remaining F0 (d, c, P) else rcons (remaining F0 (d, c, P)) b.
Proof. by rewrite /remaining /= filter_rcons; case: ifP => //=; case: ifP. Qed.

Lemma mem_started (st : seq (nat * nat)) x d : x \in [seq y.1 | y <- st] -> x \in [seq y.1 | y <- rcons st d].
Proof. by rewrite map_rcons mem_rcons inE => ->; rewrite orbT. Qed.

Lemma mem_startedc (st : seq (nat * nat)) x d : x \in [seq Some y.2 | y <- st] -> x \in [seq Some y.2 | y <- rcons st d].
Proof. by rewrite map_rcons mem_rcons inE => ->; rewrite orbT. Qed.

Lemma track_rcons s N st x : track s N st -> track s N (rcons st x).
Proof.
move=> [H1 H2 H3 H4]; split.
- by apply: sub_all H1 => y; apply: mem_started.
- by apply: sub_all H2 => y; apply: mem_started.
- by apply: sub_all H3 => y; apply: mem_startedc.
- by move=> f /H4 [c [Hc Hr]]; exists c; split=> //; rewrite mem_rcons inE Hc orbT.
Qed.

(** A new configuration, when nothing of the old one is left. *)
Lemma inv_switch s N past d c B fut : jobs = past ++ (d, c, B) :: fut -> files s = F0 ++ N ->
  prog s = assigns B fut -> proc_ok (s_proc s) (nocl s) (ncpu s) ->
  keys (s_proc s) = [::] -> p_finished (s_proc s) = [::] -> p_shared (s_proc s) = shared_empty ->
  is_set (assigned s) -> perm_eq (assigned s) (keys (s_proc s) ++ p_finished (s_proc s)) ->
  (forall j, j \in past -> past_ok s N j) -> track s N [seq j.1 | j <- past] ->
  let s1 := with_file_store s (Some (d, read_records (files s) d)) in
  inv (goto (with_proc s1 (set_config (s_proc s1) (Some c))) PNext) N past d c [::] B fut.
Proof.
move=> HJ HF Hprog Hok Hk Hf Hsh Ha1 Ha2 Hpast Htr s1.
have Hpend : pend (s_proc s) = [::].
  case E: (pend _) => [|b l] //; have : b \in keys (s_proc s) by apply: (pend_keys Hok); rewrite E inE eqxx.
  by rewrite Hk.
have [T1 T2 T3 T4] := Htr.
have Hd x : x \in [seq y.1 | y <- [seq j.1 | j <- past]] -> x != d.
  by move=> /mapP[y /mapP[j Hj ->] ->]; rewrite eq_sym; exact: (job_dir HJ Hj).
have Hc x : x \in [seq Some y.2 | y <- [seq j.1 | j <- past]] -> x != Some c.
  by move=> /mapP[y /mapP[j Hj ->] ->]; apply/eqP => -[E]; have := job_par HJ Hj; rewrite E eqxx.
have HN f : List.In f N -> f_dir f <> d.
  by move=> /T4[c' [Hin _]]; apply/eqP; apply: Hd; exact: (map_f fst Hin).
have at0 l : all (fun x => x.1 \in [seq y.1 | y <- [seq j.1 | j <- past]]) l -> at_dir l d = [::].
  move=> /allP H; rewrite /at_dir (eq_in_filter (a2 := pred0)) ?filter_pred0 // => x Hx.
  by apply: negbTE; apply: Hd; exact: H.
split=> //=.
- by apply: Job => //=; rewrite HF read_records_cat.
- exact: config_ok.
- rewrite cats0; apply: acct_nil => //=; first exact: at0.
    rewrite /done_at /= (eq_in_filter (a2 := pred0)) ?filter_pred0 // => x Hx.
    by apply: negbTE; apply: Hc; exact: (allP T3).
  exact: recorded_out.
- exact: at0.
- by rewrite cats0.
- exact: track_rcons.
Qed.

Lemma inv_main s N past d c P rest fut save : inv s N past d c P rest fut ->
  exists2 s', main_step s save = Ok s' & good s'.
Proof.
move=> I; have I' := I; case: I' => [I1 I2 I3 I4 I5 I6 I7 I8 I9 I10 I11 I12].
have out s' : inv s' N past d c P rest fut -> good s' by exists N, past, d, c, P, rest, fut.
rewrite /main_step; case Epc: (s_pc s) => [|b|b|b|b|b|t b|k|k|k r st|k r|k|t|t|t|].
- (* PNext *)
  move: I3; rewrite Epc /= /todo Epc => I3.
  case Ep: (prog s) => [|[d' c'|b|] cs]; eexists; try reflexivity; apply: out => //;
    by apply: inv_goto; rewrite ?Epc // /todo Epc Ep.
- (* PDelay *)
  eexists; first reflexivity; apply: out; rewrite -goto_prog.
  by case: save; apply: inv_goto; rewrite ?Epc // /todo Epc.
- (* PContains *)
  move: I3; rewrite Epc /= /todo Epc => I3; have [rest' Er Ep] := assigns_assign I3.
  case: I1 => [L1 L2 L3 L4|L1 L2 L3]; first by rewrite L4 in Er.
  rewrite L2; eexists; first reflexivity.
  have [Hu Hn] := job_uniq L1.
  have Hb : b <> [::] by move=> E; move/negP: Hn; apply; rewrite Er E mem_cat inE eqxx orbT.
  rewrite (read_recordsE _ _ Hb); case: ifP => Hin.
    exists N, past, d, c, (rcons P b), rest', fut; split=> //=.
    + by apply: Job => //=; rewrite L1 Er cat_rcons.
    + by rewrite remaining_rcons Hin; move: I5; rewrite Epc.
    + by rewrite remaining_rcons Hin.
    + by move: I7; rewrite Epc.
  apply: out; rewrite -goto_prog; case: ifP => Hz; apply: inv_goto; rewrite ?Epc // /todo ?Epc //= /flight /= ?Hin //.
  by split=> //; rewrite addn_gt0 lt0n Hz.
- (* PFillFinished *)
  have [|s' [H1 H2 H3 [H4 H5] H6]] := inv_report I; first by rewrite Epc.
  rewrite H1; eexists; first reflexivity; apply: out; rewrite -goto_prog.
  apply: inv_goto; rewrite ?H3 ?Epc // /todo /= ?H3 ?Epc //.
  by have := i_flight I; rewrite /flight Epc.
- (* PFillReady *)
  have := flush_ready_ok I4; case: (flush_ready _) => [p' [nc no]] [H1 H2 H3 H4].
  eexists; first reflexivity; apply: out; set s1 := with_nocl _ _.
  have HI1 : inv s1 N past d c P rest fut.
    by apply: inv_counts => //; have := i_flight I; rewrite /flight Epc /= Epc.
  rewrite -goto_prog; case: ifP => Hz; apply: inv_goto; rewrite ?Epc // /todo /= ?Epc //.
    by have := i_flight I; rewrite /flight /= Epc.
  have := i_flight I; rewrite /flight /= Epc => ->; split=> //.
  by move/negbT: Hz; rewrite negb_and -!lt0n /=; case/orP; lia.
- (* PHand *)
  move: I3; rewrite Epc /= /todo Epc => I3; have [rest' Er Ep] := assigns_assign I3.
  case: I1 => [L1 L2 L3 L4|L1 L2 L3]; first by rewrite L4 in Er.
  have := I8; rewrite /flight Epc => -[Hb Hgc].
  have -> : ~~ (nocl s != 0) && (ncpu s == 0) = false by rewrite negbK; apply/negP => /andP[/eqP E1 /eqP E2]; rewrite E1 E2 in Hgc.
  have Hk : b \notin keys (s_proc s).
    apply/negP => Hin; have : b \in remaining F0 (d, c, P) by rewrite (perm_mem (a_keys I5)) mem_cat Hin.
    rewrite mem_filter /= => /andP[_ HbP]; have [Hu _] := job_uniq L1.
    move: Hu; rewrite Er cat_uniq => /and3P[_ /hasPn H _].
    by have := H b; rewrite inE eqxx => /(_ isT) /negP; apply.
  have Hcfg : isSome (p_config (s_proc s)) by rewrite L3.
  have Hpos : if nocl s != 0 then 0 < nocl s else 0 < ncpu s by case: ifP => Hz; lia.
  have [p' [t [A1 A2 A3 A4 [A5 A6 A7 A8 A9]]]] := assign_ok I4 Hk Hcfg Hpos.
  rewrite A1; eexists; first reflexivity.
  have Ecd : cur_dir s = d by rewrite /cur_dir L2.
  exists N, past, d, c, (rcons P b), rest', fut.
  have -> : (if nocl s != 0 then with_nocl s (nocl s).-1 else with_ncpu s (ncpu s).-1) =
     with_nocl (with_ncpu s (if nocl s != 0 then ncpu s else (ncpu s).-1)) (if nocl s != 0 then (nocl s).-1 else nocl s).
    by case: ifP => _; case: (s).
  split=> //=.
  + by apply: Job; rewrite //= ?L1 ?Er ?cat_rcons // A8.
  + rewrite remaining_rcons (negbTE Hb); apply: acct_assign A3 A4 A5 A6 A7 _.
    by move: I5; rewrite Epc.
  + by rewrite {1}/cur_dir /= L2 at_dir_rcons eqxx cats1 I6 remaining_rcons (negbTE Hb).
  + case: I7 => J1 J2; split=> //; rewrite A5.
    apply: (@perm_trans _ ((b :: keys (s_proc s)) ++ p_finished (s_proc s))); last by rewrite perm_cat2r perm_sym.
    by rewrite cats1 perm_rcons /= perm_cons; move: J2; rewrite Epc cats0.
  + move=> j Hj; have [K1 K2 K3 K4] := I11 j Hj; split=> //=.
      by rewrite {1}/cur_dir /= L2 at_dir_rcons (negbTE (job_dir L1 Hj)) cats0.
    by rewrite (done_eq _ A7).
  + have [K1 K2 K3 K4] := I12; split=> //=; last by rewrite A7.
    by rewrite all_rcons K1 andbT /cur_dir /= L2 map_rcons mem_rcons inE eqxx.
- (* PNotify *)
  have [H1 H2] := notify_ok t I4; eexists; first reflexivity; apply: out.
  have := inv_same I H1 H2; case=> [K1 K2 K3 K4 K5 K6 K7 K8 K9 K10 K11 K12]; split=> //=.
  + by case: K1 => *; [apply: NoJob|apply: Job].
  + by move: K3; rewrite /= /todo /= Epc.
  + by move: K5; rewrite /= Epc.
  + case: K7 => /= J1; rewrite Epc => J2.
    have Hn : b \notin assigned s.
      have : uniq (assigned s ++ [:: b]).
        rewrite (perm_uniq J2); have := rem_uniq I1.
        rewrite (perm_uniq (a_keys K5)) /= catA cat_uniq => /andP[] //.
      by rewrite cats1 rcons_uniq => /andP[].
    split; first exact: (os_wf_insert block_total).
    rewrite cats0; apply: (perm_trans (os_insert_perm block_total J1 Hn)).
    by rewrite -perm_rcons -cats1.
- (* PWait *)
  have [|s' [H1 H2 H3 [H4 H5] [H6 H7]]] := inv_report I; first by rewrite Epc.
  rewrite H1; eexists; first reflexivity; apply: out; rewrite -goto_prog.
  case Ea: (assigned s') => [|b l]; apply: inv_goto; rewrite ?H3 ?Epc // /todo /= ?H3 ?Epc //.
  by move=> _; split=> //; exact: H7.
- (* PSave *)
  case: (i_link I) => [L1 L2 L3 L4 L5 L6 L7 L8 L9 L10|L1 L2 L3].
    rewrite L5; eexists; first reflexivity; apply: out; rewrite -goto_prog; apply: inv_goto; rewrite ?Epc // /todo ?Epc //.
      by move=> Hq; apply: I9; rewrite Epc.
    move=> _; apply: (acct_empty I5); have := a_out I5; rewrite /done_at L10 perm_sym => /perm_nilP.
    by case: (sh_record _) => //; case: (_ ++ _).
  rewrite L2 /flush_global /flush_static; eexists; first reflexivity; apply: out; split=> //=.
  + by apply: Job.
  + by move: I3; rewrite Epc /= /todo Epc.
  + by case: I4.
  + by have := acct_global I5; rewrite Epc cats0.
  + by move: I7; rewrite Epc.
  + by rewrite /flight /= L2; split=> //; [exact: (a_set I5) | exact: (a_sum I5)].
  + by move=> Hq; apply: I9; rewrite Epc.
- (* PWriteStore *)
  have := I8; rewrite /flight Epc => -[HS Hr Hst].
  case: (i_link I) => [L1 L2 L3 L4 L5|L1 L2 L3]; first by rewrite L5 in HS.
  eexists; first reflexivity; rewrite {1}/cur_dir L2.
  exists (rcons N (File d st None)), past, d, c, P, rest, fut; split=> //=.
  + by apply: Job.
  + by rewrite I2 rcons_cat.
  + by move: I3; rewrite Epc /= /todo Epc.
  + by rewrite recorded_rcons /=; case: ifP => _; rewrite cats0; move: I5; rewrite Epc.
  + by move: I7; rewrite Epc.
  + by rewrite /flight /=; exists N, st.
  + by move=> Hq; apply: I9; rewrite Epc.
  + by move=> Hq; apply: I10; rewrite Epc.
  + by move=> j Hj; have [K1 K2 K3 K4] := I11 j Hj; split=> //=; rewrite recorded_rcons /=; case: ifP => _; rewrite cats0.
  + have [K1 K2 K3 K4] := I12; split=> //= f; rewrite -cats1 => /List.in_app_iff[|[<-|//]]; first exact: K4.
    by exists c; split=> //; rewrite mem_rcons inE eqxx.
- (* PWriteRecord *)
  have := I8; rewrite /flight Epc => -[N' [st [EN Hr Hst]]].
  case: (i_link I) => [L1 L2 L3 L4 L5 L6 L7|L1 L2 L3]; first by rewrite L7 in EN; case: (N') EN.
  eexists; first reflexivity; rewrite I2 EN -rcons_cat complete_last_rcons.
  exists (rcons N' (File d st (Some r))), past, d, c, P, rest, fut; split=> //=.
  + by apply: Job.
  + by rewrite rcons_cat.
  + by move: I3; rewrite Epc /= /todo Epc.
  + by rewrite recorded_rcons /= eqxx cats0; move: I5; rewrite Epc EN recorded_rcons /= eqxx cats0.
  + by move: I7; rewrite Epc.
  + by move=> Hq; apply: I9; rewrite Epc.
  + by move=> Hq; apply: I10; rewrite Epc.
  + move=> j Hj; have [K1 K2 K3 K4] := I11 j Hj; split=> //=.
    move: K4; rewrite EN !recorded_rcons /=; by rewrite (negbTE (job_dir L1 Hj)).
  + have [K1 K2 K3 K4] := I12; split=> //= f; rewrite -cats1 => /List.in_app_iff[Hf|[<-|//]].
      by apply: K4; rewrite EN -cats1; apply/List.in_app_iff; left.
    by exists c; split; [rewrite mem_rcons inE eqxx | move=> r' [<-]].
- (* PAfter *)
  move: I3; rewrite Epc /= /todo Epc; case: k Epc => [b|d' c'|] Epc /= I3.
  + by eexists; first reflexivity; apply: out; rewrite -goto_prog; apply: inv_goto; rewrite ?Epc // /todo ?Epc.
  + have [B [fut' [Er Ef Ep]]] := assigns_config I3.
    have [Hk Hf] : keys (s_proc s) = [::] /\ p_finished (s_proc s) = [::] by apply: I9; rewrite Epc.
    have Hsh : p_shared (s_proc s) = shared_empty by apply: I10; rewrite Epc.
    case: I7 => J1; rewrite Epc cats0 => J2.
    eexists; first reflexivity.
    case: (i_link I) => [L1 L2 L3 L4 L5 L6 L7 L8 L9 L10|L1 L2 L3].
      exists N, [::], d', c', [::], B, fut'; apply: inv_switch => //; first by rewrite L1 Ef.
      by split; rewrite ?L8 ?L9 ?L10 ?L7.
    exists N, (rcons past (d, c, P)), d', c', [::], B, fut'; apply: inv_switch => //.
    * by rewrite L1 Er Ef cats0 cat_rcons.
    * move=> j; rewrite mem_rcons inE => /orP[/eqP->|]; last exact: I11.
      have [Q1 Q2 Q3] := acct_quiet I4 I5 Hk Hf; split=> //=.
      by apply: (perm_trans Q3); have := a_out I5; rewrite Epc Hsh /= !cats0.
    * by rewrite map_rcons.
  + have [Er Ef Ep] := assigns_destroy I3.
    eexists; first reflexivity; apply: out; split=> //=.
    * by case: (i_link I) => *; [apply: NoJob|apply: Job].
    * by move: I5; rewrite Epc.
    * by move: I7; rewrite Epc.
    * by move=> _; apply: I9; rewrite Epc.
    * by move=> _; apply: I10; rewrite Epc.
- (* PShut *)
  have Q1 : keys (s_proc s) = [::] /\ p_finished (s_proc s) = [::] by apply: I9; rewrite Epc.
  have Q2 : p_shared (s_proc s) = shared_empty by apply: I10; rewrite Epc.
  case: ltnP => Ht; eexists; try reflexivity; apply: out; rewrite -goto_prog; last first.
    by apply: inv_goto; rewrite ?Epc // /todo Epc.
  have [H1 [S1 S2 S3 [S4 S5 S6 S7]]] := shutdown_ok I4 Ht.
  apply: inv_goto; rewrite /= ?Epc // /todo /= ?Epc // ?S4 //; by apply: inv_same.
- (* PShutNotify *)
  have Q1 : keys (s_proc s) = [::] /\ p_finished (s_proc s) = [::] by apply: I9; rewrite Epc.
  have Q2 : p_shared (s_proc s) = shared_empty by apply: I10; rewrite Epc.
  have [H1 H2] := notify_ok t I4; have [S1 S2 S3 [S4 S5 S6 S7]] := H2.
  eexists; first reflexivity; apply: out; rewrite -goto_prog.
  apply: inv_goto; rewrite /= ?Epc // /todo /= ?Epc // ?S4 //; first by apply: inv_same.
  by rewrite /keys S2 S3.
- (* PJoin *)
  have Q1 : keys (s_proc s) = [::] /\ p_finished (s_proc s) = [::] by apply: I9; rewrite Epc.
  have Q2 : p_shared (s_proc s) = shared_empty by apply: I10; rewrite Epc.
  eexists; first reflexivity; apply: out; case: (t_phase _) => *; try exact: I.
  by rewrite -goto_prog; apply: inv_goto; rewrite ?Epc // /todo Epc.
- (* PDone *)
  by exists s => //; apply: out.
Qed.

Lemma step_ok s a : good s -> exists2 s', step contrib s a = Ok s' & good s'.
Proof.
move=> [N [past [d [c [P [rest [fut I]]]]]]]; case: a => [save|t|t] /=.
- exact: (inv_main save I).
- by have [p H1 H2] := inv_thread t I; exists (with_proc s p); rewrite ?H1 //; exists N, past, d, c, P, rest, fut.
- have [H1 H2] := notify_ok t (i_ok I); eexists; first reflexivity.
  by exists N, past, d, c, P, rest, fut; apply: inv_same.
Qed.

Lemma run_ok acts s : good s -> exists2 s', run contrib s acts = Ok s' & good s'.
Proof.
elim: acts s => [|a acts IH] s Hs; first by exists s.
by have [s1 H1 H2] := step_ok a Hs; have [s2 H3 H4] := IH s1 H2; exists s2 => //; rewrite /run /= H1.
Qed.

Lemma start_good kinds : good (start kinds F0 (main_program jobs)).
Proof.
exists [::], [::], 0, 0, [::], [::], jobs; split=> //=.
- by apply: NoJob.
- by rewrite cats0.
- split=> //=.
  + by rewrite size_map cats0.
  + by move=> t; rewrite size_map => Ht; rewrite (nth_map false).
  + by exists [::], [::].
- apply: acct_nil => //; rewrite /pend /=.
  by elim: kinds.
Qed.
End Inv.
