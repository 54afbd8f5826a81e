(** Consequences of the invariant of the MPI worker pool. *)
Set Warnings "-notation-overridden,-ambiguous-paths".
From mathcomp Require Import all_ssreflect zify.
From Verif Require Import Res ResFacts OMap OMapFacts OMapPerm Store StoreSpec StoreProofs FilesProofs
  Pool PoolProofs Standalone StandaloneSpec Account StandaloneProofs StandaloneTheorems Mpi MpiSpec MpiNode MpiProofs.

Set Implicit Arguments.
Unset Strict Implicit.
Unset Printing Implicit Defensive.

(** ** Sums over processes *)
Section Flat.
Variable T : eqType.
Implicit Types (A B : nat -> seq T) (r : seq nat).

Lemma flat_cat A B r : perm_eq (flatten [seq A i ++ B i | i <- r]) (flatten [seq A i | i <- r] ++ flatten [seq B i | i <- r]).
Proof.
elim: r => [|i r IH] //=; rewrite -!catA perm_cat2l perm_sym perm_catCA perm_cat2l perm_sym.
exact: IH.
Qed.

Lemma flat_nil A r : (forall i, i \in r -> A i = [::]) -> flatten [seq A i | i <- r] = [::].
Proof. by elim: r => [|i r IH] //= H; rewrite H ?mem_head // IH // => j Hj; apply: H; rewrite inE Hj orbT. Qed.

Lemma flat_perm A B r : (forall i, i \in r -> perm_eq (A i) (B i)) ->
  perm_eq (flatten [seq A i | i <- r]) (flatten [seq B i | i <- r]).
Proof.
elim: r => [|i r IH] //= H; apply: perm_cat; first by apply: H; rewrite mem_head.
by apply: IH => j Hj; apply: H; rewrite inE Hj orbT.
Qed.

Lemma flat_one n k (X : seq T) : k < n -> flatten [seq (if k == i then X else [::]) | i <- iota 0 n] = X.
Proof.
move=> Hk; rewrite -{1}(subnKC Hk) iotaD map_cat flatten_cat -{1}addn1 iotaD map_cat flatten_cat /= add0n eqxx !cats0.
rewrite flat_nil ?flat_nil ?cats0 // => i; rewrite mem_iota => /andP[H1 H2]; case: eqP => // E; lia.
Qed.

Lemma flat_count b A r : count_mem b (flatten [seq A i | i <- r]) = sumn [seq count_mem b (A i) | i <- r].
Proof. by elim: r => [|i r IH] //=; rewrite count_cat IH. Qed.

Lemma flat_uniq A B r : (forall i, i \in r -> uniq (A i) /\ {subset A i <= B i}) ->
  uniq (flatten [seq B i | i <- r]) -> uniq (flatten [seq A i | i <- r]).
Proof.
move=> H Hu; apply/count_mem_uniq => b.
have Hle : count_mem b (flatten [seq A i | i <- r]) <= count_mem b (flatten [seq B i | i <- r]).
  rewrite !flat_count {Hu}; elim: r H => [|i r IH] //= H; apply: leq_add.
    have [H1 H2] := H i (mem_head _ _); rewrite (count_uniq_mem b H1); case Hb: (b \in A i) => //.
    by rewrite -has_count; apply/hasP; exists b; [apply: H2 | rewrite /= eqxx].
  by apply: IH => j Hj; apply: H; rewrite inE Hj orbT.
rewrite (count_uniq_mem b Hu) in Hle.
case Hb: (b \in flatten [seq A i | i <- r]); last by apply/count_memPn; rewrite Hb.
have : 0 < count_mem b (flatten [seq A i | i <- r]) by rewrite -has_count; apply/hasP; exists b => //=; rewrite eqxx.
by case: (b \in _) Hle => /=; case: (count _ _) => [|[]].
Qed.
End Flat.

Lemma flat_seen l n d : all (fun x => x.1 < n) l ->
  perm_eq (at_dir (of_all l) d) (flatten [seq seen l i d | i <- iota 0 n]).
Proof.
elim: l => [|[k [d' b]] l IH] /=; first by rewrite flat_nil.
move=> /andP[Hk /IH H].
have E i : seen ((k, (d', b)) :: l) i d = (if k == i then (if d' == d then [:: b] else [::]) else [::]) ++ seen l i d.
  by rewrite -cat1s seen_cat (seen_pair k d' [:: b]); case: (k == i).
rewrite (eq_map E) perm_sym; apply: (perm_trans (flat_cat _ _ _)); rewrite flat_one // perm_sym.
by rewrite /of_all /= -cat1s at_dir_cat (at_dir_pair d' d [:: b]) perm_cat.
Qed.

Section Theorems.
Variable contrib : nat -> block -> store.
Hypothesis Hmap : forall c b, is_map (contrib c b).
Variables (jobs : seq job) (F0 : seq file).
Hypothesis Hjobs : jobs_wf jobs.

Lemma mrun_good kinds acts : 0 < size kinds ->
  exists2 s, mrun contrib (mstart kinds F0 (main_program jobs)) acts = Ok s & mgood contrib jobs F0 s.
Proof. by move=> Hk; exact: (mrun_ok Hmap Hjobs acts (mstart_good contrib jobs F0 Hk)). Qed.

Section Run.
Variables (kinds : seq (seq bool)) (acts : seq maction) (s : mstate).
Hypothesis Hk : 0 < size kinds.
Hypothesis Hrun : mrun contrib (mstart kinds F0 (main_program jobs)) acts = Ok s.
Local Notation num := (size (m_nodes s)).

Lemma mreached : mgood contrib jobs F0 s.
Proof. by have [s' H1 H2] := mrun_good acts Hk; move: H1; rewrite Hrun => -[->]. Qed.

(** A job that has not been started. *)
Lemma future_ok past d c B fut j : jobs = past ++ (d, c, B) :: fut -> j \in fut ->
  (forall x, x \in [seq y.1 | y <- rcons [seq j.1 | j <- past] (d, c)] -> x != j.1.1) /\
  (forall x, x \in [seq Some y.2 | y <- rcons [seq j.1 | j <- past] (d, c)] -> x != Some j.1.2).
Proof.
move=> L1 Hj; split=> x.
  have /and3P[H _ _] := Hjobs; move: H; rewrite L1 map_cat cat_uniq /= => /and4P[_ /norP[_ /hasPn H] Hn _].
  rewrite map_rcons mem_rcons inE => /orP[/eqP-> /=|/mapP[y /mapP[j' Hj' ->] ->]].
    apply/eqP => E; move/negP: Hn; apply; rewrite E; exact: (map_f (fun j : job => j.1.1) Hj).
  apply/eqP => E; have := H j.1.1 (map_f (fun j : job => j.1.1) Hj).
  by rewrite -E => /negP; apply; exact: (map_f (fun j : job => j.1.1) Hj').
have /and3P[_ H _] := Hjobs; move: H; rewrite L1 map_cat cat_uniq /= => /and4P[_ /norP[_ /hasPn H] Hn _].
rewrite map_rcons mem_rcons inE => /orP[/eqP-> /=|/mapP[y /mapP[j' Hj' ->] ->]].
  apply/eqP => -[E]; move/negP: Hn; apply; rewrite E; exact: (map_f (fun j : job => j.1.2) Hj).
apply/eqP => -[E]; have := H j.1.2 (map_f (fun j : job => j.1.2) Hj).
by rewrite -E => /negP; apply; exact: (map_f (fun j : job => j.1.2) Hj').
Qed.

(** What is known about the processes for one job. *)
Record facts (N : seq file) (j : job) : Prop := Facts
  { f_given : exists n, given_any s j.1.1 = take n (remaining F0 j);
    f_proc : forall i, i < num -> [/\ uniq (computed s i j.1.2), {subset computed s i j.1.2 <= given s i j.1.1} &
      {subset reported_by s i j.1.1 <= computed s i j.1.2} /\ uniq (reported_by s i j.1.1)];
    f_out : perm_eq (computed_any s j.1.2) (recorded N j.1.1 ++ munsaved s j.1.1) }.

Lemma obs_num st l : all (obs_ok num st) l -> all (fun x : nat * (nat * block) => x.1 < num) l.
Proof. by apply: sub_all => x /andP[]. Qed.

Lemma obs_out l i d : all (fun x : nat * (nat * block) => x.1 < num) l -> num <= i -> at_dir (of_proc l i) d = [::].
Proof.
move=> /allP H Hi; rewrite /of_proc (eq_in_filter (a2 := pred0)) ?filter_pred0 // => x /H Hx /=.
by apply/negbTE/eqP => E; move: Hx; rewrite E ltnNge Hi.
Qed.

Lemma nodes_map (T : Type) (f : node -> T) : [seq f w | w <- m_nodes s] = [seq f (get_node s i) | i <- iota 0 num].
Proof.
rewrite -[RHS]/(map (f \o nth node0 (m_nodes s)) _) map_comp map_nth_iota0 //.
by rewrite take_size.
Qed.

Lemma unsaved_out (j : job) d r : m_store s = Some (d, r) -> d != j.1.1 -> munsaved s j.1.1 = [::].
Proof. by move=> L2 Hd; rewrite /munsaved /m_dir L2 (negbTE Hd). Qed.

Lemma past_flat N past d c P rest fut j : minv contrib jobs F0 s N past d c P rest fut -> mpast_ok F0 s j ->
  perm_eq (recorded N j.1.1) (remaining F0 j) /\ perm_eq (computed_any s j.1.2) (remaining F0 j).
Proof.
move=> I [K1 K2]; have [T1 T2 T3 _ _] := j_track I; rewrite (j_saved I) -K1.
have HK i : i \in iota 0 num -> i < num by rewrite mem_iota.
split.
  rewrite (permPl (flat_seen _ (obs_num T3))) (permPr (flat_seen _ (obs_num T1))).
  by apply: flat_perm => i /HK Hi; have [_ _] := K2 i Hi; rewrite perm_sym.
rewrite (permPr (flat_seen _ (obs_num T1))); apply: flat_perm => i /HK Hi.
by have [_ H _] := K2 i Hi; rewrite perm_sym.
Qed.

Lemma cur_flat N past d c P rest fut : minv contrib jobs F0 s N past d c P rest fut ->
  m_dir s = d -> perm_eq (computed_any s c) (recorded N d ++ munsaved s d).
Proof.
move=> I Ed; have [T1 T2 T3 _ _] := j_track I; rewrite (j_saved I) /munsaved Ed eqxx.
rewrite (nodes_map (fun w => in_replies (n_out w) ++ sh_record (p_shared (n_proc w)))).
have Ein : in_save (m_pc s) = flatten [seq minfl (m_pc s) i | i <- iota 0 num].
  have := j_flight I; rewrite /mflight; case: (m_pc s) => /=; try by move=> *; rewrite flat_nil.
    move=> ix k r st [Hx _ _ _].
    by rewrite (eq_map (f2 := fun i => if ix == i then r else [::])) ?flat_one // => i; rewrite eq_sym.
  move=> ix k r [Hx _].
  by rewrite (eq_map (f2 := fun i => if ix == i then r else [::])) ?flat_one // => i; rewrite eq_sym.
rewrite Ein perm_sym; apply: (@perm_trans _ (flatten [seq seen (m_saved s) i d | i <- iota 0 num] ++
  flatten [seq minfl (m_pc s) i | i <- iota 0 num] ++
  flatten [seq in_replies (n_out (get_node s i)) ++ sh_record (p_shared (n_proc (get_node s i))) | i <- iota 0 num])).
  by rewrite perm_cat2r; exact: flat_seen (obs_num T3).
rewrite catA perm_sym; pose A i := seen (m_saved s) i d ++ minfl (m_pc s) i.
pose B i := in_replies (n_out (get_node s i)) ++ sh_record (p_shared (n_proc (get_node s i))).
apply: (@perm_trans _ (flatten [seq A i ++ B i | i <- iota 0 num])).
  apply: flat_perm => i; rewrite mem_iota /= => Hi; have [_ _ _ [hp _ H] _] := j_nodes I Hi.
  by rewrite /computed (permPl (a_out H)) /A /B -!catA.
apply: (perm_trans (flat_cat A B _)); rewrite perm_cat2r.
exact: flat_cat.
Qed.

Lemma mfacts j : j \in jobs -> exists2 N, m_files s = F0 ++ N & facts N j.
Proof.
move=> Hj; have [N [past [d [c [P [rest [fut I]]]]]]] := mreached.
exists N; first exact: (j_files I).
have [T1 T2 T3 T4 T5] := j_track I.
have Hur := remaining_uniq F0 Hjobs Hj.
case: (j_link I) => [L1 L2 L3 L4 L5 L6 L7 L8 L9 L10|L1 L2].
  split; rewrite /given_any /given /reported_by /computed_any /computed ?L7 ?L8 //.
  - by exists 0; rewrite take0.
  - by move=> i Hi; rewrite /done_at L10.
  - rewrite L6 /munsaved /= flat_nil; last by move=> i; rewrite mem_iota => Hi; rewrite /done_at L10.
    have -> : in_save (m_pc s) = [::].
      have := j_flight I; rewrite /mflight L5 L6; case: (m_pc s) => //= [? ? ? ? []|? ? ? [_ [N' [st []]]]] //.
      by case: N'.
    rewrite nodes_map flat_nil ?if_same // => i; rewrite mem_iota /= => Hi; have [_ _ _ [hp _ A] _] := j_nodes I Hi.
    have := a_out A; rewrite /done_at L10 //= perm_sym => /perm_nilP.
    by rewrite -catA; case: (_ ++ minfl _ _) => //= ->.
have Ed : m_dir s = d by rewrite /m_dir L2.
have := Hj; rewrite L1 mem_cat inE => /or3P[Hjp|/eqP Ej|Hjf].
- have [K1 K2] := j_past I Hjp; have [Q1 Q2] := past_flat I (j_past I Hjp).
  have Hug i : uniq (given s i j.1.1) by apply: (subseq_uniq (seen_subseq _ _ _)); rewrite K1.
  split.
  + by exists (size (remaining F0 j)); rewrite take_size.
  + move=> i Hi; have [P1 P2 P3] := K2 i Hi.
    split; first by rewrite -(perm_uniq P2); exact: Hug.
      by move=> b; rewrite -(perm_mem P2).
    by split; [move=> b; rewrite -(perm_mem P1) (perm_mem P2) | rewrite -(perm_uniq P1); exact: Hug].
  + rewrite (permPl Q2) perm_sym (unsaved_out L2) ?cats0 //.
    exact: (job_dir Hjobs L1 Hjp).
- rewrite Ej; split=> /=.
  + by exists (size (remaining F0 (d, c, P))); rewrite -remaining_take /given_any (j_handed I).
  + move=> i Hi; have [K1 K2 K3 [hp E A] K5] := j_nodes I Hi.
    have Hu := seen_uniq Hjobs i I.
    have Huh : uniq hp by move: Hu; rewrite E cat_uniq => /andP[].
    have Hd : {subset computed s i c <= hp} by move=> b; rewrite (perm_mem (a_pend A)) mem_cat orbC => ->.
    split.
    * by move: Huh; rewrite (perm_uniq (a_pend A)) cat_uniq => /and3P[].
    * by move=> b /Hd; rewrite /given -/(seen _ _ _) E mem_cat => ->.
    split; last by move: Huh; rewrite (perm_uniq (a_keys A)) catA cat_uniq => /and3P[_ _]; rewrite cat_uniq => /andP[].
    move=> b Hb; have Hbh : b \in hp by rewrite (perm_mem (a_keys A)) !mem_cat Hb !orbT.
    have Hnk : b \notin keys (n_proc (get_node s i)).
      move: Huh; rewrite (perm_uniq (a_keys A)) cat_uniq => /and3P[_ /hasPn H _].
      by have := H b; rewrite !mem_cat Hb !orbT => /(_ isT).
    by move: Hbh; rewrite (perm_mem (a_pend A)) mem_cat => /orP[/(pend_keys K3)|//]; rewrite (negbTE Hnk).
  + exact: cur_flat I Ed.
have [Hd Hc] := future_ok L1 Hjf.
have at0 l : all (obs_ok num (rcons [seq j.1 | j <- past] (d, c))) l ->
    (forall i, at_dir (of_proc l i) j.1.1 = [::]) /\ at_dir (of_all l) j.1.1 = [::].
  move=> /allP H; have Ha : at_dir (of_all l) j.1.1 = [::].
    rewrite /at_dir (eq_in_filter (a2 := pred0)) ?filter_pred0 // => x /mapP[y /H /andP[_ Hy] ->].
    by apply: negbTE; exact: Hd.
  by split=> // i; have := seen_subseq l i j.1.1; rewrite Ha subseq0 => /eqP.
have Hdn i : i < num -> computed s i j.1.2 = [::].
  move=> Hi; rewrite /computed /done_at (eq_in_filter (a2 := pred0)) ?filter_pred0 // => x Hx.
  by apply: negbTE; apply: Hc; exact: (allP (T4 i Hi)).
split.
- by exists 0; rewrite take0 /given_any (at0 _ T1).2.
- by move=> i Hi; rewrite Hdn // /reported_by (at0 _ T2).1.
rewrite (j_saved I) (at0 _ T3).2 (unsaved_out L2); first last.
  by apply: Hd; rewrite map_rcons mem_rcons inE eqxx.
by rewrite /computed_any flat_nil // => i; rewrite mem_iota => Hi; exact: Hdn.
Qed.

Lemma outside i d c : num <= i -> [/\ given s i d = [::], reported_by s i d = [::] & computed s i c = [::]].
Proof.
move=> Hi; have [N [past [d' [c' [P [rest [fut I]]]]]]] := mreached; have [T1 T2 T3 T4 T5] := j_track I.
split; try by apply: obs_out Hi; apply: obs_num; eassumption.
by rewrite /computed /get_node nth_default.
Qed.

Lemma one_owner i i' d b : uniq (given_any s d) -> b \in given s i d -> b \in given s i' d -> i = i'.
Proof.
move=> Hu Hb Hb'; apply/eqP; case: (altP (i =P i')) => // Hne.
have [N [past [d' [c' [P [rest [fut I]]]]]]] := mreached; have [T1 _ _ _ _] := j_track I.
have Hlt k : b \in given s k d -> k < num.
  by case: ltnP => // Hk'; have [-> _ _] := outside d 0 Hk'.
move: Hu; rewrite (perm_uniq (flat_seen _ (obs_num T1))) -/num => /(count_uniq_mem b).
have Hi := Hlt _ Hb; have Hi' := Hlt _ Hb'.
have Hp : perm_eq (iota 0 num) (i :: i' :: [seq k <- iota 0 num | (k != i) && (k != i')]).
  apply: uniq_perm; first exact: iota_uniq.
    by rewrite /= inE negb_or Hne !mem_filter !eqxx ?andbF /= ?andbF ?filter_uniq ?iota_uniq.
  move=> k; rewrite !inE mem_filter mem_iota /= add0n.
  by case: (altP (k =P i)) => [->|_]; rewrite ?Hi //; case: (altP (k =P i')) => [->|_]; rewrite ?Hi' ?orbT.
rewrite (permP (perm_flatten (perm_map _ Hp))) /= !count_cat.
have H1 k : b \in given s k d -> 0 < count_mem b (seen (m_handed s) k d).
  by move=> H; rewrite -has_count; apply/hasP; exists b => //=; rewrite eqxx.
by have := H1 _ Hb; have := H1 _ Hb'; case: (b \in _) => /=; lia.
Qed.

Lemma mfilesE N : m_files s = F0 ++ N -> mnew_files F0 s = N.
Proof. by rewrite /mnew_files => ->; exact: drop_size_cat. Qed.

Lemma mblocks_ok j : j \in jobs ->
  [/\ exists n, given_any s j.1.1 = take n (remaining F0 j),
      uniq (given_any s j.1.1) /\ uniq (computed_any s j.1.2),
      forall i i' b, b \in given s i j.1.1 -> b \in given s i' j.1.1 -> i = i',
      forall i, {subset reported_by s i j.1.1 <= computed s i j.1.2} /\
        {subset computed s i j.1.2 <= given s i j.1.1} /\ uniq (reported_by s i j.1.1) &
      perm_eq (computed_any s j.1.2) (recorded (mnew_files F0 s) j.1.1 ++ munsaved s j.1.1)].
Proof.
move=> Hj; have [N EN [[n F1] F2 F3]] := mfacts Hj; rewrite (mfilesE EN).
have Hu : uniq (given_any s j.1.1) by rewrite F1; apply: take_uniq; exact: (remaining_uniq F0 Hjobs Hj).
split=> //.
- by exists n.
- split=> //; rewrite /computed_any.
  apply: (@flat_uniq _ _ (fun i => given s i j.1.1)).
    by move=> i; rewrite mem_iota /= => /F2[].
  have [N' [past [d' [c' [P [rest [fut I]]]]]]] := mreached; have [T1 _ _ _ _] := j_track I.
  by rewrite -(perm_uniq (flat_seen _ (obs_num T1))).
- by move=> i i' b; apply: one_owner.
- move=> i; case: (ltnP i num) => Hi; first by have [H1 H2 [H3 H4]] := F2 i Hi.
  by have [-> -> ->] := outside j.1.1 j.1.2 Hi.
Qed.

(** Leaving a configuration. *)
Lemma mleft_ok J1 j J2 : jobs = J1 ++ j :: J2 -> mleft s J2 ->
  exists2 N, m_files s = F0 ++ N & [/\ given_any s j.1.1 = remaining F0 j,
    forall i, perm_eq (reported_by s i j.1.1) (given s i j.1.1) /\ perm_eq (computed s i j.1.2) (given s i j.1.1),
    perm_eq (computed_any s j.1.2) (remaining F0 j) & perm_eq (recorded N j.1.1) (remaining F0 j)].
Proof.
move=> EJ HL; have [N [past [d [c [P [rest [fut I]]]]]]] := mreached.
exists N; first exact: (j_files I).
have Hj : j \in jobs by rewrite EJ mem_cat inE eqxx orbT.
have Hout i : num <= i -> perm_eq (reported_by s i j.1.1) (given s i j.1.1) /\ perm_eq (computed s i j.1.2) (given s i j.1.1).
  by move=> Hi; have [-> -> ->] := outside j.1.1 j.1.2 Hi.
have Hok : mpast_ok F0 s j -> [/\ given_any s j.1.1 = remaining F0 j,
    forall i, perm_eq (reported_by s i j.1.1) (given s i j.1.1) /\ perm_eq (computed s i j.1.2) (given s i j.1.1),
    perm_eq (computed_any s j.1.2) (remaining F0 j) & perm_eq (recorded N j.1.1) (remaining F0 j)].
  move=> Hp; have [Q1 Q2] := past_flat I Hp; case: Hp => K1 K2; split=> // i.
  case: (ltnP i num) => Hi; last exact: Hout.
  by have [P1 P2 P3] := K2 i Hi; rewrite perm_sym P1 perm_sym P2.
have Hpast : j \in past -> mpast_ok F0 s j by move=> H; exact: (j_past I H).
apply: Hok; case: (j_link I) => [L1 L2 L3 L4 L5 L6 L7 L8 L9 L10|L1 L2].
  case: HL; last by rewrite L5.
  move=> Epc; have := j_prog I; rewrite Epc => -[_ Ef _].
  by rewrite L1 Ef in Hj.
case: HL => [Epc|].
  have := j_prog I; rewrite Epc => -[Er Ef _].
  have Hjp : j \in rcons past (d, c, P) by move: Hj; rewrite L1 Er Ef cats0 cats1.
  move: Hjp; rewrite mem_rcons inE => /orP[/eqP->|]; last exact: Hpast.
  split=> [|i Hi] /=; first exact: (j_handed I).
  have Hq : perm_eq (seen (m_handed s) i d) (seen (m_reported s) i d) by apply: (j_quiet I); rewrite ?Epc.
  split=> //; last by have := j_clean I Hi; rewrite Epc cats0; apply.
  by have [] := node_quiet (j_nodes I Hi) Hq.
rewrite L2 => /mapP[j' Hj' Ed]; apply: Hpast.
(* the current job comes after [j], so [j] comes before it *)
have Hu : uniq [seq j.1.1 | j <- jobs] by case/and3P: Hjobs.
have Hidx : index j.1.1 [seq j.1.1 | j <- jobs] = size J1.
  rewrite EJ map_cat index_cat /= eqxx size_map addn0.
  case: ifP => // Hin; move: Hu; rewrite EJ map_cat cat_uniq /= => /and3P[_ /norP[]].
  by rewrite Hin.
have Hidx' : index d [seq j.1.1 | j <- jobs] = size past.
  rewrite L1 map_cat index_cat /= eqxx size_map addn0.
  case: ifP => // Hin; move: Hu; rewrite L1 map_cat cat_uniq /= => /and3P[_ /norP[]].
  by rewrite Hin.
have Hlt : size J1 < size past.
  rewrite -Hidx' EJ map_cat index_cat size_map /=.
  have Hd1 : d \notin [seq j.1.1 | j <- J1] /\ j.1.1 != d.
    move: Hu; rewrite EJ map_cat cat_uniq /= => /and4P[_ /norP[_ /hasPn H] Hn _].
    rewrite Ed; split; first by apply: H; exact: (map_f (fun j : job => j.1.1)).
    by apply/eqP => E; move/negP: Hn; apply; rewrite E; exact: (map_f (fun j : job => j.1.1)).
  by rewrite (negbTE Hd1.1) (negbTE Hd1.2) addnS ltnS leq_addr.
have : nth j jobs (size J1) = j by rewrite EJ nth_cat ltnn subnn.
by rewrite L1 nth_cat Hlt => <-; apply: mem_nth.
Qed.

(** The files that are written. *)
Lemma mnew_records j : j \in jobs -> exists2 N, m_files s = F0 ++ N &
  uniq (recorded N j.1.1) /\ {subset recorded N j.1.1 <= remaining F0 j}.
Proof.
move=> Hj; have [N EN [[n F1] F2 F3]] := mfacts Hj; exists N => //.
have [[m G1] [G2 G3] _ G4 _] := mblocks_ok Hj.
have Hc : {subset computed_any s j.1.2 <= remaining F0 j}.
  move=> b /flattenP[l /mapP[i Hi ->] Hb]; have [_ [/(_ b Hb) H _]] := G4 i.
  by have := mem_subseq (seen_subseq _ _ _) H; rewrite -/(given_any s j.1.1) F1 => /mem_take.
split.
  by move: G3; rewrite (perm_uniq F3) cat_uniq => /andP[].
by move=> b Hb; apply: Hc; rewrite (perm_mem F3) mem_cat Hb.
Qed.

Lemma mconsistent_ok : exists2 N, m_files s = F0 ++ N &
  forall f r, List.In f N -> f_record f = Some r ->
    exists2 j, j \in jobs & [/\ f_dir f = j.1.1, uniq r, {subset r <= remaining F0 j} & sums contrib j.1.2 r (f_store f)].
Proof.
have [N [past [d [c [P [rest [fut I]]]]]]] := mreached; exists N; first exact: (j_files I).
move=> f r Hf Hr.
have [_ _ _ _ /(_ f Hf)[c' [Hin /(_ r Hr)[Hset Hsum]]]] := j_track I.
case: (j_link I) => [L1 L2 L3 L4 L5 L6|L1 L2]; first by rewrite L6 in Hf.
have [j Hj Ej] : exists2 j, j \in jobs & (f_dir f, c') = j.1.
  move: Hin; rewrite mem_rcons inE => /orP[/eqP->|/mapP[j Hj ->]].
    by exists (d, c, P ++ rest) => //; rewrite L1 mem_cat inE eqxx orbT.
  by exists j => //; rewrite L1 mem_cat Hj.
exists j => //; have [Ed Ec] : f_dir f = j.1.1 /\ c' = j.1.2 by rewrite -Ej.
have Hrec : {subset r <= recorded N j.1.1}.
  move=> b Hb; rewrite /recorded -Ed; elim: (N) Hf => [|f' N' IH] //= [->|/IH H].
    by rewrite eqxx /= mem_cat Hr Hb.
  by case: ifP => _ //=; rewrite mem_cat H orbT.
split; rewrite -?Ec //; first exact: (os_wf_uniq block_total).
move=> b /Hrec; have [N' EN [_ H]] := mnew_records Hj.
by rewrite -(mfilesE (j_files I)) (mfilesE EN); exact: H.
Qed.

Lemma mrun_consistent : consistent contrib jobs F0 -> consistent contrib jobs (m_files s).
Proof.
move=> HF f r j Hf Hr Hj Ed; have [N EN HN] := mconsistent_ok.
move: Hf; rewrite EN => /List.in_app_iff[Hf|Hf]; first exact: HF Hf Hr Hj Ed.
have [j' Hj' [Ed' _ _ Hs]] := HN f r Hf Hr.
by have -> : j = j' by apply: (job_unique Hjobs); rewrite // -Ed.
Qed.

Lemma mcomplete_run j : m_pc s = QDone -> consistent contrib jobs F0 -> j \in jobs ->
  perm_eq (recorded (m_files s) j.1.1) (recorded F0 j.1.1 ++ remaining F0 j) /\
  add_up contrib (m_files s) j.1.1 j.1.2 (recorded F0 j.1.1 ++ remaining F0 j).
Proof.
move=> Hpc HF Hj.
have [J1 [J2 EJ]] : exists J1 J2, jobs = J1 ++ j :: J2.
  by case: (splitPr Hj) => J1 J2; exists J1, J2.
have [N EN [H1 H2 H3 H4]] := mleft_ok EJ (or_introl Hpc).
have Hp : perm_eq (recorded (m_files s) j.1.1) (recorded F0 j.1.1 ++ remaining F0 j).
  by rewrite EN recorded_cat perm_cat2l.
split=> //; apply: (add_up_perm Hp); apply: add_up_recorded => f r Hf Hd Hr.
exact: (mrun_consistent HF Hf Hr Hj Hd).
Qed.

Lemma mleft_files earlier j later : jobs = earlier ++ j :: later -> mleft s later ->
  [/\ given_any s j.1.1 = remaining F0 j,
      forall i, perm_eq (reported_by s i j.1.1) (given s i j.1.1) /\ perm_eq (computed s i j.1.2) (given s i j.1.1),
      m_files s = F0 ++ mnew_files F0 s, perm_eq (recorded (mnew_files F0 s) j.1.1) (remaining F0 j) &
      add_up contrib (mnew_files F0 s) j.1.1 j.1.2 (remaining F0 j)].
Proof.
move=> EJ HL; have [N EN [H1 H2 H3 H4]] := mleft_ok EJ HL; rewrite (mfilesE EN); split=> //.
apply: (add_up_perm H4); apply: add_up_recorded => f r Hf Hd Hr.
have [N' EN' /(_ f r)] := mconsistent_ok.
have -> : N' = N by rewrite -(mfilesE EN) -(mfilesE EN').
move=> /(_ Hf Hr)[j' Hj' [Hd' _ _ Hs]].
have Hj : j \in jobs by rewrite EJ mem_cat inE eqxx orbT.
by have -> : j = j' by apply: (job_unique Hjobs); rewrite // -Hd.
Qed.

Lemma mconsistent_files : m_files s = F0 ++ mnew_files F0 s /\
  forall f r, List.In f (mnew_files F0 s) -> f_record f = Some r ->
    exists2 j, j \in jobs & [/\ f_dir f = j.1.1, uniq r, {subset r <= remaining F0 j} & sums contrib j.1.2 r (f_store f)].
Proof. by have [N EN HN] := mconsistent_ok; rewrite (mfilesE EN). Qed.
End Run.

Lemma mcredited kinds acts : 0 < size kinds ->
  exists2 s, mrun contrib (mstart kinds F0 (main_program jobs)) acts = Ok s &
    forall i j, j \in jobs -> uniq (reported_by s i j.1.1) /\ {subset reported_by s i j.1.1 <= given s i j.1.1}.
Proof.
move=> Hk; have [s H1 H2] := mrun_good acts Hk; exists s => // i j Hj.
by have [_ _ _ /(_ i)[H3 [H4 H5]] _] := mblocks_ok Hk H1 Hj; split=> // b /H3/H4.
Qed.
End Theorems.

(** ** Crashes and restarts *)
Section Restart.
Variable contrib : nat -> block -> store.
Hypothesis Hmap : forall c b, is_map (contrib c b).
Variable jobs : seq job.
Hypothesis Hjobs : jobs_wf jobs.

Lemma extend_ok F N j : uniq (recorded F j.1.1) -> {subset recorded F j.1.1 <= j.2} ->
  uniq (recorded N j.1.1) -> {subset recorded N j.1.1 <= remaining F j} ->
  uniq (recorded (F ++ N) j.1.1) /\ {subset recorded (F ++ N) j.1.1 <= j.2}.
Proof.
move=> H1 H2 H3 H4; rewrite recorded_cat cat_uniq H1 H3 andbT; split.
  apply/hasPn => b /H4; by rewrite mem_filter => /andP[].
move=> b; rewrite mem_cat => /orP[/H2//|/H4]; by rewrite mem_filter => /andP[].
Qed.

Lemma any_history_ok fs : any_history contrib jobs fs -> consistent contrib jobs fs /\
  forall j, j \in jobs -> uniq (recorded fs j.1.1) /\ {subset recorded fs j.1.1 <= j.2}.
Proof.
elim=> [|F kinds acts s HF [IH1 IH2] Hrun|F kinds acts s HF [IH1 IH2] Hk Hrun]; first by split.
  split; first exact: (run_consistent Hmap Hjobs Hrun IH1).
  move=> j Hj; have [H1 H2] := IH2 j Hj; have [N EN [H3 H4]] := new_records Hmap Hjobs Hrun Hj.
  by rewrite EN; exact: extend_ok.
split; first exact: (mrun_consistent Hmap Hjobs Hk Hrun IH1).
move=> j Hj; have [H1 H2] := IH2 j Hj; have [N EN [H3 H4]] := mnew_records Hmap Hjobs Hk Hrun Hj.
by rewrite EN; exact: extend_ok.
Qed.

Lemma all_blocks fs j : any_history contrib jobs fs -> j \in jobs -> perm_eq (recorded fs j.1.1 ++ remaining fs j) j.2.
Proof.
move=> Hh Hj; have [H1 H2] := any_history_ok Hh; have [H3 H4] := H2 j Hj.
have Hu : uniq j.2 by have /and3P[_ _ /allP/(_ j Hj)/andP[]] := Hjobs.
apply: uniq_perm => //.
  rewrite cat_uniq H3 filter_uniq // andbT; apply/hasPn => b; by rewrite mem_filter => /andP[].
move=> b; rewrite mem_cat mem_filter; case Hb: (b \in recorded fs _) => //=.
by rewrite (H4 _ Hb).
Qed.

Lemma mrestart_ok fs : any_history contrib jobs fs ->
  (forall kinds acts s, run contrib (start kinds fs (main_program jobs)) acts = Ok s -> s_pc s = PDone ->
    forall j, j \in jobs -> perm_eq (recorded (files s) j.1.1) j.2 /\ add_up contrib (files s) j.1.1 j.1.2 j.2) /\
  (forall kinds acts s, 0 < size kinds -> mrun contrib (mstart kinds fs (main_program jobs)) acts = Ok s ->
    m_pc s = QDone ->
    forall j, j \in jobs -> perm_eq (recorded (m_files s) j.1.1) j.2 /\ add_up contrib (m_files s) j.1.1 j.1.2 j.2).
Proof.
move=> Hh; have [H1 H2] := any_history_ok Hh; split=> kinds acts s.
  move=> Hrun Hpc j Hj; have Hp := all_blocks Hh Hj.
  have [K1 K2] := complete_run Hmap Hjobs Hrun Hpc H1 Hj.
  by split; [exact: perm_trans K1 Hp | exact: add_up_perm Hp K2].
move=> Hk Hrun Hpc j Hj; have Hp := all_blocks Hh Hj.
have [K1 K2] := mcomplete_run Hmap Hjobs Hk Hrun Hpc H1 Hj.
by split; [exact: perm_trans K1 Hp | exact: add_up_perm Hp K2].
Qed.
End Restart.
